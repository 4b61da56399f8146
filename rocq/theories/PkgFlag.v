(** Model of packages/flag/Flag.pen. *)
From Coq Require Import String List ZArith Bool.
From Verif Require Import Base Float PkgBytes.
Import ListNotations.
Local Open Scope string_scope.

(** Flag.pen 14-18.  Simplification: a map is a list of entries, the latest first
    (C11 to C17 are about the map itself). *)
Record set := Set_ { named : list (string * string); positional : list string }.

(** Flag.pen 20-22 *)
Definition flag_prefix := "-".
Definition separator := "--".

(** Flag.pen 29-55 [parse] *)
Fixpoint parse_flags (ss : list string) (ns : list (string * string)) : res set :=
  match ss with
  | [] => Ok (Set_ ns ss)
  | s :: ss =>
      if String.eqb s separator then Ok (Set_ ns ss)
      else if starts_with s flag_prefix then
        match ss with
        | v :: ss =>
            bind (byte_slice s (add (byte_length flag_prefix) (of_int 1)) infinity) (fun k => parse_flags ss ((k, v) :: ns))
        | [] => NotFound "flag value missing"
        end
      else Ok (Set_ ns (s :: ss))
  end.

(** Flag.pen 24-27 [Parse] *)
Definition parse (ss : list string) : res set := parse_flags ss [].
