(** Specification of flags, from the comment in packages/flag/Flag.pen 3-8. *)
From Coq Require Import String List.
From Verif Require Import PkgBytesSpec.
Import ListNotations.
Local Open Scope string_scope.

(** The arguments [ss] are the named flags [ns] and the positional flags [ps]. *)
Inductive flags : list string -> list (string * string) -> list string -> Prop :=
| flags_none : flags [] [] []
| flags_separator : forall ps, flags ("--" :: ps) [] ps
| flags_positional : forall p ps, prefix "-" p = false -> flags (p :: ps) [] (p :: ps)
| flags_named : forall k v ss ns ps, k <> "-" -> flags ss ns ps -> flags (("-" ++ k) :: v :: ss) ((k, v) :: ns) ps.

(** The value of [k] is that of the last flag with this key. *)
Definition value_of (ns : list (string * string)) (k : string) : option string :=
  fold_left (fun r kv => if String.eqb (fst kv) k then Some (snd kv) else r) ns None.
