(** Specification of slices and views of strings. *)
From Coq Require Import String List ZArith Bool.
From Coq Require Import Floats.SpecFloat.
From Verif Require Import Float.
Local Open Scope string_scope.
Local Open Scope Z_scope.

(** A 64-bit floating-point number *)
Definition a_number (x : number) : Prop := valid_binary 53 1024 x = true.

(** The bytes of [s] at the positions that [P] selects; the first position is [i]. *)
Fixpoint select (P : Z -> bool) (i : Z) (s : string) : string :=
  match s with
  | "" => ""
  | String c s => if P i then String c (select P (i + 1) s) else select P (i + 1) s
  end.

(** The bytes of [s] at the positions from [start] to [stop]; the first byte is at
    position 1, and fractions are dropped. *)
Definition bytes_at (start stop : number) (s : string) : string :=
  select (fun i => SFltb start (of_int (i + 1)) && SFleb (of_int i) stop) 1 s.

(** Strings fit in the memory of a computer: far fewer than 2 ^ 52 bytes. *)
Definition reasonable (s : string) : Prop := Z.of_nat (String.length s) + 2 < 2 ^ 52.

(** Bounds: whole numbers, or infinity *)
Definition bound (least : Z) (x : number) : Prop :=
  x = infinity \/ exists n, x = of_int n /\ least <= n < 2 ^ 52.

(** [v] is a view that the program made: of a whole string, or of the part of
    another view that was asked for.  [t] is what it shows. *)
From Verif Require Import PkgBytes.
Inductive viewed : view -> string -> Prop :=
| viewed_new : forall s, reasonable s -> viewed (view_new s) s
| viewed_slice : forall v t start stop, viewed v t -> bound 1 start -> bound 0 stop ->
    viewed (view_slice v start stop) (bytes_at start stop t)
| viewed_seek : forall v t n, viewed v t -> bound 0 n -> viewed (view_seek v n) (select (fun i => SFltb n (of_int i)) 1 t).
