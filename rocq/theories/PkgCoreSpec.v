(** Specification of the operations on lists, booleans, numbers and bits. *)
From Coq Require Import String List ZArith Bool.
From Coq Require Import Floats.SpecFloat.
From Verif Require Import Base Float.
Import ListNotations.
Local Open Scope Z_scope.

(** Whole numbers that a 64-bit floating-point number represents exactly. *)
Definition exact (z : Z) : Prop := Z.abs z < 2 ^ 53.

(** The whole numbers from [a] to [b], in order. *)
Definition integers (a b : Z) : list Z := map (fun i => a + Z.of_nat i) (seq 0 (Z.to_nat (b - a + 1))).

Definition total (zs : list Z) : Z := fold_left Z.add zs 0.

(** [x <= y] *)
Definition at_most (x y : number) : Prop := SFleb x y = true.
