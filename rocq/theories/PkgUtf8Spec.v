(** Specification of the operations on characters. *)
From Coq Require Import String List ZArith Bool.
From Coq Require Import Floats.SpecFloat.
From Verif Require Import Float Utf8.
Import ListNotations.
Local Open Scope Z_scope.

(** The elements at the positions that [P] selects; the first position is [i]. *)
Fixpoint pick {A} (P : Z -> bool) (i : Z) (l : list A) : list A :=
  match l with
  | [] => []
  | x :: l => if P i then x :: pick P (i + 1) l else pick P (i + 1) l
  end.
Definition characters_at (start stop : number) (cs : list Z) : list Z :=
  pick (fun i => SFltb start (of_int (i + 1)) && SFleb (of_int i) stop) 1 cs.

(** [p] stands in [l] after [n] elements, *)
Definition occurs {A} (p l : list A) (n : nat) : Prop := exists x y, l = x ++ p ++ y /\ n = List.length x.
(** and nowhere before. *)
Definition first_occurs {A} (p l : list A) (n : nat) : Prop := occurs p l n /\ forall m, occurs p l m -> (n <= m)%nat.

(** Whole numbers, or one of the infinities *)
Definition whole (x : number) : Prop :=
  x = S754_infinity false \/ x = S754_infinity true \/ exists n, x = of_int n /\ - 2 ^ 52 < n < 2 ^ 52.
