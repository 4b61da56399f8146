(** Generated names. *)
From Coq Require Import String Ascii List Arith Lia Decimal DecimalString DecimalNat.
From Coq Require Nat.
Import ListNotations.
Local Open Scope string_scope.

(** Decimal numbers as written by [format!("{}", n)]. *)
Definition decimal (n : nat) : string := NilEmpty.string_of_uint (Nat.to_uint n).

(** [format!("{name}:{count}")] *)
Definition numbered (name : string) (n : nat) : string := name ++ ":" ++ decimal n.

Fixpoint has_colon (s : string) : bool :=
  match s with
  | EmptyString => false
  | String c s => orb (Ascii.eqb c ":") (has_colon s)
  end.

Lemma uint_no_colon u : has_colon (NilEmpty.string_of_uint u) = false.
Proof. induction u; cbn; assumption || reflexivity. Qed.

Lemma decimal_no_colon n : has_colon (decimal n) = false.
Proof. apply uint_no_colon. Qed.

Lemma decimal_inj a b : decimal a = decimal b -> a = b.
Proof.
  unfold decimal. intros H. apply (f_equal NilEmpty.uint_of_string) in H.
  rewrite !NilEmpty.usu in H. injection H as H.
  rewrite <- (Unsigned.of_to a), <- (Unsigned.of_to b). congruence.
Qed.

Lemma has_colon_app a b : has_colon (a ++ b) = orb (has_colon a) (has_colon b).
Proof.
  induction a as [|c a IH]; cbn; [reflexivity|]. rewrite IH. apply Bool.orb_assoc.
Qed.

(** The last colon is unique. *)
Lemma colon_inj a : forall b s t, has_colon s = false -> has_colon t = false ->
  a ++ ":" ++ s = b ++ ":" ++ t -> a = b /\ s = t.
Proof.
  induction a as [|c a IH]; intros b s t Hs Ht E; destruct b as [|c' b]; cbn in E.
  - injection E as E. auto.
  - injection E as _ E. exfalso. subst s. rewrite has_colon_app in Hs. cbn in Hs.
    rewrite Bool.orb_true_r in Hs. discriminate.
  - injection E as _ E. exfalso. subst t. rewrite has_colon_app in Ht. cbn in Ht.
    rewrite Bool.orb_true_r in Ht. discriminate.
  - injection E as -> E. destruct (IH b s t Hs Ht E) as [-> ->]. auto.
Qed.

Lemma numbered_inj a b i j : numbered a i = numbered b j -> a = b /\ i = j.
Proof.
  unfold numbered. intros E. apply colon_inj in E; try apply decimal_no_colon.
  destruct E as [-> E]. split; [reflexivity|]. apply decimal_inj. assumption.
Qed.

Lemma app_length_string a b : String.length (a ++ b) = String.length a + String.length b.
Proof. induction a; cbn; [reflexivity|]. rewrite IHa. reflexivity. Qed.

Lemma numbered_neq a i : numbered a i <> a.
Proof.
  intros E. apply (f_equal String.length) in E. unfold numbered in E.
  rewrite !app_length_string in E. cbn in E. lia.
Qed.
