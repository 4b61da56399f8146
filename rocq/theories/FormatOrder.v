(** The formatter puts imports in order. *)
From Coq Require Import String Ascii List Bool NArith Permutation Sorted.
From Verif Require Import Base Syntax Ast Printer ParserSpec ParserModule.
Import ListNotations.

(** Strings are ordered by their first different characters, and paths by their
    first different components.  A shorter one goes first. *)
Inductive first_different {A} (lt : A -> A -> Prop) : list A -> list A -> Prop :=
| fd_end : forall l, first_different lt [] l
| fd_less : forall a b l k, lt a b -> first_different lt (a :: l) (b :: k)
| fd_same : forall a l k, first_different lt l k -> first_different lt (a :: l) (a :: k).
Definition string_order (a b : string) : Prop :=
  first_different (fun c d => (N_of_ascii c < N_of_ascii d)%N) (list_ascii_of_string a) (list_ascii_of_string b).
Definition path_order : list string -> list string -> Prop := first_different (fun a b => string_order a b /\ a <> b).
(** Imports from packages go first. *)
Definition import_order (i j : aimport) : Prop :=
  match i_path i, i_path j with
  | External p l, External q k => path_order (p :: l) (q :: k)
  | External _ _, Internal _ => True
  | Internal _, External _ _ => False
  | Internal l, Internal k => path_order l k
  end.

Lemma compare_order a : forall b, match String.compare a b with Lt => string_order a b /\ a <> b | Eq => a = b | Gt => True end.
Proof.
  unfold string_order. induction a as [|c a IH]; intros [|d b]; cbn; auto.
  - split; [constructor|discriminate].
  - unfold Ascii.compare. destruct (N.compare_spec (N_of_ascii c) (N_of_ascii d)) as [E|L|G]; [|split; [constructor; exact L|intros [= -> ->]; exact (N.lt_irrefl _ L)]|exact I].
    assert (c = d) by (rewrite <- (ascii_N_embedding c), <- (ascii_N_embedding d), E; reflexivity). subst d. specialize (IH b). destruct (String.compare a b); [subst; reflexivity| |exact I].
    destruct IH as [IH N]. split; [apply fd_same; exact IH|congruence].
Qed.
Lemma string_le_order a b : string_le a b = true -> string_order a b.
Proof.
  unfold string_le. pose proof (compare_order a b) as H. destruct (String.compare a b); intros E; [subst|apply H|discriminate]. unfold string_order. induction (list_ascii_of_string b); [constructor|apply fd_same; assumption].
Qed.
Lemma strings_le_order a : forall b, strings_le a b = true -> path_order a b.
Proof.
  unfold path_order. induction a as [|x a IH]; intros [|y b]; cbn; try discriminate; try (intros; constructor; fail). pose proof (compare_order x y) as H. destruct (String.compare x y); intros E; [subst; apply fd_same; auto|apply fd_less; exact H|discriminate].
Qed.
Lemma path_le_order i j : path_le (i_path i) (i_path j) = true -> import_order i j.
Proof. unfold import_order. destruct (i_path i), (i_path j); cbn [path_le]; auto using strings_le_order. discriminate. Qed.
Lemma ascending_sorted {A} (le : A -> A -> bool) (R : A -> A -> Prop) l : (forall a b, le a b = true -> R a b) -> ascending le l -> Sorted R l.
Proof. intros H. induction l as [|x l IH]; intros A0; [constructor|]. destruct A0 as [A1 A2]. constructor; [apply IH, A2|]. destruct l; constructor. apply H, A1. Qed.
Lemma sorted_app {A} (R : A -> A -> Prop) a b : Sorted R a -> Sorted R b -> (forall x y, In x a -> In y b -> R x y) -> Sorted R (a ++ b).
Proof.
  induction a as [|x a IH]; intros Ha Hb H; [exact Hb|]. inversion Ha as [|x0 a0 S0 R0]; subst. cbn. constructor; [apply IH; auto; intros; apply H; [right; assumption|assumption]|].
  destruct a as [|y a]; [destruct b as [|y b]; constructor; apply H; left; reflexivity|inversion R0; subst; constructor; assumption].
Qed.
Lemma sorted_map {A B} (f : A -> B) (R : B -> B -> Prop) l : Sorted (fun a b => R (f a) (f b)) l -> Sorted R (map f l).
Proof. induction 1 as [|x l S IH H]; cbn; constructor; [exact IH|]. destruct H; constructor. assumption. Qed.

Lemma imports_sorted m :
  Sorted import_order (m_imports (sorted_module m)) /\ (forall i, In i (m_imports (sorted_module m)) -> Sorted string_order (i_names i)).
Proof.
  unfold sorted_module. destruct (partition is_external (m_imports m)) as [ext int] eqn:P. cbn [m_imports]. destruct (partition_sides _ _ _ _ P) as [H1 H2].
  assert (S : forall l, Sorted import_order (map sorted_import (sort_imports l))).
  { intros l. apply sorted_map. eapply ascending_sorted; [|unfold sort_imports; apply sort_ascending; intros x y; apply path_total]. intros a b H. apply path_le_order in H. exact H. }
  split.
  - apply sorted_app; [apply S|apply S|]. intros x y Ix Iy. apply in_map_iff in Ix. destruct Ix as (a & <- & Ia). apply in_map_iff in Iy. destruct Iy as (b & <- & Ib).
    apply (Permutation_in _ (Permutation_sym (sort_permutation _ _))) in Ia. apply (Permutation_in _ (Permutation_sym (sort_permutation _ _))) in Ib. apply H1 in Ia. apply H2 in Ib.
    unfold is_external in Ia, Ib. unfold import_order, sorted_import. cbn [i_path]. destruct (i_path a), (i_path b); try discriminate. exact I.
  - intros i Ii. assert (X : exists j, i = sorted_import j) by (apply in_app_iff in Ii; destruct Ii as [Ii|Ii]; apply in_map_iff in Ii; destruct Ii as (j & <- & _); eauto). destruct X as (j & ->). cbn [i_names sorted_import].
    eapply ascending_sorted; [exact string_le_order|]. apply sort_ascending. exact string_total.
Qed.
