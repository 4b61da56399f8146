(** The derived order on types is a total order, and [BTreeSet]s of types are
    determined by their elements. *)
From Coq Require Import String List Ascii Arith Lia Bool Sorted.
From Verif Require Import Base HirType.
Import ListNotations.

Section TyInd.
  Variable P : ty -> Prop.
  Hypothesis Hany : P TAny.
  Hypothesis Hboolean : P TBoolean.
  Hypothesis Herror : P TError.
  Hypothesis Hfunction : forall a r, Forall P a -> P r -> P (TFunction a r).
  Hypothesis Hlist : forall e, P e -> P (TList e).
  Hypothesis Hmap : forall k v, P k -> P v -> P (TMap k v).
  Hypothesis Hnone : P TNone.
  Hypothesis Hnumber : P TNumber.
  Hypothesis Hrecord : forall n o, P (TRecord n o).
  Hypothesis Hreference : forall x, P (TReference x).
  Hypothesis Hstring : P TString.
  Hypothesis Hunion : forall l r, P l -> P r -> P (TUnion l r).
  Fixpoint ty_ind' (t : ty) : P t :=
    match t with
    | TAny => Hany | TBoolean => Hboolean | TError => Herror
    | TFunction a r =>
        Hfunction a r
          ((fix go (l : list ty) : Forall P l :=
              match l with [] => Forall_nil _ | x :: xs => Forall_cons _ (ty_ind' x) (go xs) end) a)
          (ty_ind' r)
    | TList e => Hlist e (ty_ind' e)
    | TMap k v => Hmap k v (ty_ind' k) (ty_ind' v)
    | TNone => Hnone | TNumber => Hnumber
    | TRecord n o => Hrecord n o
    | TReference x => Hreference x
    | TString => Hstring
    | TUnion l r => Hunion l r (ty_ind' l) (ty_ind' r)
    end.
End TyInd.

Lemma lex_eq c d : lex c d = Eq <-> c = Eq /\ d = Eq.
Proof. destruct c; cbn; intuition congruence. Qed.

Lemma ty_compare_eq s t : ty_compare s t = Eq <-> s = t.
Proof.
  revert t. induction s as [| | |a r IHa IHr|e IHe|k v IHk IHv| | |n o|x| |l r IHl IHr] using ty_ind';
    intros t; destruct t; cbn [ty_compare ty_index Nat.compare];
    try (split; [discriminate|congruence]); try tauto.
  - rewrite lex_eq, IHr.
    assert (H : compare_list ty_compare a arguments = Eq <-> a = arguments).
    { revert arguments. induction IHa as [|y ys Hy _ IH]; intros [|z zs]; cbn [compare_list];
        try (split; [discriminate|congruence]); try tauto.
      rewrite lex_eq, Hy, IH. split; [intros [-> ->]; reflexivity|intros H; injection H as -> ->; auto]. }
    rewrite H. split; [intros [-> ->]; reflexivity|intros H'; injection H' as -> ->; auto].
  - rewrite IHe. split; congruence.
  - rewrite lex_eq, IHk, IHv. split; [intros [-> ->]; reflexivity|intros H; injection H as -> ->; auto].
  - rewrite lex_eq, !string_compare_eq. split; [intros [-> ->]; reflexivity|intros H; injection H as -> ->; auto].
  - rewrite string_compare_eq. split; congruence.
  - rewrite lex_eq, IHl, IHr. split; [intros [-> ->]; reflexivity|intros H; injection H as -> ->; auto].
Qed.

Lemma lex_opp c d : lex (CompOpp c) (CompOpp d) = CompOpp (lex c d).
Proof. destruct c; reflexivity. Qed.

Lemma ty_compare_antisym s t : ty_compare s t = CompOpp (ty_compare t s).
Proof.
  revert t. induction s as [| | |a r IHa IHr|e IHe|k v IHk IHv| | |n o|x| |l r IHl IHr] using ty_ind';
    intros t; destruct t; cbn [ty_compare ty_index Nat.compare CompOpp]; try reflexivity.
  - rewrite <- lex_opp. f_equal; [|apply IHr].
    revert arguments. induction IHa as [|y ys Hy _ IH]; intros [|z zs]; cbn [compare_list]; try reflexivity.
    rewrite <- lex_opp, Hy, IH. reflexivity.
  - apply IHe.
  - rewrite <- lex_opp, IHk, IHv. reflexivity.
  - rewrite <- lex_opp, <- !string_compare_antisym. reflexivity.
  - apply string_compare_antisym.
  - rewrite <- lex_opp, IHl, IHr. reflexivity.
Qed.

Lemma ty_compare_refl t : ty_compare t t = Eq.
Proof. apply ty_compare_eq. reflexivity. Qed.

Lemma lex_lt c d : lex c d = Lt <-> c = Lt \/ c = Eq /\ d = Lt.
Proof. destruct c; cbn; intuition congruence. Qed.

Lemma ty_compare_trans s t u :
  ty_compare s t = Lt -> ty_compare t u = Lt -> ty_compare s u = Lt.
Proof.
  revert t u. induction s as [| | |a r IHa IHr|e IHe|k v IHk IHv| | |n o|x| |l r IHl IHr] using ty_ind';
    intros t u; destruct t; try discriminate; destruct u; try discriminate;
    cbn [ty_compare ty_index Nat.compare]; try discriminate; try reflexivity; try (intros; congruence).
  - rewrite !lex_lt.
    intros [H|[H H']] [G|[G G']].
    + left. clear r IHr. revert arguments arguments0 H G.
      induction IHa as [|y ys Hy _ IH]; intros [|z zs] [|w ws]; cbn [compare_list]; try discriminate; try reflexivity.
      rewrite !lex_lt, !ty_compare_eq. intros [H|[-> H]] [G|[G' G]]; subst; eauto.
    + assert (E : compare_list ty_compare arguments arguments0 = Eq -> arguments = arguments0).
      { clear. revert arguments0. induction arguments as [|y ys IH]; intros [|z zs]; cbn [compare_list]; try discriminate; auto.
        rewrite lex_eq, ty_compare_eq. intros [-> H]. f_equal; auto. }
      apply E in G. subst. auto.
    + assert (E : compare_list ty_compare a arguments = Eq -> a = arguments).
      { clear. revert arguments. induction a as [|y ys IH]; intros [|z zs]; cbn [compare_list]; try discriminate; auto.
        rewrite lex_eq, ty_compare_eq. intros [-> H]. f_equal; auto. }
      apply E in H. subst. auto.
    + assert (E : forall a b, compare_list ty_compare a b = Eq -> a = b).
      { clear. induction a as [|y ys IH]; intros [|z zs]; cbn [compare_list]; try discriminate; auto.
        rewrite lex_eq, ty_compare_eq. intros [-> H]. f_equal; auto. }
      pose proof (E _ _ H). pose proof (E _ _ G). subst. right. split; [exact H|]. eapply IHr; eassumption.
  - apply IHe.
  - rewrite !lex_lt, !ty_compare_eq. intros [H|[-> H]] [G|[-> G]]; eauto.
  - rewrite !lex_lt, !string_compare_eq.
    intros [H|[-> H]] [G|[-> G]]; eauto using string_compare_trans.
  - apply string_compare_trans.
  - rewrite !lex_lt, !ty_compare_eq. intros [H|[-> H]] [G|[-> G]]; eauto.
Qed.

(** ** Strictly sorted lists *)
Definition tlt (s t : ty) : Prop := ty_compare s t = Lt.
Definition sset (s : list ty) : Prop := StronglySorted tlt s.

Lemma tlt_irrefl t : ~ tlt t t.
Proof. unfold tlt. rewrite ty_compare_refl. discriminate. Qed.

Lemma set_insert_In t s x : In x (set_insert t s) <-> x = t \/ In x s.
Proof.
  induction s as [|u us IH]; cbn [set_insert]; [cbn; intuition congruence|].
  destruct (ty_compare t u) eqn:H.
  - apply ty_compare_eq in H. subst. cbn. intuition congruence.
  - cbn. intuition congruence.
  - cbn [In]. rewrite IH. intuition.
Qed.

Lemma set_insert_sset t s : sset s -> sset (set_insert t s).
Proof.
  unfold sset. induction 1 as [|u us Hs IH Hu]; cbn [set_insert].
  - repeat constructor.
  - destruct (ty_compare t u) eqn:H.
    + constructor; assumption.
    + constructor; [constructor; assumption|]. constructor; [exact H|].
      rewrite Forall_forall in Hu |- *. intros x Hx. eapply ty_compare_trans; [exact H|apply Hu, Hx].
    + constructor; [exact IH|]. rewrite Forall_forall in Hu |- *. intros x Hx.
      apply set_insert_In in Hx. destruct Hx as [->|Hx]; [|apply Hu, Hx].
      unfold tlt. rewrite ty_compare_antisym, H. reflexivity.
Qed.

Lemma sset_ext s s' : sset s -> sset s' -> (forall x, In x s <-> In x s') -> s = s'.
Proof.
  unfold sset. intros H. revert s'. induction H as [|u us Hs IH Hu]; intros s' H' HI.
  - destruct s' as [|v vs]; [reflexivity|]. exfalso. apply (proj2 (HI v)). left; reflexivity.
  - destruct H' as [|v vs Hs' Hv]; [exfalso; apply (proj1 (HI u)); left; reflexivity|].
    rewrite Forall_forall in Hu, Hv.
    assert (u = v) as ->.
    { destruct (proj1 (HI u) (or_introl eq_refl)) as [E|E]; [congruence|].
      destruct (proj2 (HI v) (or_introl eq_refl)) as [F|F]; [congruence|].
      exfalso. apply (tlt_irrefl u). eapply ty_compare_trans; [apply Hu, F|apply Hv, E]. }
    f_equal. apply IH; [exact Hs'|]. intros x. split; intros Hx.
    + destruct (proj1 (HI x) (or_intror Hx)) as [E|E]; [|exact E]. subst.
      exfalso. apply (tlt_irrefl x), Hu, Hx.
    + destruct (proj2 (HI x) (or_intror Hx)) as [E|E]; [|exact E]. subst.
      exfalso. apply (tlt_irrefl x), Hv, Hx.
Qed.

Lemma set_mem_In t s : set_mem t s = true <-> In t s.
Proof.
  induction s as [|u us IH]; cbn; [intuition discriminate|].
  destruct (ty_compare t u) eqn:H.
  - apply ty_compare_eq in H. intuition.
  - rewrite IH. split; auto. intros [->|E]; auto. rewrite ty_compare_refl in H. discriminate.
  - rewrite IH. split; auto. intros [->|E]; auto. rewrite ty_compare_refl in H. discriminate.
Qed.

Lemma sset_filter f s : sset s -> sset (filter f s).
Proof.
  unfold sset. induction 1 as [|u us Hs IH Hu]; cbn; [constructor|].
  destruct (f u); [|exact IH]. constructor; [exact IH|].
  rewrite Forall_forall in *. intros x Hx. apply Hu. apply filter_In in Hx. tauto.
Qed.
