(** Canonicalization decides the equational theory [teq]. *)
From Coq Require Import String Ascii List Arith Lia Bool Relations Sorted.
From Verif Require Import Base HirType HirTypeSpec HirTypeOrder HirTypeTermination.
Import ListNotations.

(** ** Semilattice reasoning *)
Definition le (E : tenv) (a b : ty) : Prop := teq E (TUnion a b) b.

Section Semilattice.
  Variable E : tenv.
  Notation "a == b" := (teq E a b) (at level 70).
  Notation "a <= b" := (le E a b).

  Lemma le_refl a : a <= a.
  Proof. apply teq_idem. Qed.

  Lemma le_trans a b c : a <= b -> b <= c -> a <= c.
  Proof.
    unfold le. intros H G.
    eapply teq_trans; [apply teq_union; [apply teq_refl|apply teq_sym, G]|].
    eapply teq_trans; [apply teq_sym, teq_assoc|].
    eapply teq_trans; [apply teq_union; [exact H|apply teq_refl]|exact G].
  Qed.

  Lemma le_antisym a b : a <= b -> b <= a -> a == b.
  Proof.
    unfold le. intros H G.
    eapply teq_trans; [apply teq_sym, G|]. eapply teq_trans; [apply teq_comm|exact H].
  Qed.

  Lemma teq_le a b : a == b -> a <= b.
  Proof. intros H. unfold le. eapply teq_trans; [apply teq_union; [exact H|apply teq_refl]|apply teq_idem]. Qed.

  Lemma le_left a b : a <= TUnion a b.
  Proof.
    unfold le. eapply teq_trans; [apply teq_sym, teq_assoc|]. apply teq_union; [apply teq_idem|apply teq_refl].
  Qed.

  Lemma le_right a b : b <= TUnion a b.
  Proof. eapply le_trans; [apply le_left|apply teq_le, teq_comm]. Qed.

  Lemma le_lub a b u : a <= u -> b <= u -> TUnion a b <= u.
  Proof.
    unfold le. intros H G. eapply teq_trans; [apply teq_assoc|].
    eapply teq_trans; [apply teq_union; [apply teq_refl|exact G]|exact H].
  Qed.

  Lemma le_any a : defined E a -> a <= TAny.
  Proof. intros H. unfold le. eapply teq_trans; [apply teq_comm|apply teq_any, H]. Qed.

  Lemma noref_defined a : references a = [] -> defined E a.
  Proof. intros H x Hx. rewrite H in Hx. destruct Hx. Qed.

  Lemma join_le a b u : a <= u -> b <= u -> join a b <= u.
  Proof. intros H G. unfold join. destruct (is_any a); [exact H|]. destruct (is_any b); [exact G|]. apply le_lub; assumption. Qed.

  Lemma is_any_true a : is_any a = true -> a = TAny.
  Proof. destruct a; cbn; congruence. Qed.

  Lemma le_join_l a b : references a = [] -> a <= join a b.
  Proof.
    intros Ha. unfold join. destruct (is_any a) eqn:Ea; [apply le_refl|].
    destruct (is_any b) eqn:Eb; [|apply le_left]. apply is_any_true in Eb. subst. apply le_any, noref_defined, Ha.
  Qed.

  Lemma le_join_r a b : references b = [] -> b <= join a b.
  Proof.
    intros Hb. unfold join. destruct (is_any a) eqn:Ea; [apply is_any_true in Ea; subst; apply le_any, noref_defined, Hb|].
    destruct (is_any b) eqn:Eb; [apply le_refl|apply le_right].
  Qed.

  Lemma references_join a b : references a = [] -> references b = [] -> references (join a b) = [].
  Proof.
    intros Ha Hb. unfold join. destruct (is_any a); [exact Ha|]. destruct (is_any b); [exact Hb|]. cbn. rewrite Ha, Hb. reflexivity.
  Qed.

  Lemma reduce_le_all s c :
    reduce_union s = Ok c -> (forall x, In x s -> references x = []) -> forall x, In x s -> x <= c.
  Proof.
    destruct s as [|t ts]; [discriminate|]. cbn [reduce_union]. intros H; injection H as <-. intros Href.
    assert (Hacc : forall ts t, references t = [] -> (forall x, In x ts -> references x = []) ->
                     forall x, x = t \/ In x ts -> x <= fold_left join ts t).
    { clear. induction ts as [|u us IH]; intros t Ht Hts x Hx.
      - destruct Hx as [->|[]]. apply le_refl.
      - cbn [fold_left].
        assert (Hu : references u = []) by (apply Hts; left; reflexivity).
        assert (Hj : references (join t u) = []) by (apply references_join; assumption).
        destruct Hx as [->|[<-|Hx]].
        + eapply le_trans; [apply le_join_l, Ht|]. apply IH; [exact Hj| |left; reflexivity].
          intros; apply Hts; right; assumption.
        + eapply le_trans; [apply (le_join_r t), Hu|]. apply IH; [exact Hj| |left; reflexivity].
          intros; apply Hts; right; assumption.
        + apply IH; [exact Hj| |right; exact Hx]. intros; apply Hts; right; assumption. }
    intros x Hx. apply Hacc; [apply Href; left; reflexivity|intros; apply Href; right; assumption|].
    destruct Hx as [<-|Hx]; auto.
  Qed.

  Lemma reduce_le s c u : reduce_union s = Ok c -> (forall x, In x s -> x <= u) -> c <= u.
  Proof.
    destruct s as [|t ts]; [discriminate|]. cbn [reduce_union]. intros H; injection H as <-. intros H.
    assert (Ht : t <= u) by (apply H; left; reflexivity).
    assert (Hts : forall x, In x ts -> x <= u) by (intros; apply H; right; assumption).
    clear H. revert t Ht. induction ts as [|v vs IH]; intros t Ht; [exact Ht|].
    cbn [fold_left]. apply IH; [intros; apply Hts; right; assumption|].
    apply join_le; [exact Ht|apply Hts; left; reflexivity].
  Qed.
End Semilattice.

(** ** Soundness: a type equals its canonical form *)
Lemma canon_sound_n E n :
  (forall t c, canonicalize n E t = Ok c -> teq E t c) /\
  (forall t acc s, collect_types n E t acc = Ok s ->
     (forall u, (forall x, In x s -> le E x u) -> le E t u) /\
     (forall x, In x s -> In x acc \/ le E x t) /\
     (forall x, In x acc -> In x s)).
Proof.
  induction n as [|n [IHc IHs]]; [split; discriminate|]. split.
  - intros t c H. destruct t; cbn [canonicalize] in H; try (injection H as <-; apply teq_refl).
    + apply bind_ok in H. destruct H as (a' & Ha & H). apply bind_ok in H. destruct H as (r' & Hr & H).
      injection H as <-. apply teq_function; [|apply IHc, Hr]. apply mapM_ok in Ha.
      revert Ha. apply Forall2_impl_in. intros; apply IHc; assumption.
    + apply bind_ok in H. destruct H as (e' & He & H). injection H as <-. apply teq_list, IHc, He.
    + apply bind_ok in H. destruct H as (k' & Hk & H). apply bind_ok in H. destruct H as (v' & Hv & H).
      injection H as <-. apply teq_map; apply IHc; assumption.
    + apply bind_ok in H. destruct H as (t' & Ht & H). unfold resolve in Ht.
      destruct (lookup E name) eqn:Hl; [|discriminate]. injection Ht as ->.
      eapply teq_trans; [apply teq_alias, Hl|apply IHc, H].
    + apply bind_ok in H. destruct H as (s & Hs & H).
      destruct (IHs _ _ _ Hs) as (H1 & H2 & _).
      assert (Href : forall x, In x s -> references x = []) by (eapply canon_noref; [exact Hs|intros x []]).
      apply le_antisym.
      * apply H1. eapply reduce_le_all; eassumption.
      * eapply reduce_le; [exact H|]. intros x Hx. destruct (H2 x Hx) as [[]|G]; exact G.
  - intros t acc s H.
    destruct t; cbn [collect_types] in H; apply bind_ok in H; destruct H as (t' & Ht & H);
      try (injection H as <-; apply IHc in Ht; split;
           [intros u Hu; eapply le_trans; [apply teq_le, Ht|]; apply Hu, set_insert_In; auto
           |split; intros x Hx;
            [apply set_insert_In in Hx; destruct Hx as [->|Hx]; [right; apply teq_le, teq_sym, Ht|auto]
            |apply set_insert_In; auto]]; fail).
    + unfold resolve in Ht. destruct (lookup E name) eqn:Hl; [|discriminate]. injection Ht as ->.
      destruct (IHs _ _ _ H) as (H1 & H2 & H3). repeat split.
      * intros u Hu. eapply le_trans; [apply teq_le, teq_alias, Hl|apply H1, Hu].
      * intros x Hx. destruct (H2 x Hx) as [G|G]; [auto|]. right.
        eapply le_trans; [exact G|apply teq_le, teq_sym, teq_alias, Hl].
      * exact H3.
    + destruct (IHs _ _ _ Ht) as (G1 & G2 & G3). destruct (IHs _ _ _ H) as (H1 & H2 & H3). repeat split.
      * intros u Hu. apply le_lub; [|apply H1, Hu]. apply G1. intros x Hx. apply Hu, H3, Hx.
      * intros x Hx. destruct (H2 x Hx) as [G|G].
        -- destruct (G2 x G) as [F|F]; [auto|]. right. eapply le_trans; [exact F|apply le_left].
        -- right. eapply le_trans; [exact G|apply le_right].
      * auto.
Qed.

Lemma canon_sound E t c : canon E t c -> teq E t c.
Proof. intros [n H]. eapply canon_sound_n; eauto. Qed.

Lemma canon_references E t c : canon E t c -> references c = [].
Proof. intros [n H]. exact (proj1 (canon_noref n E) t c H). Qed.

Lemma canon_defined E t c : canon E t c -> defined E c.
Proof. intros H. apply noref_defined. eapply canon_references, H. Qed.

(** ** Canonical forms as sets of members *)
Definition nonunion (t : ty) : Prop := is_union t = false.

(** A canonical type's set of members: sorted, without unions, and [any] only alone. *)
Definition cset (s : list ty) : Prop :=
  sset s /\ Forall nonunion s /\ (In TAny s -> s = [TAny]) /\ s <> [].

Definition norm (s : list ty) : list ty := if set_mem TAny s then [TAny] else s.

Definition sunion (s s' : list ty) : list ty := fold_right set_insert s' s.

Lemma sunion_In s s' x : In x (sunion s s') <-> In x s \/ In x s'.
Proof.
  unfold sunion. induction s as [|u us IH]; cbn [fold_right]; [cbn; tauto|].
  rewrite set_insert_In, IH. cbn. intuition.
Qed.

Lemma sunion_sset s s' : sset s' -> sset (sunion s s').
Proof. intros H. unfold sunion. induction s as [|u us IH]; cbn [fold_right]; [exact H|apply set_insert_sset, IH]. Qed.

Lemma fold_join_members ts t :
  Forall nonunion ts -> (forall x, In x ts -> x <> TAny) -> t <> TAny ->
  members_canonical (fold_left join ts t) = members_canonical t ++ ts /\ fold_left join ts t <> TAny.
Proof.
  revert t. induction ts as [|u us IH]; intros t Hnu Hna Ht; cbn [fold_left].
  - rewrite app_nil_r. auto.
  - inversion Hnu as [|? ? Hu Hus]; subst.
    assert (Ha : u <> TAny) by (apply Hna; left; reflexivity).
    assert (Hj : join t u = TUnion t u).
    { unfold join. destruct t; try congruence; destruct u; cbn; try congruence; reflexivity. }
    rewrite Hj. destruct (IH (TUnion t u)) as [H1 H2]; [exact Hus|intros; apply Hna; right; assumption|discriminate|].
    rewrite H1. split; [|exact H2]. cbn [members_canonical]. rewrite <- app_assoc. f_equal.
    destruct u; try reflexivity. discriminate Hu.
Qed.

Lemma fold_join_any ts : fold_left join ts TAny = TAny.
Proof. induction ts as [|u us IH]; cbn [fold_left]; [reflexivity|exact IH]. Qed.

(** [any] is the least type in the order, so it comes first in a sorted set. *)
Lemma any_first s : sset s -> In TAny s -> exists ts, s = TAny :: ts.
Proof.
  unfold sset. intros H. destruct H as [|u us Hs Hu]; [intros []|]. intros [->|Hin]; [eauto|].
  exfalso. rewrite Forall_forall in Hu. specialize (Hu _ Hin). unfold tlt in Hu.
  destruct u; discriminate Hu.
Qed.

Lemma members_nonunion t : is_union t = false -> members_canonical t = [t].
Proof. destruct t; cbn; congruence. Qed.

Lemma reduce_members s c :
  sset s -> Forall nonunion s -> reduce_union s = Ok c -> members_canonical c = norm s.
Proof.
  intros Hs Hnu H. unfold norm. destruct (set_mem TAny s) eqn:Hm.
  - apply set_mem_In in Hm. apply any_first in Hm; [|exact Hs]. destruct Hm as [ts ->].
    cbn in H. rewrite fold_join_any in H. injection H as <-. reflexivity.
  - assert (Hna : ~ In TAny s) by (rewrite <- set_mem_In, Hm; discriminate).
    destruct s as [|t ts]; [discriminate|]. cbn in H. injection H as <-.
    inversion Hnu as [|? ? Ht Hts]; subst.
    destruct (fold_join_members ts t) as [H1 _].
    + exact Hts.
    + intros x Hx ->. apply Hna. right. exact Hx.
    + intros ->. apply Hna. left. reflexivity.
    + rewrite H1, (members_nonunion _ Ht). reflexivity.
Qed.

Lemma norm_cset s : sset s -> Forall nonunion s -> s <> [] -> cset (norm s).
Proof.
  intros Hs Hnu Hne. unfold norm, cset. destruct (set_mem TAny s) eqn:Hm.
  - repeat split; try discriminate; repeat constructor.
  - repeat split; auto. intros H. apply set_mem_In in H. congruence.
Qed.

Lemma norm_idem s : cset s -> norm s = s.
Proof.
  intros (_ & _ & H & _). unfold norm. destruct (set_mem TAny s) eqn:Hm; [|reflexivity].
  symmetry. apply H. apply set_mem_In. exact Hm.
Qed.

(** What a canonical type is: the reduction of its own member set. *)
Definition cform (c : ty) : Prop :=
  cset (members_canonical c) /\ reduce_union (members_canonical c) = Ok c.

Lemma reduce_norm s c : sset s -> reduce_union s = Ok c -> reduce_union (norm s) = Ok c.
Proof.
  intros Hs H. unfold norm. destruct (set_mem TAny s) eqn:Hm; [|exact H].
  apply set_mem_In in Hm. apply any_first in Hm; [|exact Hs]. destruct Hm as [ts ->].
  cbn in H. rewrite fold_join_any in H. exact H.
Qed.

Lemma reduce_cform s c : sset s -> Forall nonunion s -> reduce_union s = Ok c -> cform c.
Proof.
  intros Hs Hnu H. unfold cform. rewrite (reduce_members s c Hs Hnu H). split.
  - apply norm_cset; auto. intros ->. discriminate.
  - apply reduce_norm; assumption.
Qed.

Lemma nonunion_cform c : is_union c = false -> cform c.
Proof.
  intros H. unfold cform. rewrite (members_nonunion _ H). split; [|reflexivity].
  repeat split; try (repeat constructor; assumption); try discriminate.
  intros [->|[]]. reflexivity.
Qed.

Lemma canon_atom_nonunion E t c : atom t -> canon E t c -> is_union c = false.
Proof.
  intros [H1 H2] [[|n] H]; [discriminate|].
  destruct t; try discriminate; cbn [canonicalize] in H; try (injection H as <-; reflexivity);
    repeat (apply bind_ok in H; destruct H as (? & ? & H)); injection H as <-; reflexivity.
Qed.

Lemma collect_acc_n E n : forall t acc s, collect_types n E t acc = Ok s ->
  exists m, collects E t [] m /\ sset m /\ Forall nonunion m /\ m <> [] /\
    (sset acc -> sset s) /\ (forall x, In x s <-> In x acc \/ In x m).
Proof.
  induction n as [|n IH]; [discriminate|]. intros t acc s H.
  destruct t; try
    (cbn [collect_types] in H; apply bind_ok in H; destruct H as (c & Hc & H); injection H as <-;
     exists [c]; split; [apply collects_atom; [split; reflexivity|exists c; split; [exists n; exact Hc|reflexivity]]|];
     split; [repeat constructor|]; split;
     [constructor; [eapply canon_atom_nonunion; [|exists n; exact Hc]; split; reflexivity|constructor]|];
     split; [discriminate|]; split; [apply set_insert_sset|];
     intros x; rewrite set_insert_In; cbn; intuition congruence).
  - cbn [collect_types] in H; apply bind_ok in H; destruct H as (c & Hc & H).
    destruct (IH _ _ _ H) as (m & Hm & Hrest). exists m. split; [|exact Hrest].
    apply collects_alias. exists c. split; [|exact Hm].
    unfold resolve in Hc. destruct (lookup E name); [congruence|discriminate].
  - cbn [collect_types] in H; apply bind_ok in H; destruct H as (s1 & H1 & H2).
    destruct (IH _ _ _ H1) as (m1 & Hm1 & Hs1 & Hn1 & Hne1 & Ha1 & Hin1).
    destruct (IH _ _ _ H2) as (m2 & Hm2 & Hs2 & Hn2 & Hne2 & Ha2 & Hin2).
    assert (Hagain : exists s2, collects E t2 m1 s2 /\ sset s2 /\ (forall x, In x s2 <-> In x m1 \/ In x m2)).
    { (* the accumulator does not influence success *)
      assert (Hany : forall k t acc s, collect_types k E t acc = Ok s -> forall acc', exists s', collect_types k E t acc' = Ok s').
      { clear. induction k as [|k IHk]; [discriminate|]. intros t acc s H acc'.
        destruct t; cbn [collect_types] in *; apply bind_ok in H; destruct H as (c & Hc & H);
          try (eexists; apply bind_ok; eauto; fail).
        - destruct (IHk _ _ _ H acc') as [s' Hs']. exists s'. apply bind_ok. eauto.
        - destruct (IHk _ _ _ Hc acc') as [s' Hs']. destruct (IHk _ _ _ H s') as [s'' Hs''].
          exists s''. apply bind_ok. eauto. }
      destruct (Hany _ _ _ _ H2 m1) as [s2 Hs2']. exists s2. split; [exists n; exact Hs2'|].
      destruct (IH _ _ _ Hs2') as (m2' & Hm2' & _ & _ & _ & Ha & Hin).
      rewrite (collects_fun _ _ _ _ _ Hm2' Hm2) in *. split; [apply Ha, Hs1|exact Hin]. }
    destruct Hagain as (s2 & Hs2' & Hss2 & Hin).
    exists s2. split; [apply collects_union; eauto|]. split; [exact Hss2|].
    split; [apply Forall_forall; intros x Hx; apply Hin in Hx; rewrite Forall_forall in Hn1, Hn2; destruct Hx; auto|].
    split; [|split; [auto|]].
    + destruct m1 as [|y ys]; [congruence|]. intros ->. apply (proj2 (Hin y)). left. left. reflexivity.
    + intros x. rewrite Hin2, Hin1, Hin. tauto.
Qed.

Lemma collects_acc E t acc s : collects E t acc s ->
  exists m, collects E t [] m /\ sset m /\ Forall nonunion m /\ m <> [] /\
    (sset acc -> sset s) /\ (forall x, In x s <-> In x acc \/ In x m).
Proof. intros [n H]. eapply collect_acc_n, H. Qed.

Lemma collect_any_acc E t s : collects E t [] s -> forall acc, sset acc -> collects E t acc (sunion s acc).
Proof.
  intros [n H] acc Hacc.
  assert (Hany : forall k t acc s, collect_types k E t acc = Ok s -> forall acc', exists s', collect_types k E t acc' = Ok s').
  { clear. induction k as [|k IHk]; [discriminate|]. intros t acc s H acc'.
    destruct t; cbn [collect_types] in *; apply bind_ok in H; destruct H as (c & Hc & H);
      try (eexists; apply bind_ok; eauto; fail).
    - destruct (IHk _ _ _ H acc') as [s' Hs']. exists s'. apply bind_ok. eauto.
    - destruct (IHk _ _ _ Hc acc') as [s' Hs']. destruct (IHk _ _ _ H s') as [s'' Hs''].
      exists s''. apply bind_ok. eauto. }
  destruct (Hany _ _ _ _ H acc) as [s' Hs'].
  destruct (collect_acc_n _ _ _ _ _ Hs') as (m & Hm & Hms & Hnu & _ & Ha & Hin).
  assert (m = s) as -> by (eapply collects_fun; [exact Hm|exists n; exact H]).
  exists n. rewrite Hs'. f_equal. apply sset_ext; [apply Ha, Hacc|apply sunion_sset, Hacc|].
  intros x. rewrite Hin, sunion_In. tauto.
Qed.

(** Canonicalization of any type is the reduction of its collected members. *)
Lemma canon_collects E t c : canon E t c <-> exists s, collects E t [] s /\ reduce_union s = Ok c.
Proof.
  destruct (is_union t) eqn:Hu.
  - destruct t; try discriminate. rewrite canon_union. split.
    + intros (s1 & s2 & H1 & H2 & H). exists s2. split; [apply collects_union; eauto|exact H].
    + intros (s & Hs & H). apply collects_union in Hs. destruct Hs as (s1 & H1 & H2). eauto.
  - destruct (is_ref t) eqn:Hr.
    + split.
      * intros [n H]. revert t Hu Hr c H. induction n as [|n IH]; intros t Hu Hr c H; [discriminate|].
        destruct t; try discriminate. cbn [canonicalize] in H. apply bind_ok in H. destruct H as (t' & Ht & H).
        assert (Hl : lookup E name = Some t') by (unfold resolve in Ht; destruct (lookup E name); congruence).
        destruct (is_union t') eqn:Hu'.
        -- destruct t'; try discriminate.
           assert (Hc : canon E (TUnion t'1 t'2) c) by (exists n; exact H). apply canon_union in Hc.
           destruct Hc as (s1 & s2 & H1 & H2 & Hred). exists s2. split; [|exact Hred].
           apply collects_alias. exists (TUnion t'1 t'2). split; [exact Hl|]. apply collects_union. eauto.
        -- destruct (is_ref t') eqn:Hr'.
           ++ destruct (IH t' Hu' Hr' c H) as (s & Hs & Hred). exists s. split; [|exact Hred].
              apply collects_alias. eauto.
           ++ exists [c]. split; [|reflexivity]. apply collects_alias. exists t'. split; [exact Hl|].
              apply collects_atom; [split; assumption|]. exists c. split; [exists n; exact H|reflexivity].
      * intros (s & [n Hs] & Hred). revert t Hu Hr s Hs Hred. induction n as [|n IH]; intros t Hu Hr s Hs Hred; [discriminate|].
        destruct t; try discriminate. cbn [collect_types] in Hs. apply bind_ok in Hs. destruct Hs as (t' & Ht & Hs).
        assert (Hl : lookup E name = Some t') by (unfold resolve in Ht; destruct (lookup E name); congruence).
        apply canon_alias. exists t'. split; [exact Hl|].
        destruct (is_union t') eqn:Hu'.
        -- destruct t'; try discriminate.
           assert (Hc : collects E (TUnion t'1 t'2) [] s) by (exists n; exact Hs). apply collects_union in Hc.
           destruct Hc as (s1 & H1 & H2). apply canon_union. eauto.
        -- destruct (is_ref t') eqn:Hr'.
           ++ eapply IH; eauto.
           ++ assert (Hc : collects E t' [] s) by (exists n; exact Hs).
              apply collects_atom in Hc; [|split; assumption]. destruct Hc as (d & Hd & ->). cbn in Hred. congruence.
    + split.
      * intros H. exists [c]. split; [|reflexivity]. apply collects_atom; [split; assumption|]. eauto.
      * intros (s & Hs & Hred). apply collects_atom in Hs; [|split; assumption]. destruct Hs as (d & Hd & ->).
        cbn in Hred. congruence.
Qed.

Lemma canon_cform E t c : canon E t c -> cform c.
Proof.
  intros H. apply canon_collects in H. destruct H as (s & Hs & Hred).
  destruct (collects_acc _ _ _ _ Hs) as (m & Hm & Hms & Hnu & _).
  rewrite (collects_fun _ _ _ _ _ Hm Hs) in *. eapply reduce_cform; eassumption.
Qed.

Lemma cform_inj c d : cform c -> cform d -> (forall x, In x (members_canonical c) <-> In x (members_canonical d)) -> c = d.
Proof.
  intros [(Hs & _) Hr] [(Hs' & _) Hr'] H. assert (members_canonical c = members_canonical d) as He by (apply sset_ext; assumption).
  rewrite He in Hr. congruence.
Qed.

(** Union of canonical types. *)
Lemma canon_union_members E l r c :
  canon E (TUnion l r) c <->
  exists cl cr, canon E l cl /\ canon E r cr /\ cform c /\
    members_canonical c = norm (sunion (members_canonical cl) (members_canonical cr)).
Proof.
  assert (Hnorm2 : forall s s', sset s -> sset s' -> norm (sunion s s') = norm (sunion (norm s) (norm s'))).
  { intros s s' Hs Hs'. unfold norm at 1 2.
    destruct (set_mem TAny (sunion s s')) eqn:H1; destruct (set_mem TAny (sunion (norm s) (norm s'))) eqn:H2; try reflexivity.
    - exfalso. apply set_mem_In in H1. assert (H3 : ~ In TAny (sunion (norm s) (norm s'))) by (rewrite <- set_mem_In, H2; discriminate).
      apply H3. apply sunion_In. apply sunion_In in H1. unfold norm.
      destruct H1 as [H1|H1]; apply set_mem_In in H1; rewrite H1; cbn; auto.
    - exfalso. apply set_mem_In in H2. assert (H3 : ~ In TAny (sunion s s')) by (rewrite <- set_mem_In, H1; discriminate).
      apply H3. apply sunion_In. apply sunion_In in H2. unfold norm in H2.
      destruct H2 as [H2|H2]; [destruct (set_mem TAny s) eqn:E1|destruct (set_mem TAny s') eqn:E1]; auto;
        apply set_mem_In in E1; auto.
    - assert (H3 : ~ In TAny (sunion s s')) by (rewrite <- set_mem_In, H1; discriminate).
      rewrite sunion_In in H3. unfold norm.
      destruct (set_mem TAny s) eqn:E1; [apply set_mem_In in E1; tauto|].
      destruct (set_mem TAny s') eqn:E2; [apply set_mem_In in E2; tauto|]. reflexivity. }
  split.
  - intros H. pose proof (canon_cform _ _ _ H) as Hcf. apply canon_union in H. destruct H as (s1 & s2 & H1 & H2 & Hred).
    destruct (collects_acc _ _ _ _ H1) as (m1 & Hm1 & Hs1 & Hn1 & Hne1 & _).
    rewrite (collects_fun _ _ _ _ _ Hm1 H1) in *.
    destruct (collects_acc _ _ _ _ H2) as (m2 & Hm2 & Hs2 & Hn2 & Hne2 & Ha2 & Hin2).
    assert (Hc1 : exists cl, reduce_union s1 = Ok cl) by (destruct s1; [congruence|eexists; reflexivity]).
    assert (Hc2 : exists cr, reduce_union m2 = Ok cr) by (destruct m2; [congruence|eexists; reflexivity]).
    destruct Hc1 as [cl Hcl]. destruct Hc2 as [cr Hcr].
    exists cl, cr. split; [apply canon_collects; eauto|]. split; [apply canon_collects; eauto|]. split; [exact Hcf|].
    assert (Hs : s2 = sunion s1 m2).
    { apply sset_ext; [apply Ha2, Hs1|apply sunion_sset, Hs2|]. intros x. rewrite Hin2, sunion_In. tauto. }
    assert (Hn : Forall nonunion s2).
    { apply Forall_forall. rewrite Forall_forall in Hn1, Hn2. intros x Hx. apply Hin2 in Hx. destruct Hx; auto. }
    rewrite (reduce_members s2 c (Ha2 Hs1) Hn Hred), Hs.
    rewrite (reduce_members s1 cl Hs1 Hn1 Hcl), (reduce_members m2 cr Hs2 Hn2 Hcr). apply Hnorm2; assumption.
  - intros (cl & cr & Hl & Hr & Hcf & Hm).
    apply canon_collects in Hl. destruct Hl as (s1 & H1 & Hcl).
    apply canon_collects in Hr. destruct Hr as (m2 & H2 & Hcr).
    destruct (collects_acc _ _ _ _ H1) as (m1' & Hm1 & Hs1 & Hn1 & Hne1 & _).
    rewrite (collects_fun _ _ _ _ _ Hm1 H1) in *.
    destruct (collects_acc _ _ _ _ H2) as (m2' & Hm2 & Hs2 & Hn2 & Hne2 & _).
    rewrite (collects_fun _ _ _ _ _ Hm2 H2) in *.
    pose proof (collect_any_acc _ _ _ H2 s1 Hs1) as H3.
    assert (Hs3 : sset (sunion m2 s1)) by (apply sunion_sset, Hs1).
    assert (Hn3 : Forall nonunion (sunion m2 s1)).
    { apply Forall_forall. rewrite Forall_forall in Hn1, Hn2. intros x Hx. apply sunion_In in Hx. destruct Hx; auto. }
    assert (Hd : exists d, reduce_union (sunion m2 s1) = Ok d).
    { destruct (sunion m2 s1) eqn:Hs; [|eexists; reflexivity].
      exfalso. destruct m2 as [|y ys]; [congruence|]. cbn in Hs. eapply set_insert_nonnil, Hs. }
    destruct Hd as [d Hd]. apply canon_union. exists s1, (sunion m2 s1). split; [exact H1|]. split; [exact H3|].
    rewrite Hd. f_equal. apply cform_inj; [eapply reduce_cform; eassumption|exact Hcf|].
    rewrite (reduce_members _ _ Hs3 Hn3 Hd), Hm, (reduce_members s1 cl Hs1 Hn1 Hcl), (reduce_members m2 cr Hs2 Hn2 Hcr).
    assert (Hsw : sunion m2 s1 = sunion s1 m2).
    { apply sset_ext; [exact Hs3|apply sunion_sset, Hs2|]. intros x. rewrite !sunion_In. tauto. }
    rewrite Hsw, Hnorm2 by assumption. tauto.
Qed.

(** ** Completeness *)
Section TeqInd.
  Variable E : tenv.
  Variable P : ty -> ty -> Prop.
  Hypothesis Hrefl : forall t, P t t.
  Hypothesis Hsym : forall s t, P s t -> P t s.
  Hypothesis Htrans : forall s t u, P s t -> P t u -> P s u.
  Hypothesis Halias : forall x t, lookup E x = Some t -> P (TReference x) t.
  Hypothesis Hfunction : forall a a' r r', Forall2 P a a' -> P r r' -> P (TFunction a r) (TFunction a' r').
  Hypothesis Hlist : forall e e', P e e' -> P (TList e) (TList e').
  Hypothesis Hmap : forall k k' v v', P k k' -> P v v' -> P (TMap k v) (TMap k' v').
  Hypothesis Hunion : forall l l' r r', P l l' -> P r r' -> P (TUnion l r) (TUnion l' r').
  Hypothesis Hcomm : forall l r, P (TUnion l r) (TUnion r l).
  Hypothesis Hassoc : forall l m r, P (TUnion (TUnion l m) r) (TUnion l (TUnion m r)).
  Hypothesis Hidem : forall t, P (TUnion t t) t.
  Hypothesis Hany : forall t, defined E t -> P (TUnion TAny t) TAny.
  Fixpoint teq_ind' s t (H : teq E s t) {struct H} : P s t :=
    match H with
    | teq_refl _ t => Hrefl t
    | teq_sym _ s t H => Hsym _ _ (teq_ind' _ _ H)
    | teq_trans _ s t u H G => Htrans _ _ _ (teq_ind' _ _ H) (teq_ind' _ _ G)
    | teq_alias _ x t H => Halias x t H
    | teq_function _ a a' r r' Ha Hr =>
        Hfunction a a' r r'
          ((fix go l l' (F : Forall2 (teq E) l l') {struct F} : Forall2 P l l' :=
              match F with
              | Forall2_nil _ => Forall2_nil _
              | Forall2_cons _ _ h f => Forall2_cons _ _ (teq_ind' _ _ h) (go _ _ f)
              end) a a' Ha)
          (teq_ind' _ _ Hr)
    | teq_list _ e e' H => Hlist _ _ (teq_ind' _ _ H)
    | teq_map _ k k' v v' H G => Hmap _ _ _ _ (teq_ind' _ _ H) (teq_ind' _ _ G)
    | teq_union _ l l' r r' H G => Hunion _ _ _ _ (teq_ind' _ _ H) (teq_ind' _ _ G)
    | teq_comm _ l r => Hcomm l r
    | teq_assoc _ l m r => Hassoc l m r
    | teq_idem _ t => Hidem t
    | teq_any _ t H => Hany t H
    end.
End TeqInd.

Lemma norm_In s x : In x (norm s) <-> (In TAny s /\ x = TAny) \/ (~ In TAny s /\ In x s).
Proof.
  unfold norm. destruct (set_mem TAny s) eqn:H.
  - apply set_mem_In in H. cbn. intuition congruence.
  - assert (~ In TAny s) by (rewrite <- set_mem_In, H; discriminate). intuition.
Qed.

(** Members of a union in terms of members of its parts. *)
Lemma union_In s s' x :
  In x (norm (sunion s s')) <->
  ((In TAny s \/ In TAny s') /\ x = TAny) \/ (~ In TAny s /\ ~ In TAny s' /\ (In x s \/ In x s')).
Proof. rewrite norm_In, !sunion_In. tauto. Qed.

Lemma norm_union_any s s' : cset s -> cset s' -> In TAny (norm (sunion s s')) <-> In TAny s \/ In TAny s'.
Proof. intros _ _. rewrite union_In. tauto. Qed.

Lemma sunion_cset s s' : cset s -> cset s' -> cset (norm (sunion s s')).
Proof.
  intros (H1 & H2 & _ & H3) (G1 & G2 & _ & G3). apply norm_cset.
  - apply sunion_sset, G1.
  - apply Forall_forall. rewrite Forall_forall in H2, G2. intros x Hx. apply sunion_In in Hx. destruct Hx; auto.
  - destruct s as [|y ys]; [congruence|]. cbn. apply set_insert_nonnil.
Qed.

(** Every set of members with the canonical shape is the member set of a canonical type. *)
Lemma cset_reduce s : cset s -> exists c, cform c /\ members_canonical c = s.
Proof.
  intros Hs. pose proof Hs as (H1 & H2 & H3 & H4).
  assert (exists c, reduce_union s = Ok c) as [c Hc] by (destruct s; [congruence|eexists; reflexivity]).
  exists c. split; [eapply reduce_cform; eassumption|]. rewrite (reduce_members s c H1 H2 Hc). apply norm_idem, Hs.
Qed.

Lemma teq_canon E s t :
  closed_env E -> acyclic E -> teq E s t -> forall c, canon E s c <-> canon E t c.
Proof.
  intros Hcl Hac H. 
  induction H as [t|s t IH|s t u IH1 IH2|x t H|a a' r r' H IHr|e e' IH|k k' v v' IH1 IH2|l l' r r' IH1 IH2|l r|l m r|t|t H]
    using teq_ind'; intros c.
  - tauto.
  - symmetry. apply IH.
  - rewrite IH1, IH2. tauto.
  - rewrite canon_alias. split; [intros (t' & H1 & H2); congruence|eauto].
  - rewrite !canon_function.
    assert (HF : forall b, Forall2 (canon E) a b <-> Forall2 (canon E) a' b).
    { clear - H. induction H as [|x y xs ys Hxy _ IH]; intros b; [tauto|].
      split; intros F; inversion F; subst; constructor; try (apply Hxy; assumption); apply IH; assumption. }
    split; intros (b & r'' & H1 & H2 & ->); exists b, r''; (split; [apply HF; exact H1|split; [apply IHr; exact H2|reflexivity]]).
  - rewrite !canon_list. split; intros (e'' & H1 & ->); exists e''; (split; [apply IH; exact H1|reflexivity]).
  - rewrite !canon_map. split; intros (k'' & v'' & H1 & H2 & ->); exists k'', v'';
      (split; [apply IH1; exact H1|split; [apply IH2; exact H2|reflexivity]]).
  - rewrite !canon_union_members. split; intros (cl & cr & H1 & H2 & H3); exists cl, cr;
      (split; [apply IH1; exact H1|split; [apply IH2; exact H2|exact H3]]).
  - rewrite !canon_union_members. split; intros (cl & cr & H1 & H2 & H3 & H4); exists cr, cl;
      (split; [exact H2|split; [exact H1|split; [exact H3|]]]); rewrite H4; f_equal.
    + pose proof (canon_cform _ _ _ H1) as [(X1 & _) _]. pose proof (canon_cform _ _ _ H2) as [(X2 & _) _].
      apply sset_ext; [apply sunion_sset; assumption|apply sunion_sset; assumption|]. intros x. rewrite !sunion_In. tauto.
    + pose proof (canon_cform _ _ _ H1) as [(X1 & _) _]. pose proof (canon_cform _ _ _ H2) as [(X2 & _) _].
      apply sset_ext; [apply sunion_sset; assumption|apply sunion_sset; assumption|]. intros x. rewrite !sunion_In. tauto.
  - assert (Hset : forall cl cm cr, cform cl -> cform cm -> cform cr ->
      norm (sunion (norm (sunion (members_canonical cl) (members_canonical cm))) (members_canonical cr)) =
      norm (sunion (members_canonical cl) (norm (sunion (members_canonical cm) (members_canonical cr))))).
    { intros cl cm cr [X1 _] [X2 _] [X3 _]. apply sset_ext.
      - apply sunion_cset; [apply sunion_cset; assumption|assumption].
      - apply sunion_cset; [assumption|apply sunion_cset; assumption].
      - intros x. rewrite !union_In.
        destruct (set_mem TAny (members_canonical cl)) eqn:A1; [apply set_mem_In in A1|assert (~ In TAny (members_canonical cl)) by (rewrite <- set_mem_In, A1; discriminate)];
        (destruct (set_mem TAny (members_canonical cm)) eqn:A2; [apply set_mem_In in A2|assert (~ In TAny (members_canonical cm)) by (rewrite <- set_mem_In, A2; discriminate)]);
        (destruct (set_mem TAny (members_canonical cr)) eqn:A3; [apply set_mem_In in A3|assert (~ In TAny (members_canonical cr)) by (rewrite <- set_mem_In, A3; discriminate)]);
        clear A1 A2 A3 || idtac; tauto. }
    split; intros H.
    + apply canon_union_members in H. destruct H as (clm & cr & H1 & H2 & H3 & H4).
      apply canon_union_members in H1. destruct H1 as (cl & cm & G1 & G2 & G3 & G4).
      pose proof (canon_cform _ _ _ G1) as X1. pose proof (canon_cform _ _ _ G2) as X2. pose proof (canon_cform _ _ _ H2) as X3.
      destruct (cset_reduce _ (sunion_cset _ _ (proj1 X2) (proj1 X3))) as (cmr & F1 & F2).
      apply canon_union_members. exists cl, cmr. split; [exact G1|]. split; [apply canon_union_members; eauto 6|]. split; [exact H3|].
      rewrite H4, G4, F2. apply Hset; assumption.
    + apply canon_union_members in H. destruct H as (cl & cmr & H1 & H2 & H3 & H4).
      apply canon_union_members in H2. destruct H2 as (cm & cr & G1 & G2 & G3 & G4).
      pose proof (canon_cform _ _ _ G1) as X1. pose proof (canon_cform _ _ _ G2) as X2. pose proof (canon_cform _ _ _ H1) as X3.
      destruct (cset_reduce _ (sunion_cset _ _ (proj1 X3) (proj1 X1))) as (clm & F1 & F2).
      apply canon_union_members. exists clm, cr. split; [apply canon_union_members; eauto 6|]. split; [exact G2|]. split; [exact H3|].
      rewrite H4, G4, F2. symmetry. apply Hset; assumption.
  - assert (Hset : forall d, cform d -> norm (sunion (members_canonical d) (members_canonical d)) = members_canonical d).
    { intros d [X _]. apply sset_ext; [apply sunion_cset; assumption|apply X|].
      intros x. rewrite union_In. destruct X as (_ & _ & X & _).
      destruct (set_mem TAny (members_canonical d)) eqn:A.
      - apply set_mem_In in A. rewrite (X A). cbn. intuition congruence.
      - assert (~ In TAny (members_canonical d)) by (rewrite <- set_mem_In, A; discriminate). tauto. }
    rewrite canon_union_members. split.
    + intros (cl & cr & H1 & H2 & H3 & H4). rewrite (canon_fun _ _ _ _ H2 H1) in H4.
      pose proof (canon_cform _ _ _ H1) as X. rewrite (Hset _ X) in H4.
      assert (c = cl) as -> by (apply cform_inj; [assumption|assumption|rewrite H4; tauto]). exact H1.
    + intros H. exists c, c. pose proof (canon_cform _ _ _ H) as X. rewrite (Hset _ X). auto.
  - rewrite canon_union_members.
    assert (Hone : forall d, canon E TAny d <-> d = TAny).
    { intros d. split; [intros [[|n] G]; [discriminate|]; cbn in G; congruence|intros ->; exists 1; reflexivity]. }
    assert (Hset : forall s, norm (sunion [TAny] s) = [TAny]).
    { intros s. unfold norm. assert (G : set_mem TAny (sunion [TAny] s) = true) by (apply set_mem_In, sunion_In; cbn; auto).
      rewrite G. reflexivity. }
    split.
    + intros (cl & cr & H1 & H2 & H3 & H4). apply Hone in H1. subst. cbn [members_canonical] in H4. rewrite Hset in H4.
      apply Hone. apply cform_inj; [assumption|apply nonunion_cform; reflexivity|rewrite H4; cbn; tauto].
    + intros G. apply Hone in G. subst. destruct (canon_total E t Hcl Hac H) as [[d Hd] _].
      exists TAny, d. split; [apply Hone; reflexivity|]. split; [exact Hd|]. split; [apply nonunion_cform; reflexivity|].
      cbn [members_canonical]. rewrite Hset. reflexivity.
Qed.
