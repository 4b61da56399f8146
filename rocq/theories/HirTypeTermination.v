(** Fuel is only a bound: more fuel never changes an answer, and under acyclic
    aliases there is always enough. *)
From Coq Require Import String Ascii List Arith Lia Bool Relations.
From Verif Require Import Base HirType HirTypeSpec HirTypeOrder.
Import ListNotations.

Lemma Forall2_impl_in {A B} (P Q : A -> B -> Prop) l l' :
  (forall x y, In x l -> P x y -> Q x y) -> Forall2 P l l' -> Forall2 Q l l'.
Proof.
  intros H F. induction F as [|x y xs ys Hxy F IH]; constructor.
  - apply H; [left; reflexivity|exact Hxy].
  - apply IH. intros; apply H; [right|]; assumption.
Qed.

Lemma canon_mono1 n E :
  (forall t c, canonicalize n E t = Ok c -> canonicalize (S n) E t = Ok c) /\
  (forall t acc s, collect_types n E t acc = Ok s -> collect_types (S n) E t acc = Ok s).
Proof.
  induction n as [|n [IHc IHs]]; [split; discriminate|].
  split.
  - intros t c H. destruct t; cbn [canonicalize] in H; try exact H;
      change (canonicalize (S (S n)) E ?t) with
        (match t with
         | TFunction a r =>
             bind (mapM (canonicalize (S n) E) a) (fun a' =>
             bind (canonicalize (S n) E r) (fun r' => Ok (TFunction a' r')))
         | TList e => bind (canonicalize (S n) E e) (fun e' => Ok (TList e'))
         | TMap k v =>
             bind (canonicalize (S n) E k) (fun k' =>
             bind (canonicalize (S n) E v) (fun v' => Ok (TMap k' v')))
         | TUnion _ _ => bind (collect_types (S n) E t []) reduce_union
         | TAny | TBoolean | TError | TRecord _ _ | TNone | TNumber | TString => Ok t
         | TReference x => bind (resolve E x) (canonicalize (S n) E)
         end).
    + apply bind_ok in H. destruct H as (a' & Ha & H). apply bind_ok in H. destruct H as (r' & Hr & H).
      apply bind_ok. exists a'. split.
      * apply mapM_ok. apply mapM_ok in Ha. revert Ha. apply Forall2_impl_in. auto.
      * apply bind_ok. eauto.
    + apply bind_ok in H. destruct H as (e' & He & H). apply bind_ok. eauto.
    + apply bind_ok in H. destruct H as (k' & Hk & H). apply bind_ok in H. destruct H as (v' & Hv & H).
      apply bind_ok. exists k'. split; [auto|]. apply bind_ok. eauto.
    + apply bind_ok in H. destruct H as (t' & Ht & H). apply bind_ok. eauto.
    + apply bind_ok in H. destruct H as (s & Hs & H). apply bind_ok. eauto.
  - intros t acc s H. destruct t; cbn [collect_types] in H;
      change (collect_types (S (S n)) E ?t acc) with
        (match t with
         | TUnion l r => bind (collect_types (S n) E l acc) (collect_types (S n) E r)
         | TAny | TBoolean | TError | TFunction _ _ | TRecord _ _ | TList _ | TMap _ _
         | TNone | TNumber | TString =>
             bind (canonicalize (S n) E t) (fun c => Ok (set_insert c acc))
         | TReference x => bind (resolve E x) (fun t' => collect_types (S n) E t' acc)
         end);
      apply bind_ok in H; destruct H as (t' & Ht & H); apply bind_ok; eauto.
Qed.

Lemma canon_mono n m E t c : n <= m -> canonicalize n E t = Ok c -> canonicalize m E t = Ok c.
Proof. induction 1 as [|m _ IH]; [auto|]. intros H. apply canon_mono1. auto. Qed.

Lemma collect_mono n m E t acc s :
  n <= m -> collect_types n E t acc = Ok s -> collect_types m E t acc = Ok s.
Proof. induction 1 as [|m _ IH]; [auto|]. intros H. apply canon_mono1. auto. Qed.

(** The result of canonicalization, whatever the fuel. *)
Definition canon (E : tenv) (t c : ty) : Prop := exists n, canonicalize n E t = Ok c.
Definition collects (E : tenv) (t : ty) (acc s : list ty) : Prop :=
  exists n, collect_types n E t acc = Ok s.

Lemma canon_fun E t c d : canon E t c -> canon E t d -> c = d.
Proof.
  intros [n H] [m G].
  apply (canon_mono n (n + m)) in H; [|lia]. apply (canon_mono m (n + m)) in G; [|lia]. congruence.
Qed.

Lemma collects_fun E t a c d : collects E t a c -> collects E t a d -> c = d.
Proof.
  intros [n H] [m G].
  apply (collect_mono n (n + m)) in H; [|lia]. apply (collect_mono m (n + m)) in G; [|lia]. congruence.
Qed.

(** ** Equations for the fuel-free relations *)
Lemma canon_alias E x c : canon E (TReference x) c <-> exists t, lookup E x = Some t /\ canon E t c.
Proof.
  split.
  - intros [[|n] H]; [discriminate|]. cbn [canonicalize] in H. apply bind_ok in H. destruct H as (t & Ht & H).
    exists t. unfold resolve in Ht. destruct (lookup E x); [|discriminate]. injection Ht as ->. split; [reflexivity|eexists; eauto].
  - intros (t & Ht & n & H). exists (S n). cbn [canonicalize]. apply bind_ok. exists t. unfold resolve. rewrite Ht. auto.
Qed.

Lemma canon_list E e c : canon E (TList e) c <-> exists e', canon E e e' /\ c = TList e'.
Proof.
  split.
  - intros [[|n] H]; [discriminate|]. cbn [canonicalize] in H. apply bind_ok in H. destruct H as (t & Ht & H).
    exists t. split; [eexists; eauto|congruence].
  - intros (e' & [n H] & ->). exists (S n). cbn [canonicalize]. apply bind_ok. eauto.
Qed.

Lemma canon_map E k v c :
  canon E (TMap k v) c <-> exists k' v', canon E k k' /\ canon E v v' /\ c = TMap k' v'.
Proof.
  split.
  - intros [[|n] H]; [discriminate|]. cbn [canonicalize] in H. apply bind_ok in H. destruct H as (k' & Hk & H).
    apply bind_ok in H. destruct H as (v' & Hv & H).
    exists k', v'. split; [eexists; eauto|]. split; [eexists; eauto|congruence].
  - intros (k' & v' & [n Hk] & [m Hv] & ->). exists (S (n + m)). cbn [canonicalize].
    apply bind_ok. exists k'. split; [eapply canon_mono; [|exact Hk]; lia|].
    apply bind_ok. exists v'. split; [eapply canon_mono; [|exact Hv]; lia|reflexivity].
Qed.

Lemma canon_args E a a' :
  Forall2 (canon E) a a' -> exists n, mapM (canonicalize n E) a = Ok a'.
Proof.
  induction 1 as [|x y xs ys [n Hxy] F [m IH]]; [exists 0; reflexivity|].
  exists (n + m). cbn [mapM]. apply bind_ok. exists y. split; [eapply canon_mono; [|exact Hxy]; lia|].
  apply bind_ok. exists ys. split; [|reflexivity]. apply mapM_ok in IH. apply mapM_ok.
  revert IH. apply Forall2_impl_in. intros. eapply canon_mono; [|eassumption]; lia.
Qed.

Lemma canon_function E a r c :
  canon E (TFunction a r) c <->
  exists a' r', Forall2 (canon E) a a' /\ canon E r r' /\ c = TFunction a' r'.
Proof.
  split.
  - intros [[|n] H]; [discriminate|]. cbn [canonicalize] in H. apply bind_ok in H. destruct H as (a' & Ha & H).
    apply bind_ok in H. destruct H as (r' & Hr & H).
    exists a', r'. split; [|split; [eexists; eauto|congruence]].
    apply mapM_ok in Ha. revert Ha. apply Forall2_impl_in. intros. eexists; eauto.
  - intros (a' & r' & Ha & [m Hr] & ->). apply canon_args in Ha. destruct Ha as [n Ha].
    exists (S (n + m)). cbn [canonicalize].
    apply bind_ok. exists a'. split.
    { apply mapM_ok in Ha. apply mapM_ok. revert Ha. apply Forall2_impl_in. intros. eapply canon_mono; [|eassumption]; lia. }
    apply bind_ok. exists r'. split; [eapply canon_mono; [|exact Hr]; lia|reflexivity].
Qed.

Lemma canon_union E l r c :
  canon E (TUnion l r) c <->
  exists s1 s2, collects E l [] s1 /\ collects E r s1 s2 /\ reduce_union s2 = Ok c.
Proof.
  split.
  - intros [[|[|n]] H]; try discriminate. cbn [canonicalize] in H. apply bind_ok in H. destruct H as (s & Hs & H).
    cbn [collect_types] in Hs. apply bind_ok in Hs. destruct Hs as (s1 & H1 & H2).
    exists s1, s. split; [eexists; eauto|]. split; [eexists; eauto|exact H].
  - intros (s1 & s2 & [n H1] & [m H2] & H). exists (S (S (n + m))). cbn [canonicalize].
    apply bind_ok. exists s2. split; [|exact H]. cbn [collect_types]. apply bind_ok. exists s1.
    split; [eapply collect_mono; [|exact H1]; lia|eapply collect_mono; [|exact H2]; lia].
Qed.

Definition is_ref (t : ty) : bool := match t with TReference _ => true | _ => false end.
Definition is_union (t : ty) : bool := match t with TUnion _ _ => true | _ => false end.
Definition atom (t : ty) : Prop := is_ref t = false /\ is_union t = false.

Lemma collects_alias E x acc s :
  collects E (TReference x) acc s <-> exists t, lookup E x = Some t /\ collects E t acc s.
Proof.
  split.
  - intros [[|n] H]; [discriminate|]. cbn [collect_types] in H. apply bind_ok in H. destruct H as (t & Ht & H).
    exists t. unfold resolve in Ht. destruct (lookup E x); [|discriminate]. injection Ht as ->. split; [reflexivity|eexists; eauto].
  - intros (t & Ht & n & H). exists (S n). cbn [collect_types]. apply bind_ok. exists t. unfold resolve. rewrite Ht. auto.
Qed.

Lemma collects_union E l r acc s :
  collects E (TUnion l r) acc s <-> exists s1, collects E l acc s1 /\ collects E r s1 s.
Proof.
  split.
  - intros [[|n] H]; [discriminate|]. cbn [collect_types] in H. apply bind_ok in H. destruct H as (t & Ht & H).
    exists t. split; eexists; eauto.
  - intros (s1 & [n H1] & [m H2]). exists (S (n + m)). cbn [collect_types]. apply bind_ok. exists s1.
    split; [eapply collect_mono; [|exact H1]; lia|eapply collect_mono; [|exact H2]; lia].
Qed.

Lemma collects_atom E t acc s :
  atom t -> collects E t acc s <-> exists c, canon E t c /\ s = set_insert c acc.
Proof.
  intros [H1 H2]. split.
  - intros [[|n] H]; [discriminate|].
    destruct t; try discriminate; cbn [collect_types] in H; apply bind_ok in H; destruct H as (c & Hc & H);
      (exists c; split; [eexists; eauto|congruence]).
  - intros (c & [n H] & ->). exists (S n).
    destruct t; try discriminate; cbn [collect_types]; apply bind_ok; eauto.
Qed.

(** ** Well-founded aliases *)
Section WellFounded.
  Variable E : tenv.
  Hypothesis Hac : acyclic E.

  Lemma visited_acc k : forall visited x,
    NoDup visited -> incl visited (map fst E) ->
    (forall v, In v visited -> clos_trans string (alias_dep E) v x) ->
    length (map fst E) - length visited <= k ->
    Acc (fun b a => alias_dep E a b) x.
  Proof.
    induction k as [|k IH]; intros visited x Hnd Hin Hreach Hk.
    - constructor. intros y (t & Ht & Hy).
      assert (Hx : ~ In x visited) by (intros H; apply (Hac x); auto).
      assert (Hlen : length (x :: visited) <= length (map fst E)).
      { apply NoDup_incl_length; [constructor; assumption|].
        intros z [<-|Hz]; [eapply lookup_fst; eauto|auto]. }
      cbn in Hlen. lia.
    - constructor. intros y (t & Ht & Hy).
      assert (Hx : ~ In x visited) by (intros H; apply (Hac x); auto).
      apply (IH (x :: visited)).
      + constructor; assumption.
      + intros z [<-|Hz]; [eapply lookup_fst; eauto|auto].
      + intros v [<-|Hv]; [apply t_step; exists t; auto|].
        eapply t_trans; [apply Hreach, Hv|apply t_step; exists t; auto].
      + cbn [length]. lia.
  Qed.

  Lemma alias_acc x : Acc (fun b a => alias_dep E a b) x.
  Proof.
    apply (visited_acc (length (map fst E)) []); [constructor|intros y []|intros v []|cbn; lia].
  Qed.
End WellFounded.

Definition collectable (E : tenv) (t : ty) : Prop :=
  forall acc, exists s, collects E t acc s /\ s <> [].

Lemma set_insert_nonnil t s : set_insert t s <> [].
Proof. destruct s as [|u us]; cbn; [discriminate|]. destruct (ty_compare t u); discriminate. Qed.

Lemma canon_ok_aux E t :
  (forall x, In x (references t) ->
     (exists c, canon E (TReference x) c) /\ collectable E (TReference x)) ->
  (exists c, canon E t c) /\ collectable E t.
Proof.
  assert (Hatom : forall t, atom t -> (exists c, canon E t c) -> (exists c, canon E t c) /\ collectable E t).
  { intros t' Ha [c Hc]. split; [eauto|]. intros acc. exists (set_insert c acc).
    split; [apply collects_atom; eauto|apply set_insert_nonnil]. }
  induction t as [| | |a r IHa IHr|e IHe|k v IHk IHv| | |n o|x| |l r IHl IHr] using ty_ind'; intros H;
    try (apply Hatom; [split; reflexivity|]);
    try (eexists; exists 1; reflexivity).
  - assert (Ha : exists a', Forall2 (canon E) a a').
    { assert (H' : forall x, In x (flat_map references a) -> (exists c, canon E (TReference x) c) /\ collectable E (TReference x)).
      { intros x Hx. apply H. cbn. apply in_or_app. auto. }
      clear - IHa H'. induction IHa as [|y ys Hy _ IH]; [exists []; constructor|].
      destruct IH as [ys' IH]; [intros x Hx; apply H'; cbn; apply in_or_app; auto|].
      destruct Hy as [[y' Hy] _]; [intros x Hx; apply H'; cbn; apply in_or_app; auto|].
      exists (y' :: ys'). constructor; assumption. }
    destruct Ha as [a' Ha].
    destruct IHr as [[r' Hr] _]; [intros x Hx; apply H; cbn; apply in_or_app; auto|].
    exists (TFunction a' r'). apply canon_function. eauto.
  - destruct IHe as [[e' He] _]; [exact H|]. exists (TList e'). apply canon_list. eauto.
  - destruct IHk as [[k' Hk] _]; [intros x Hx; apply H; cbn; apply in_or_app; auto|].
    destruct IHv as [[v' Hv] _]; [intros x Hx; apply H; cbn; apply in_or_app; auto|].
    exists (TMap k' v'). apply canon_map. eauto 6.
  - apply H. left. reflexivity.
  - destruct IHl as [_ Hl]; [intros x Hx; apply H; cbn; apply in_or_app; auto|].
    destruct IHr as [_ Hr]; [intros x Hx; apply H; cbn; apply in_or_app; auto|].
    split.
    + destruct (Hl []) as (s1 & H1 & _). destruct (Hr s1) as (s2 & H2 & Hne).
      destruct s2 as [|u us]; [congruence|].
      eexists. apply canon_union. exists s1, (u :: us). split; [exact H1|]. split; [exact H2|reflexivity].
    + intros acc. destruct (Hl acc) as (s1 & H1 & _). destruct (Hr s1) as (s2 & H2 & Hne).
      exists s2. split; [apply collects_union; eauto|exact Hne].
Qed.

Lemma canon_total E t :
  closed_env E -> acyclic E -> defined E t -> (exists c, canon E t c) /\ collectable E t.
Proof.
  intros Hcl Hac Hd.
  assert (Href : forall x, lookup E x <> None ->
     (exists c, canon E (TReference x) c) /\ collectable E (TReference x)).
  { intros x. induction (alias_acc E Hac x) as [x _ IH]. intros Hx.
    destruct (lookup E x) as [u|] eqn:Hu; [|congruence].
    destruct (canon_ok_aux E u) as [[c Hc] Hs].
    - intros y Hy. apply IH; [exists u; auto|]. apply (Hcl x u Hu y Hy).
    - split; [exists c; apply canon_alias; eauto|].
      intros acc. destruct (Hs acc) as (s & H1 & H2). exists s. split; [apply collects_alias; eauto|exact H2]. }
  apply canon_ok_aux. intros x Hx. apply Href. apply Hd. exact Hx.
Qed.

(** Canonical types mention no alias. *)
Lemma references_reduce s c : reduce_union s = Ok c -> (forall t, In t s -> references t = []) -> references c = [].
Proof.
  destruct s as [|t ts]; [discriminate|]. cbn [reduce_union]. intros H; injection H as <-. intros H.
  assert (Ht : references t = []) by (apply H; left; reflexivity).
  assert (Hts : forall u, In u ts -> references u = []) by (intros u Hu; apply H; right; exact Hu).
  clear H. revert t Ht. induction ts as [|u us IH]; intros t Ht; [exact Ht|].
  cbn [fold_left]. apply IH; [intros; apply Hts; right; assumption|].
  assert (Hu : references u = []) by (apply Hts; left; reflexivity).
  unfold join. destruct (is_any t); [exact Ht|]. destruct (is_any u); [exact Hu|].
  cbn. rewrite Ht, Hu. reflexivity.
Qed.

Lemma canon_noref n E :
  (forall t c, canonicalize n E t = Ok c -> references c = []) /\
  (forall t acc s, collect_types n E t acc = Ok s ->
     (forall x, In x acc -> references x = []) -> forall x, In x s -> references x = []).
Proof.
  induction n as [|n [IHc IHs]]; [split; discriminate|]. split.
  - intros t c H. destruct t; cbn [canonicalize] in H; try (injection H as <-; reflexivity).
    + apply bind_ok in H. destruct H as (a' & Ha & H). apply bind_ok in H. destruct H as (r' & Hr & H).
      injection H as <-. cbn. rewrite (IHc _ _ Hr), app_nil_r. apply mapM_ok in Ha.
      induction Ha as [|x y xs ys Hxy _ IH]; [reflexivity|]. cbn. rewrite (IHc _ _ Hxy). exact IH.
    + apply bind_ok in H. destruct H as (e' & He & H). injection H as <-. cbn. eauto.
    + apply bind_ok in H. destruct H as (k' & Hk & H). apply bind_ok in H. destruct H as (v' & Hv & H).
      injection H as <-. cbn. rewrite (IHc _ _ Hk), (IHc _ _ Hv). reflexivity.
    + apply bind_ok in H. destruct H as (t' & Ht & H). eauto.
    + apply bind_ok in H. destruct H as (s & Hs & H). eapply references_reduce; [exact H|].
      eapply IHs; [exact Hs|]. intros x [].
  - intros t acc s H Hacc.
    destruct t; cbn [collect_types] in H; apply bind_ok in H; destruct H as (t' & Ht & H);
      try (injection H as <-; intros x Hx; apply set_insert_In in Hx; destruct Hx as [->|Hx]; eauto; fail).
    + eapply IHs; eauto.
    + eapply IHs; [exact H|]. eapply IHs; eauto.
Qed.
