(** Code accepted by the validator of reference counts is balanced on every
    path, up to the order of clones and uses. *)
From Coq Require Import String List ZArith Bool Lia.
From Verif Require Import Base Mir MirSim MirScopeSpec MirNormSpec MirUniq MirRc MirRcSpec MirRcValidSpec MirRcProofs.
Import ListNotations.
Local Open Scope Z_scope.

(** ** Counts *)
Definition lk (c : counts) (x : string) : Z := match lookup c x with Some n => n | None => 0 end.

Lemma lookup_set c x n y : lookup (counts_set x n c) y = if String.eqb y x then Some n else lookup c y.
Proof.
  induction c as [|[z k] c IH]; cbn [counts_set lookup].
  - reflexivity.
  - destruct (String.eqb_spec x z) as [->|Hne]; cbn [lookup].
    + destruct (String.eqb y z); reflexivity.
    + rewrite IH. destruct (String.eqb_spec y z) as [->|]; [|reflexivity].
      apply not_eq_sym, String.eqb_neq in Hne. rewrite Hne. reflexivity.
Qed.

Lemma set_keys c x n y : In y (map fst (counts_set x n c)) <-> y = x \/ In y (map fst c).
Proof.
  induction c as [|[z k] c IH]; cbn [counts_set map fst In].
  - intuition congruence.
  - destruct (String.eqb_spec x z) as [->|Hne]; cbn [map fst In]; rewrite ?IH; intuition congruence.
Qed.

Lemma set_nodup c x n : NoDup (map fst c) -> NoDup (map fst (counts_set x n c)).
Proof.
  induction c as [|[z k] c IH]; cbn [counts_set map fst]; intros N.
  - constructor; [intros []|constructor].
  - apply NoDup_cons_iff in N as [N1 N2]. destruct (String.eqb_spec x z) as [->|Hne]; cbn [map fst]; constructor; auto.
    rewrite set_keys. intuition congruence.
Qed.

Lemma lookup_in {A} (c : list (string * A)) x : In x (map fst c) <-> exists n, lookup c x = Some n.
Proof.
  induction c as [|[z k] c IH]; cbn.
  - split; [tauto|intros [n H]; discriminate].
  - destruct (String.eqb_spec x z) as [->|Hne]; [split; eauto|]. rewrite <- IH. intuition congruence.
Qed.

Lemma lookup_add k c x y : lookup (add_count k c x) y =
  if String.eqb y x then option_map (fun n => n + k) (lookup c x) else lookup c y.
Proof.
  unfold add_count. destruct (lookup c x) as [n|] eqn:E; cbn [option_map].
  - rewrite lookup_set. reflexivity.
  - destruct (String.eqb_spec y x) as [->|]; [assumption|reflexivity].
Qed.

Lemma add_keys k c x y : In y (map fst (add_count k c x)) <-> In y (map fst c).
Proof.
  rewrite !lookup_in. split; intros [n H].
  - rewrite lookup_add in H. destruct (String.eqb_spec y x) as [->|]; [|eauto].
    destruct (lookup c x); [eauto|discriminate].
  - rewrite lookup_add. destruct (String.eqb_spec y x) as [->|]; [rewrite H; cbn|]; eauto.
Qed.

Lemma add_nodup k c x : NoDup (map fst c) -> NoDup (map fst (add_count k c x)).
Proof. unfold add_count. destruct (lookup c x); [apply set_nodup|auto]. Qed.

Lemma add_all_keys k xs : forall c y, In y (map fst (fold_left (add_count k) xs c)) <-> In y (map fst c).
Proof.
  induction xs as [|x xs IH]; intros c y; cbn [fold_left]; [reflexivity|]. rewrite IH. apply add_keys.
Qed.

Lemma add_all_nodup k xs : forall c, NoDup (map fst c) -> NoDup (map fst (fold_left (add_count k) xs c)).
Proof. induction xs as [|x xs IH]; intros c H; cbn [fold_left]; [assumption|]. apply IH, add_nodup, H. Qed.

Lemma lookup_member {A} (c : list (string * A)) x n : NoDup (map fst c) -> In (x, n) c -> lookup c x = Some n.
Proof.
  induction c as [|[z k] c IH]; cbn [map fst lookup]; intros N H; [destruct H|].
  apply NoDup_cons_iff in N as [N1 N2]. destruct H as [H|H].
  - injection H as -> ->. rewrite String.eqb_refl. reflexivity.
  - destruct (String.eqb_spec x z) as [->|]; [|auto]. exfalso. apply N1. apply (in_map fst) in H. exact H.
Qed.

Lemma lookup_nonzero c x : NoDup (map fst c) ->
  lookup (nonzero c) x = if lk c x =? 0 then None else Some (lk c x).
Proof.
  unfold nonzero, lk. induction c as [|[z k] c IH]; cbn [filter lookup map fst snd]; intros N; [reflexivity|].
  apply NoDup_cons_iff in N as [N1 N2]. specialize (IH N2).
  destruct (k =? 0) eqn:Ek; cbn [negb lookup].
  - rewrite IH. destruct (String.eqb_spec x z) as [->|]; [|reflexivity]. rewrite Ek.
    rewrite (lookup_out c z N1). reflexivity.
  - destruct (String.eqb_spec x z) as [->|]; [|exact IH]. rewrite Ek. reflexivity.
Qed.

Lemma nonzero_nodup c : NoDup (map fst c) -> NoDup (map fst (nonzero c)).
Proof. apply nodup_map_filter. Qed.

Lemma counts_eqb_spec a b : NoDup (map fst a) -> NoDup (map fst b) ->
  counts_eqb (nonzero a) (nonzero b) = true <-> forall x, lk a x = lk b x.
Proof.
  intros Na Nb. unfold counts_eqb. rewrite andb_true_iff, !forallb_forall.
  assert (Hin : forall c x, NoDup (map fst c) -> lk c x <> 0 -> In (x, lk c x) (nonzero c)).
  { intros c x N H. apply lookup_In. rewrite lookup_nonzero by assumption.
    apply Z.eqb_neq in H. rewrite H. reflexivity. }
  split.
  - intros [H1 H2] x. destruct (Z.eq_dec (lk a x) 0) as [Ea|Ea]; [destruct (Z.eq_dec (lk b x) 0) as [Eb|Eb]; [congruence|]|].
    + specialize (H2 _ (Hin b x Nb Eb)). cbn [fst snd] in H2. rewrite lookup_nonzero, Ea in H2 by assumption. discriminate.
    + specialize (H1 _ (Hin a x Na Ea)). cbn [fst snd] in H1. rewrite lookup_nonzero in H1 by assumption.
      destruct (lk b x =? 0); [discriminate|]. apply Z.eqb_eq in H1. congruence.
  - intros H. split; intros [x n] Hx; cbn [fst snd].
    + pose proof (lookup_member _ _ _ (nonzero_nodup _ Na) Hx) as E. rewrite lookup_nonzero in * by assumption.
      rewrite <- H. destruct (lk a x =? 0); [discriminate|]. injection E as ->. apply Z.eqb_refl.
    + pose proof (lookup_member _ _ _ (nonzero_nodup _ Nb) Hx) as E. rewrite lookup_nonzero in * by assumption.
      rewrite H. destruct (lk b x =? 0); [discriminate|]. injection E as ->. apply Z.eqb_refl.
Qed.

Lemma all_zero_spec c : NoDup (map fst c) -> all_zero c = true <-> forall x, lk c x = 0.
Proof.
  intros N. unfold all_zero. rewrite forallb_forall. unfold lk. split.
  - intros H x. destruct (lookup c x) as [n|] eqn:E; [|reflexivity]. apply lookup_In in E.
    apply H in E. apply Z.eqb_eq. exact E.
  - intros H [x n] Hx. specialize (H x). rewrite (lookup_member _ _ _ N Hx) in H. cbn. apply Z.eqb_eq. exact H.
Qed.

(** ** Keys *)
Definition grows (c c' : counts) : Prop :=
  NoDup (map fst c) -> NoDup (map fst c') /\ incl (map fst c) (map fst c').

Lemma grows_refl c : grows c c.
Proof. intros N. split; [assumption|]. intros x Hx. exact Hx. Qed.

Lemma grows_trans a b c : grows a b -> grows b c -> grows a c.
Proof.
  intros H1 H2 N. destruct (H1 N) as [N1 I1]. destruct (H2 N1) as [N2 I2]. split; [assumption|].
  intros x Hx. auto.
Qed.

Lemma grows_add k xs c : grows c (fold_left (add_count k) xs c).
Proof.
  intros N. split; [apply add_all_nodup, N|]. intros x Hx. apply add_all_keys. assumption.
Qed.

Lemma let_like_grows e x c c' : (forall c c', move e c = Some c' -> grows c c') ->
  validate_let_like move x e c = Some c' -> grows c c'.
Proof.
  intros IH H N. unfold validate_let_like in H.
  destruct (move e (counts_set x 1 c)) as [c2|] eqn:E; [|discriminate H]. cbn [opt_bind] in H.
  destruct (IH _ _ E (set_nodup _ x 1 N)) as [N2 I2].
  destruct (lookup c2 x) as [n|]; [|discriminate]. destruct (n =? 0); [|discriminate].
  assert (I3 : incl (map fst c) (map fst c2)).
  { intros y Hy. apply I2. apply set_keys. auto. }
  destruct (lookup c x) as [old|]; injection H as <-; [|auto].
  split; [apply set_nodup, N2|]. intros y Hy. apply set_keys. auto.
Qed.

Lemma move_all_grows es : Forall (fun e => forall c c', move e c = Some c' -> grows c c') es ->
  forall c c', move_all move es c = Some c' -> grows c c'.
Proof.
  induction 1 as [|e es He _ IH]; intros c c' H; cbn [move_all] in H.
  - injection H as <-. apply grows_refl.
  - destruct (move e c) as [c1|] eqn:E; [|discriminate]. cbn [opt_bind] in H.
    eapply grows_trans; eauto.
Qed.

Lemma move_grows e : forall c c', move e c = Some c' -> grows c c'.
Proof.
  induction e as [l|y|op es IH|b t e IHc IHt IHe|a alts de IHa IHalts IHde|y t b e IHb IHe
                  |d e IHd IHe|a y t e IHo IHe|xs e IHe|xs e IHe] using expr_ind';
    intros c c' H; cbn [move] in H.
  - injection H as <-. apply grows_refl.
  - injection H as <-. exact (grows_add (-1) [y] c).
  - eapply move_all_grows; eassumption.
  - destruct (move b c) as [c1|] eqn:E1; [|discriminate]. cbn [opt_bind] in H.
    destruct (move t c1) as [c2|] eqn:E2; [|discriminate]. cbn [opt_bind] in H.
    destruct (move e c1) as [c3|] eqn:E3; [|discriminate]. cbn [opt_bind] in H.
    destruct (counts_eqb _ _); [|discriminate]. injection H as <-. eapply grows_trans; eauto.
  - destruct (move a c) as [c1|] eqn:E1; [|discriminate]. cbn [opt_bind] in H.
    match type of H with opt_bind ?q _ = _ => destruct q as [c2|] eqn:E2; [|discriminate] end.
    cbn [opt_bind] in H. destruct (validate_alternatives _ _ _ _); [|discriminate]. injection H as <-.
    apply (grows_trans _ c1); [eauto|]. destruct de as [[x e]|]; [|destruct alts as [|al alts]; [discriminate|]].
    + eapply let_like_grows; [|exact E2]. eapply IHde. reflexivity.
    + apply Forall_cons_iff in IHalts as [IH1 _]. eapply let_like_grows; [|exact E2]. exact IH1.
  - destruct (move b c) as [c1|] eqn:E1; [|discriminate]. cbn [opt_bind] in H.
    eapply grows_trans; [eauto|]. eapply let_like_grows; [|exact H]. exact IHe.
  - destruct (move (f_body d) _) as [cb|]; [|discriminate]. cbn [opt_bind] in H. destruct (all_zero cb); [|discriminate].
    eapply grows_trans; [|eapply let_like_grows; [|exact H]; exact IHe]. apply grows_add.
  - destruct (move a c) as [c1|] eqn:E1; [|discriminate]. cbn [opt_bind] in H.
    destruct (validate_let_like move y e c1) as [c2|] eqn:E2; [|discriminate]. cbn [opt_bind] in H.
    destruct (all_zero c2); [|discriminate]. injection H as <-. eauto.
  - eapply grows_trans; [|eauto]. apply grows_add.
  - eapply grows_trans; [|eauto]. apply grows_add.
Qed.

(** ** Soundness *)
Definition agree (o : balance) (c : counts) : Prop :=
  NoDup (map fst c) /\ forall x, In x (map fst o) -> lookup c x = lookup o x.

(** The end of a path agrees with the counts of the validator. *)
Definition sound_end (scope : list string) (c : counts) (r : net_ending) : Prop :=
  match r with
  | NetValue o => map fst o = scope /\ agree o c
  | NetEarly => True
  | NetFault => False
  end.

Lemma add_to_names k x o : map fst (add_to k x o) = map fst o.
Proof.
  induction o as [|[y n] o IH]; cbn [add_to]; [reflexivity|]. destruct (String.eqb x y); cbn; congruence.
Qed.

Lemma lookup_add_to k x o y : lookup (add_to k x o) y =
  if String.eqb y x then option_map (fun n => n + k) (lookup o x) else lookup o y.
Proof.
  induction o as [|[z n] o IH]; cbn [add_to lookup].
  - destruct (String.eqb y x); reflexivity.
  - destruct (String.eqb_spec x z) as [->|Hne]; cbn [lookup].
    + destruct (String.eqb y z); reflexivity.
    + rewrite IH. destruct (String.eqb_spec y z) as [->|]; [|reflexivity].
      apply not_eq_sym, String.eqb_neq in Hne. rewrite Hne. reflexivity.
Qed.

Lemma agree_add k x o c : agree o c -> agree (add_to k x o) (add_count k c x).
Proof.
  intros [N H]. split; [apply add_nodup, N|]. intros y Hy. rewrite add_to_names in Hy.
  rewrite lookup_add, lookup_add_to. destruct (String.eqb_spec y x) as [->|]; [|auto]. rewrite H by assumption. reflexivity.
Qed.

Lemma agree_add_all k xs : forall o c, agree o c ->
  agree (add_to_all k xs o) (fold_left (add_count k) xs c) /\ map fst (add_to_all k xs o) = map fst o.
Proof.
  unfold add_to_all. induction xs as [|x xs IH]; intros o c H; cbn [fold_left]; [auto|].
  destruct (IH _ _ (agree_add k x o c H)) as [H1 H2]. split; [assumption|]. rewrite H2. apply add_to_names.
Qed.

Definition separate (o : balance) (bs : list string) : Prop := NoDup (map fst o ++ bs).

Lemma separate_scope o o' bs : map fst o' = map fst o -> separate o bs -> separate o' bs.
Proof. unfold separate. intros ->. auto. Qed.

Lemma separate_left o a b : separate o (a ++ b) -> separate o a.
Proof.
  unfold separate. rewrite app_assoc. intros H. apply nodup_app_iff in H. tauto.
Qed.

Lemma separate_right o a b : separate o (a ++ b) -> separate o b.
Proof.
  unfold separate. rewrite !nodup_app_iff. intros (H1 & (H2 & H3 & H4) & H5).
  split; [assumption|]. split; [assumption|]. intros x Hx Hb. apply (H5 x Hx). apply in_app_iff. auto.
Qed.

Lemma separate_push o x n bs : separate o (x :: bs) -> separate ((x, n) :: o) bs.
Proof.
  unfold separate. cbn [map fst app]. rewrite !nodup_app_iff, !NoDup_cons_iff.
  intros (H1 & (H2 & H3) & H4). rewrite nodup_app_iff, in_app_iff. split.
  - intros [H|H]; [|tauto]. apply (H4 x H). left. reflexivity.
  - split; [assumption|]. split; [assumption|]. intros y Hy Hb. apply (H4 y Hy). right. assumption.
Qed.

Lemma in_net_after r f r' : In r' (net_after r f) ->
  (exists o, r = NetValue o /\ In r' (f o)) \/ (r' = r /\ forall o, r <> NetValue o).
Proof. destruct r; cbn; [eauto| |]; intros [<-|[]]; right; split; congruence. Qed.

Definition sound (e : expr) : Prop := forall c c' o, move e c = Some c' -> agree o c -> separate o (own_binders e) ->
  forall r, In r (net e o) -> sound_end (map fst o) c' r.

Lemma lk_lookup c x : In x (map fst c) -> lookup c x = Some (lk c x).
Proof. intros H. apply lookup_in in H as [n H]. unfold lk. rewrite H. reflexivity. Qed.

(** Counts with the same values agree with the same balances. *)
Lemma sound_end_same scope c1 c2 r : NoDup (map fst c2) -> incl scope (map fst c2) ->
  (forall x, lk c1 x = lk c2 x) -> sound_end scope c1 r -> sound_end scope c2 r.
Proof.
  intros N2 H2 E. destruct r as [o| |]; cbn; auto. intros [S [N A]]. split; [assumption|]. split; [assumption|].
  intros x Hx. rewrite <- A by assumption. rewrite lk_lookup by (rewrite S in Hx; auto). rewrite <- E.
  unfold lk. specialize (A x Hx). rewrite A. apply lookup_in in Hx as [n Hx]. rewrite Hx. reflexivity.
Qed.

Lemma agree_keys o c : agree o c -> incl (map fst o) (map fst c).
Proof.
  intros [N A] x Hx. apply lookup_in. rewrite A by assumption. apply lookup_in. assumption.
Qed.

Lemma let_like_sound x e c c' o : sound e -> validate_let_like move x e c = Some c' -> agree o c ->
  separate o (x :: own_binders e) ->
  forall r, In r (map net_leave (net e ((x, 1) :: o))) -> sound_end (map fst o) c' r.
Proof.
  intros IH H A S r Hr. unfold validate_let_like in H.
  destruct (move e (counts_set x 1 c)) as [c2|] eqn:E; [|discriminate H]. cbn [opt_bind] in H.
  apply in_map_iff in Hr as (r1 & <- & Hr).
  assert (Hx : ~ In x (map fst o)).
  { unfold separate in S. apply nodup_app_iff in S as (_ & _ & S). intros Hx. apply (S x Hx). left. reflexivity. }
  assert (A1 : agree ((x, 1) :: o) (counts_set x 1 c)).
  { destruct A as [N A]. split; [apply set_nodup, N|]. intros y Hy. rewrite lookup_set. cbn [lookup].
    destruct (String.eqb_spec y x) as [->|Hne]; [reflexivity|]. apply A. cbn in Hy. destruct Hy; [congruence|assumption]. }
  pose proof (IH _ _ _ E A1 (separate_push _ _ _ _ S) r1 Hr) as R.
  destruct r1 as [o1| |]; [|exact I|destruct R]. destruct R as [S1 A2]. cbn [map fst] in S1.
  destruct o1 as [|[y n] o1]; [discriminate|]. cbn in S1. injection S1 as -> S1.
  destruct A2 as [N2 A2]. pose proof (A2 x (or_introl eq_refl)) as Ex. cbn [lookup] in Ex. rewrite String.eqb_refl in Ex.
  rewrite Ex in H. destruct (n =? 0) eqn:En; [|discriminate H]. apply Z.eqb_eq in En. rewrite En. cbn [net_leave sound_end].
  split; [assumption|].
  assert (A3 : forall y, In y (map fst o1) -> lookup c2 y = lookup o1 y).
  { intros y Hy. rewrite A2 by (right; assumption). cbn [lookup].
    destruct (String.eqb_spec y x) as [->|]; [rewrite S1 in Hy; contradiction|reflexivity]. }
  destruct (lookup c x) as [old|]; injection H as <-; [|split; assumption].
  split; [apply set_nodup, N2|]. intros y Hy. rewrite lookup_set.
  destruct (String.eqb_spec y x) as [->|]; [rewrite S1 in Hy; contradiction|auto].
Qed.

Lemma operands_sound es : Forall sound es -> forall c c' o, move_all move es c = Some c' -> agree o c ->
  separate o (flat_map own_binders es) ->
  forall r, In r (operand_net net es o) -> sound_end (map fst o) c' r.
Proof.
  induction 1 as [|e es He _ IH]; intros c c' o H A S r Hr; cbn [move_all operand_net flat_map] in *.
  - injection H as <-. destruct Hr as [<-|[]]. cbn. auto.
  - destruct (move e c) as [c1|] eqn:E; [|discriminate]. cbn [opt_bind] in H.
    apply in_flat_map in Hr as (r1 & Hr1 & Hr).
    pose proof (He _ _ _ E A (separate_left _ _ _ S) _ Hr1) as R.
    apply in_net_after in Hr as [(o1 & -> & Hr)|[-> Hne]].
    + destruct R as [S1 A1]. rewrite <- S1. eapply IH; try eassumption.
      eapply separate_scope; [exact S1|]. eapply separate_right; eassumption.
    + destruct r1; [exfalso; eapply Hne; reflexivity|exact I|destruct R].
Qed.

Lemma validate_alternatives_in alts old c : validate_alternatives move alts old c = true ->
  forall al, In al alts -> exists c', validate_let_like move (a_name al) (a_body al) old = Some c' /\
    counts_eqb (nonzero c) (nonzero c') = true.
Proof.
  induction alts as [|a alts IH]; cbn [validate_alternatives]; intros H al Hal; [destruct Hal|].
  destruct (validate_let_like move (a_name a) (a_body a) old) as [c1|] eqn:E; [|discriminate].
  apply andb_true_iff in H as [H1 H2]. destruct Hal as [->|Hal]; eauto.
Qed.

Lemma separate_incl o a b : NoDup b -> incl b a -> separate o a -> separate o b.
Proof.
  unfold separate. rewrite !nodup_app_iff. intros N I (H1 & H2 & H3). repeat split; auto.
  intros x Hx Hb. apply (H3 x Hx). auto.
Qed.

Lemma separate_nodup o a : separate o a -> NoDup a.
Proof. unfold separate. intros H. apply nodup_app_iff in H. tauto. Qed.

Lemma move_sound e : sound e.
Proof.
  induction e as [l|y|op es IH|b t e IHc IHt IHe|a alts de IHa IHalts IHde|y t b e IHb IHe
                  |d e IHd IHe|a y t e IHo IHe|xs e IHe|xs e IHe] using expr_ind';
    intros c c' o H A S r Hr; cbn [move net own_binders] in *.
  - injection H as <-. destruct Hr as [<-|[]]. cbn. auto.
  - injection H as <-. destruct Hr as [<-|[]]. cbn. split; [apply add_to_names|]. apply agree_add, A.
  - eapply operands_sound; eassumption.
  - destruct (move b c) as [c1|] eqn:E1; [|discriminate]. cbn [opt_bind] in H.
    destruct (move t c1) as [c2|] eqn:E2; [|discriminate]. cbn [opt_bind] in H.
    destruct (move e c1) as [c3|] eqn:E3; [|discriminate]. cbn [opt_bind] in H.
    destruct (counts_eqb _ _) eqn:Eq; [|discriminate]. injection H as <-.
    apply in_flat_map in Hr as (r1 & Hr1 & Hr).
    pose proof (IHc _ _ _ E1 A (separate_left _ _ _ S) _ Hr1) as R.
    apply in_net_after in Hr as [(o1 & -> & Hr)|[-> Hne]].
    2: { destruct r1; [exfalso; eapply Hne; reflexivity|exact I|destruct R]. }
    destruct R as [S1 A1]. rewrite <- S1.
    assert (S' : separate o1 (own_binders t ++ own_binders e)).
    { eapply separate_scope; [exact S1|]. eapply separate_right; eassumption. }
    apply in_app_iff in Hr as [Hr|Hr].
    + destruct (move_grows _ _ _ E2 (proj1 A1)) as [N2 _]. destruct (move_grows _ _ _ E3 (proj1 A1)) as [N3 I3].
      apply (sound_end_same _ c2); [assumption| | |].
      * intros x Hx. apply I3. apply (agree_keys _ _ A1). assumption.
      * intros x. symmetry. revert x. apply counts_eqb_spec; assumption.
      * eapply IHt; try eassumption. eapply separate_left; eassumption.
    + eapply IHe; try eassumption. eapply separate_right; eassumption.
  - destruct (move a c) as [c1|] eqn:E1; [|discriminate]. cbn [opt_bind] in H.
    match type of H with opt_bind ?q _ = _ => destruct q as [c2|] eqn:E2; [|discriminate] end.
    cbn [opt_bind] in H. destruct (validate_alternatives _ _ _ _) eqn:Ev; [|discriminate]. injection H as <-.
    apply in_flat_map in Hr as (r1 & Hr1 & Hr).
    pose proof (IHa _ _ _ E1 A (separate_left _ _ _ S) _ Hr1) as R.
    apply in_net_after in Hr as [(o1 & -> & Hr)|[-> Hne]].
    2: { destruct r1; [exfalso; eapply Hne; reflexivity|exact I|destruct R]. }
    destruct R as [S1 A1]. rewrite <- S1. apply separate_right in S.
    eapply separate_scope in S; [|exact S1].
    assert (G2 : grows c1 c2).
    { destruct de as [[x e]|]; [|destruct alts as [|al alts]; [discriminate|]];
        (eapply let_like_grows; [|exact E2]); intros; eapply move_grows; eassumption. }
    destruct (G2 (proj1 A1)) as [N2 I2].
    rewrite map_app in Hr. apply in_app_iff in Hr as [Hr|Hr].
    + apply in_map_iff in Hr as (r2 & Hl & Hr). apply in_flat_map in Hr as (al & Hal & Hr).
      destruct (validate_alternatives_in _ _ _ Ev al Hal) as (c3 & E3 & Eq).
      assert (G3 : grows c1 c3).
      { eapply let_like_grows; [|exact E3]. intros; eapply move_grows; eassumption. }
      destruct (G3 (proj1 A1)) as [N3 I3].
      apply (sound_end_same _ c3); [assumption| | |].
      * intros x Hx. apply I2. apply (agree_keys _ _ A1). assumption.
      * intros x. symmetry. revert x. apply counts_eqb_spec; assumption.
      * rewrite Forall_forall in IHalts. eapply let_like_sound; [apply IHalts; exact Hal|exact E3|exact A1| |].
        -- apply separate_left in S. eapply separate_incl; [|  |exact S].
           ++ exact (nodup_flat_map (fun al => a_name al :: own_binders (a_body al)) alts al (separate_nodup _ _ S) Hal).
           ++ intros x Hx. apply in_flat_map. eauto.
        -- apply in_map_iff. exists r2. split; [exact Hl|exact Hr].
    + destruct de as [[x e]|]; [|destruct Hr]. eapply let_like_sound; [|exact E2|exact A1| |exact Hr].
      * eapply IHde. reflexivity.
      * eapply separate_right. exact S.
  - destruct (move b c) as [c1|] eqn:E1; [|discriminate]. cbn [opt_bind] in H.
    apply in_flat_map in Hr as (r1 & Hr1 & Hr).
    change (y :: own_binders b ++ own_binders e) with ([y] ++ own_binders b ++ own_binders e) in S.
    pose proof (IHb _ _ _ E1 A (separate_left _ _ _ (separate_right _ _ _ S)) _ Hr1) as R.
    apply in_net_after in Hr as [(o1 & -> & Hr)|[-> Hne]].
    2: { destruct r1; [exfalso; eapply Hne; reflexivity|exact I|destruct R]. }
    destruct R as [S1 A1]. rewrite <- S1. eapply let_like_sound; [exact IHe|exact H|exact A1| |exact Hr].
    eapply separate_scope; [exact S1|]. eapply separate_incl; [| |exact S].
    + pose proof (separate_nodup _ _ S) as N. cbn in N. apply NoDup_cons_iff in N as [N1 N2]. constructor.
      * intros Hy. apply N1. apply in_app_iff. auto.
      * apply nodup_app_iff in N2. tauto.
    + intros x [<-|Hx]; cbn; rewrite ?in_app_iff; auto.
  - destruct (move (f_body d) _) as [cb|]; [|discriminate]. cbn [opt_bind] in H. destruct (all_zero cb); [|discriminate].
    destruct (agree_add_all (-1) (map fst (f_env d)) o c A) as [A1 S1]. rewrite <- S1.
    eapply let_like_sound; [exact IHe|exact H|exact A1| |exact Hr]. eapply separate_scope; [exact S1|]. exact S.
  - destruct (move a c) as [c1|] eqn:E1; [|discriminate]. cbn [opt_bind] in H.
    destruct (validate_let_like move y e c1) as [c2|] eqn:E2; [|discriminate]. cbn [opt_bind] in H.
    destruct (all_zero c2) eqn:Ez; [|discriminate]. injection H as <-.
    apply in_flat_map in Hr as (r1 & Hr1 & Hr).
    change (y :: own_binders a ++ own_binders e) with ([y] ++ own_binders a ++ own_binders e) in S.
    pose proof (IHo _ _ _ E1 A (separate_left _ _ _ (separate_right _ _ _ S)) _ Hr1) as R.
    apply in_net_after in Hr as [(o1 & -> & Hr)|[-> Hne]].
    2: { destruct r1; [exfalso; eapply Hne; reflexivity|exact I|destruct R]. }
    destruct Hr as [<-|Hr]; [exact R|]. destruct R as [S1 A1].
    apply in_map_iff in Hr as (r2 & <- & Hr).
    assert (S' : separate o1 (y :: own_binders e)).
    { eapply separate_scope; [exact S1|]. eapply separate_incl; [| |exact S].
      + pose proof (separate_nodup _ _ S) as N. cbn in N. apply NoDup_cons_iff in N as [N1 N2]. constructor.
        * intros Hy. apply N1. apply in_app_iff. auto.
        * apply nodup_app_iff in N2. tauto.
      + intros x [<-|Hx]; cbn; rewrite ?in_app_iff; auto. }
    pose proof (let_like_sound y e c1 c2 o1 IHe E2 A1 S' (net_leave r2) (in_map net_leave _ _ Hr)) as R.
    destruct r2 as [o2| |]; [|exact I|destruct R]. cbn [net_return net_leave] in *.
    destruct o2 as [|[z [|k|k]] o2]; try destruct R. destruct H0 as [N2 A2].
    assert (Z2 : forall x, lk c2 x = 0) by (apply all_zero_spec; assumption).
    assert (Ht : settled ((z, 0) :: o2) = true).
    { cbn. assert (N3 : NoDup (map fst o2)).
      { rewrite H. unfold separate in S'. apply nodup_app_iff in S'. tauto. }
      apply forallb_forall. intros [x n] Hx. cbn. specialize (Z2 x). unfold lk in Z2.
      pose proof (lookup_member _ _ _ N3 Hx) as Lx. rewrite A2, Lx in Z2.
      - rewrite Z2. reflexivity.
      - apply (in_map fst) in Hx. exact Hx. }
    rewrite Ht. exact I.
  - destruct (agree_add_all 1 (map fst xs) o c A) as [A1 S1]. rewrite <- S1. eapply IHe; try eassumption.
    eapply separate_scope; eassumption.
  - destruct (agree_add_all (-1) (map fst xs) o c A) as [A1 S1]. rewrite <- S1. eapply IHe; try eassumption.
    eapply separate_scope; eassumption.
Qed.

(** ** Functions *)
Lemma move_locals e : forall c c', move e c = Some c' -> forall d b, within (LetRec d b) e ->
  validate_function false d = true.
Proof.
  assert (LL : forall x e c c', (forall c c', move e c = Some c' -> forall d b, within (LetRec d b) e ->
                 validate_function false d = true) ->
               validate_let_like move x e c = Some c' -> forall d b, within (LetRec d b) e ->
                 validate_function false d = true).
  { intros x e0 c c' IH H. unfold validate_let_like in H.
    destruct (move e0 (counts_set x 1 c)) as [c2|] eqn:E; [|discriminate H]. eapply IH; eassumption. }
  induction e as [l|y|op es IH|b t e IHc IHt IHe|a alts de IHa IHalts IHde|y t b e IHb IHe
                  |d e IHd IHe|a y t e IHo IHe|xs e IHe|xs e IHe] using expr_ind';
    intros c c' H d0 b0 Hw; cbn [move] in H.
  - inversion Hw.
  - inversion Hw.
  - inversion Hw as [|? ? ? e2 He2 Hw2| | | | | | | | | | | | | |]; subst. revert c H He2.
    induction IH as [|e es He _ IHes]; intros c H He2; cbn [move_all] in H; [destruct He2|].
    destruct (move e c) as [c1|] eqn:E; [|discriminate]. cbn [opt_bind] in H.
    destruct He2 as [->|He2]; [eapply He; eassumption|]. eapply IHes; [|exact H|exact He2].
    econstructor; eassumption.
  - destruct (move b c) as [c1|] eqn:E1; [|discriminate]. cbn [opt_bind] in H.
    destruct (move t c1) as [c2|] eqn:E2; [|discriminate]. cbn [opt_bind] in H.
    destruct (move e c1) as [c3|] eqn:E3; [|discriminate]. inversion Hw; subst; eauto.
  - destruct (move a c) as [c1|] eqn:E1; [|discriminate]. cbn [opt_bind] in H.
    match type of H with opt_bind ?q _ = _ => destruct q as [c2|] eqn:E2; [|discriminate] end.
    cbn [opt_bind] in H. destruct (validate_alternatives _ _ _ _) eqn:Ev; [|discriminate].
    inversion Hw; subst.
    + eauto.
    + match goal with Hx : In ?al alts |- _ => destruct (validate_alternatives_in _ _ _ Ev al Hx) as (c3 & E3 & _) end.
      rewrite Forall_forall in IHalts. eapply LL; [|exact E3|eassumption]. eauto.
    + eapply LL; [|exact E2|eassumption]. eapply IHde. reflexivity.
  - destruct (move b c) as [c1|] eqn:E1; [|discriminate]. cbn [opt_bind] in H. inversion Hw; subst; eauto.
  - destruct (move (f_body d) _) as [cb|] eqn:Eb; [|discriminate]. cbn [opt_bind] in H.
    destruct (all_zero cb) eqn:Ez; [|discriminate]. inversion Hw; subst; eauto.
    unfold validate_function. rewrite Eb. exact Ez.
  - destruct (move a c) as [c1|] eqn:E1; [|discriminate]. cbn [opt_bind] in H.
    destruct (validate_let_like move y e c1) as [c2|] eqn:E2; [|discriminate]. inversion Hw; subst; eauto.
  - inversion Hw; subst; eauto.
  - inversion Hw; subst; eauto.
Qed.

Lemma initial_spec xs : forall c, NoDup (map fst c) ->
  let r := fold_left (fun c x => counts_set x 1 c) xs c in
  NoDup (map fst r) /\ forall x, lookup r x = if mem x xs then Some 1 else lookup c x.
Proof.
  induction xs as [|y xs IH]; intros c N; cbn [fold_left].
  - split; [assumption|]. reflexivity.
  - destruct (IH _ (set_nodup c y 1 N)) as [N1 H1]. split; [assumption|]. intros x. rewrite H1, lookup_set, mem_cons.
    destruct (mem x xs), (String.eqb x y); reflexivity.
Qed.

Lemma at_entry_names local d : map fst (at_entry local d) =
  (if local then [f_name d] else []) ++ map fst (f_env d) ++ map fst (f_args d).
Proof. unfold at_entry. rewrite map_map. cbn. apply map_id. Qed.

Lemma initial_lookup local d : NoDup (map fst (initial_counts (negb local) d)) /\
  forall x, lookup (initial_counts (negb local) d) x = if mem x (map fst (at_entry local d)) then Some 1 else None.
Proof.
  unfold initial_counts. rewrite at_entry_names. replace (if negb local then [] else [f_name d]) with (if local then [f_name d] else []).
  - apply initial_spec. constructor.
  - destruct local; reflexivity.
Qed.

Lemma entry_lookup local d x : lookup (at_entry local d) x = if mem x (map fst (at_entry local d)) then Some 1%nat else None.
Proof.
  unfold at_entry. rewrite map_map. cbn. rewrite map_id.
  generalize ((if local then [f_name d] else []) ++ map fst (f_env d) ++ map fst (f_args d)) as l.
  induction l as [|y l IH]; cbn; [reflexivity|]. destruct (String.eqb x y); [reflexivity|exact IH].
Qed.

Lemma lookup_of_nat (o : ownership) x :
  lookup (map (fun p => (fst p, Z.of_nat (snd p))) o) x = option_map Z.of_nat (lookup o x).
Proof.
  induction o as [|[y n] o IH]; cbn; [reflexivity|]. destruct (String.eqb x y); [reflexivity|exact IH].
Qed.

Lemma function_sound local d : validate_function (negb local) d = true ->
  NoDup (parameters local d ++ own_binders (f_body d)) -> net_balanced local d.
Proof.
  intros H N r Hr. unfold validate_function in H.
  destruct (move (f_body d) (initial_counts (negb local) d)) as [c|] eqn:E; [|discriminate].
  set (o := map (fun p => (fst p, Z.of_nat (snd p))) (at_entry local d)) in *.
  assert (No : map fst o = parameters local d). { unfold o. rewrite map_map. reflexivity. }
  destruct (initial_lookup local d) as [N1 L1].
  assert (A : agree o (initial_counts (negb local) d)).
  { split; [assumption|]. intros x Hx. unfold o. rewrite L1, lookup_of_nat, entry_lookup.
    destruct (mem x (map fst (at_entry local d))); reflexivity. }
  assert (S : separate o (own_binders (f_body d))). { unfold separate. rewrite No. assumption. }
  pose proof (move_sound _ _ _ _ E A S r Hr) as R. destruct r as [o2| |]; [|exact I|destruct R].
  destruct R as [S2 [N2 A2]]. pose proof (proj1 (all_zero_spec c N2) H) as Z2.
  assert (N3 : NoDup (map fst o2)). { rewrite S2, No. apply nodup_app_iff in N. tauto. }
  apply forallb_forall. intros [x n] Hx. cbn. specialize (Z2 x). unfold lk in Z2.
  pose proof (lookup_member _ _ _ N3 Hx) as Lx. rewrite A2, Lx in Z2.
  - rewrite Z2. reflexivity.
  - apply (in_map fst) in Hx. exact Hx.
Qed.

Theorem validated_net_balanced m : validate m = true -> no_shadowing m -> references_net_balanced m.
Proof.
  intros H S g Hg. unfold validate in H. rewrite forallb_forall in H. specialize (H g Hg). split.
  - apply function_sound; [exact H|]. apply (S false g). exact Hg.
  - intros d e Hw. apply function_sound.
    + unfold validate_function in H. destruct (move (f_body g) (initial_counts true g)) as [c|] eqn:E; [|discriminate].
      eapply move_locals; eassumption.
    + apply (S true d). exists g, e. auto.
Qed.
