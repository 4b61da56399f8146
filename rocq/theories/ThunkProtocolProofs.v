(** The thunk protocol. *)
From Coq Require Import List Bool PeanoNat Lia.
From Verif Require Import ThunkProtocol.
Import ListNotations.

Section Protocol.
  Context {V : Type}.
  Implicit Types (p q : position V) (s t : @pstate V).

  Lemma app_split {A} (l1 l2 m1 m2 : list A) x y :
    l1 ++ x :: l2 = m1 ++ y :: m2 ->
    (l1 = m1 /\ x = y /\ l2 = m2) \/
    (exists k, m1 = l1 ++ x :: k /\ l2 = k ++ y :: m2) \/ (exists k, l1 = m1 ++ y :: k /\ m2 = k ++ x :: l2).
  Proof.
    revert m1. induction l1 as [|a l1 IH]; intros [|b m1] H; cbn in H.
    - injection H as <- <-. auto.
    - injection H as <- ->. right. left. exists m1. auto.
    - injection H as -> <-. right. right. exists l1. auto.
    - injection H as <- H. destruct (IH _ H) as [(-> & -> & ->)|[(k & -> & ->)|(k & -> & ->)]]; eauto.
      + right. left. exists k. auto.
      + right. right. exists k. auto.
  Qed.

  Definition fresh p : Prop := p = Loading \/ p = Entering Initial.
  Definition waits p : Prop := p = Loading \/ p = Entering Initial \/ p = Entering LockedEntry.
  Definition busy (early : bool) (x : option V) p : Prop :=
    match p with
    | Evaluating | Storing _ => True
    | Unlocking v => x = Some v
    | Returned _ => early = true
    | _ => False
    end.
  Definition served (v : V) p : Prop :=
    match p with
    | Loading | Entering _ | Reading => True
    | Returned u => u = v
    | _ => False
    end.

  Definition invariant (early : bool) s : Prop :=
    match p_entry s with
    | Initial => p_runs s = 0 /\ Forall fresh (p_threads s)
    | LockedEntry => p_runs s = 1 /\
        exists before p after, p_threads s = before ++ p :: after /\
          Forall waits before /\ Forall waits after /\ busy early (p_value s) p
    | NormalEntry => p_runs s = 1 /\ exists v, p_value s = Some v /\ Forall (served v) (p_threads s)
    end.

  Lemma fresh_waits p : fresh p -> waits p.
  Proof. unfold fresh, waits. tauto. Qed.
  Lemma waits_served v p : waits p -> served v p.
  Proof. intros [-> |[-> | ->]]; exact I. Qed.

  Lemma start_invariant early k : invariant early (pstart k).
  Proof. split; [reflexivity|]. cbn. induction k; constructor; auto. left. reflexivity. Qed.

  Lemma move_waits early x r p p' e' x' r' :
    waits p -> move early LockedEntry x r p p' e' x' r' -> waits p' /\ e' = LockedEntry /\ x' = x /\ r' = r.
  Proof.
    unfold waits. intros W M. inversion M; subst; try tauto;
      try (destruct W as [W|[W|W]]; discriminate W).
    all: congruence.
  Qed.

  Lemma Forall_mid {A} (P : A -> Prop) l x m : Forall P (l ++ x :: m) <-> Forall P l /\ P x /\ Forall P m.
  Proof. rewrite Forall_app, Forall_cons_iff. tauto. Qed.

  Lemma step_invariant early s t : invariant early s -> pstep early s t -> invariant early t.
  Proof.
    intros Hi Hs. destruct Hs as [e x before p after r p' e' x' r' M]. unfold invariant in Hi. cbn [p_entry p_runs p_threads p_value] in Hi.
    destruct e.
    - destruct Hi as [-> Hf]. apply Forall_mid in Hf as (H1 & H2 & H3).
      destruct H2 as [-> | ->]; inversion M; subst; try congruence.
      + split; [reflexivity|]. cbn. apply Forall_mid. unfold fresh. auto.
      + split; [reflexivity|]. cbn. exists before, Evaluating, after. split; [reflexivity|].
        split; [eapply Forall_impl; [apply fresh_waits|exact H1]|]. split; [eapply Forall_impl; [apply fresh_waits|exact H3]|exact I].
    - destruct Hi as [-> (bf & q & af & Eq & H1 & H2 & H3)].
      destruct (app_split _ _ _ _ _ _ Eq) as [(-> & -> & ->)|[(k & -> & ->)|(k & -> & ->)]].
      + destruct q; try contradiction; inversion M; subst; cbn in H3; try congruence.
        * split; [reflexivity|]. exists bf, (Storing v), af. cbn. auto.
        * split; [reflexivity|]. exists bf, (Returned v), af. cbn. auto.
        * split; [reflexivity|]. exists bf, (Unlocking v), af. cbn. auto.
        * split; [reflexivity|]. exists v. split; [exact H3|]. cbn. apply Forall_mid.
          split; [eapply Forall_impl; [apply waits_served|exact H1]|]. split; [reflexivity|eapply Forall_impl; [apply waits_served|exact H2]].
      + apply Forall_mid in H1 as (Ha & Hb & Hc). destruct (move_waits _ _ _ _ _ _ _ _ Hb M) as (Hw & -> & -> & ->).
        split; [reflexivity|]. exists (before ++ p' :: k), q, af. cbn. rewrite <- app_assoc. cbn. split; [reflexivity|].
        split; [apply Forall_mid; auto|auto].
      + apply Forall_mid in H2 as (Ha & Hb & Hc). destruct (move_waits _ _ _ _ _ _ _ _ Hb M) as (Hw & -> & -> & ->).
        split; [reflexivity|]. exists bf, q, (k ++ p' :: after). cbn. rewrite <- app_assoc. cbn. split; [reflexivity|].
        split; [exact H1|]. split; [apply Forall_mid; auto|exact H3].
    - destruct Hi as [-> (v & -> & Hf)]. apply Forall_mid in Hf as (H1 & H2 & H3).
      assert (K : served v p' /\ e' = NormalEntry /\ x' = Some v /\ r' = 1).
      { inversion M; subst; cbn in *; try contradiction; try congruence; auto. injection H as <-. auto. }
      destruct K as (K & -> & -> & ->). split; [reflexivity|]. exists v. split; [reflexivity|]. cbn. apply Forall_mid. auto.
  Qed.

  Lemma steps_invariant early s t : psteps early s t -> invariant early s -> invariant early t.
  Proof. induction 1 as [|s t u _ IH Hs]; auto. intros Hi. exact (step_invariant _ _ _ (IH Hi) Hs). Qed.

  Lemma reachable_invariant early k s : psteps early (pstart k) s -> invariant early s.
  Proof. intros H. eapply steps_invariant; [exact H|apply start_invariant]. Qed.

  Lemma runs_once early k s : psteps early (pstart k) s -> p_runs s <= 1.
  Proof.
    intros H. apply reachable_invariant in H. unfold invariant in H. destruct (p_entry s); destruct H as [H _]; rewrite H; lia.
  Qed.

  Lemma Forall_in {A} (P : A -> Prop) l x : Forall P l -> In x l -> P x.
  Proof. rewrite Forall_forall. auto. Qed.

  Lemma same_value early k s u v :
    psteps early (pstart k) s -> In (Returned u) (p_threads s) -> In (Returned v) (p_threads s) -> u = v.
  Proof.
    intros H Hu Hv. apply reachable_invariant in H. unfold invariant in H. destruct (p_entry s).
    - destruct H as [_ H]. apply (Forall_in _ _ _ H) in Hu as [Hu|Hu]; discriminate.
    - destruct H as [_ (b & p & a & Eq & H1 & H2 & _)]. rewrite Eq in Hu, Hv.
      assert (G : forall w, In (Returned w) (b ++ p :: a) -> p = Returned w).
      { intros w Hw. apply in_app_or in Hw as [Hw|[Hw|Hw]]; [|exact Hw|].
        - apply (Forall_in _ _ _ H1) in Hw as [Hw|[Hw|Hw]]; discriminate.
        - apply (Forall_in _ _ _ H2) in Hw as [Hw|[Hw|Hw]]; discriminate. }
      apply G in Hu, Hv. congruence.
    - destruct H as [_ (w & _ & H)]. apply (Forall_in _ _ _ H) in Hu, Hv. cbn in *. congruence.
  Qed.

  (** *** Progress *)
  Lemma reads_set early k s : psteps early (pstart k) s -> In Reading (p_threads s) -> exists v, p_value s = Some v.
  Proof.
    intros H Hin. pose proof (reachable_invariant _ _ _ H) as I. unfold invariant in I. destruct (p_entry s).
    - destruct I as (_ & F). destruct (Forall_in _ _ _ F Hin); discriminate.
    - destruct I as (_ & b & p & a & Eq & Fb & Fa & B). rewrite Eq in Hin. apply in_app_or in Hin as [Hin|[-> |Hin]].
      + destruct (Forall_in _ _ _ Fb Hin) as [?|[?|?]]; discriminate.
      + destruct B.
      + destruct (Forall_in _ _ _ Fa Hin) as [?|[?|?]]; discriminate.
    - destruct I as (_ & v & Ev & _). exists v. exact Ev.
  Qed.

  Definition all_returned s : Prop := Forall (fun p => exists v, p = Returned v) (p_threads s).

  Lemma steps_trans early s t u : psteps early s t -> psteps early t u -> psteps early s u.
  Proof. intros H1 H2. revert H1. induction H2; intros H1; [exact H1|]. econstructor; [auto|eassumption]. Qed.

  Lemma one_step early s t : pstep early s t -> psteps early s t.
  Proof. intros H. econstructor; [constructor|exact H]. Qed.

  Lemma served_finishes early v r l p m : served v p ->
    psteps early (PState NormalEntry (Some v) (l ++ p :: m) r) (PState NormalEntry (Some v) (l ++ Returned v :: m) r).
  Proof.
    assert (R : psteps early (PState NormalEntry (Some v) (l ++ Reading :: m) r) (PState NormalEntry (Some v) (l ++ Returned v :: m) r)).
    { apply one_step. constructor. apply move_read. reflexivity. }
    assert (N : psteps early (PState NormalEntry (Some v) (l ++ Entering NormalEntry :: m) r) (PState NormalEntry (Some v) (l ++ Returned v :: m) r)).
    { eapply steps_trans; [apply one_step; constructor; apply move_normal|exact R]. }
    assert (L : psteps early (PState NormalEntry (Some v) (l ++ Loading :: m) r) (PState NormalEntry (Some v) (l ++ Returned v :: m) r)).
    { eapply steps_trans; [apply one_step; constructor; apply move_load|exact N]. }
    intros S. destruct p as [|[| |]| | | | |u]; try contradiction; try assumption.
    - eapply steps_trans; [apply one_step; constructor; apply move_fail; discriminate|exact L].
    - eapply steps_trans; [apply one_step; constructor; apply move_wait|exact L].
    - cbn in S. subst. constructor.
  Qed.

  Lemma normal_finishes early v r m : forall l,
    Forall (fun p => exists u, p = Returned u) l -> Forall (served v) m ->
    exists t, psteps early (PState NormalEntry (Some v) (l ++ m) r) t /\ all_returned t.
  Proof.
    induction m as [|p m IH]; intros l Hl Hm.
    - eexists. split; [constructor|]. unfold all_returned. cbn. rewrite app_nil_r. exact Hl.
    - inversion Hm as [|? ? Hp Hm']; subst.
      destruct (IH (l ++ [Returned v])) as (t & H1 & H2); [apply Forall_app; split; [exact Hl|repeat constructor; eauto]|exact Hm'|].
      rewrite <- app_assoc in H1. cbn in H1. exists t. split; [|exact H2].
      eapply steps_trans; [apply served_finishes; exact Hp|exact H1].
  Qed.

  Lemma locked_finishes x before p after r : Forall waits before -> Forall waits after -> busy false x p -> V ->
    exists t, psteps false (PState LockedEntry x (before ++ p :: after) r) t /\ all_returned t.
  Proof.
    intros Hb Ha B v0.
    assert (U : forall v, exists t, psteps false (PState LockedEntry (Some v) (before ++ Unlocking v :: after) r) t /\ all_returned t).
    { intros v. destruct (normal_finishes false v r (before ++ Returned v :: after) []) as (t & H1 & H2); [constructor| |].
      - apply Forall_mid. split; [eapply Forall_impl; [apply waits_served|exact Hb]|]. split; [reflexivity|eapply Forall_impl; [apply waits_served|exact Ha]].
      - exists t. split; [|exact H2]. eapply steps_trans; [apply one_step; constructor; apply move_unlock|exact H1]. }
    assert (S : forall v x, exists t, psteps false (PState LockedEntry x (before ++ Storing v :: after) r) t /\ all_returned t).
    { intros v y. destruct (U v) as (t & H1 & H2). exists t. split; [|exact H2].
      eapply steps_trans; [apply one_step; constructor; apply move_store|exact H1]. }
    destruct p; try contradiction.
    - destruct (S v0 x) as (t & H1 & H2). exists t. split; [|exact H2].
      eapply steps_trans; [apply one_step; constructor; apply move_body with (v := v0)|exact H1].
    - apply S.
    - cbn in B. subst x. apply U.
    - discriminate B.
  Qed.

  Lemma can_finish k s : psteps false (pstart k) s -> V -> exists t, psteps false s t /\ all_returned t.
  Proof.
    intros H v0. apply reachable_invariant in H. destruct s as [e x ts r]. unfold invariant in H.
    cbn [p_entry p_value p_threads p_runs] in H. destruct e.
    - destruct H as [-> H]. destruct ts as [|p ts]; [eexists; split; [constructor|constructor]|].
      inversion H as [|? ? Hp Hts]; subst.
      destruct (locked_finishes x [] Evaluating ts 1) as (t & H1 & H2);
        [constructor|eapply Forall_impl; [apply fresh_waits|exact Hts]|exact I|exact v0|].
      exists t. split; [|exact H2].
      assert (L : psteps false (PState Initial x (Entering Initial :: ts) 0) t).
      { eapply steps_trans; [apply one_step; apply (pstep_at false Initial x [] (Entering Initial) ts 0); apply move_lock; reflexivity|exact H1]. }
      destruct Hp as [-> | ->]; [|exact L].
      eapply steps_trans; [apply one_step; apply (pstep_at false Initial x [] Loading ts 0); apply move_load|exact L].
    - destruct H as [-> (b & p & a & -> & H1 & H2 & H3)]. eapply locked_finishes; eauto.
    - destruct H as [-> (v & -> & H)]. apply (normal_finishes false v 1 ts []); [constructor|exact H].
  Qed.

  (** *** A thread stuck behind an early return *)
  Definition stuck s : Prop :=
    p_entry s = LockedEntry /\ exists v p after, p_threads s = Returned v :: p :: after /\ Forall waits (p :: after).

  Lemma stuck_step early s t : stuck s -> pstep early s t -> stuck t.
  Proof.
    intros (He & v & p & a & Ht & W) Hs. destruct Hs as [e x before q after r q' e' x' r' M]. cbn in He, Ht. subst e.
    destruct before as [|b before]; cbn in Ht; injection Ht as -> Ht.
    - inversion M.
    - rewrite <- Ht in W. apply Forall_mid in W as (W1 & W2 & W3).
      destruct (move_waits _ _ _ _ _ _ _ _ W2 M) as (Hw & -> & -> & ->). split; [reflexivity|]. cbn.
      destruct before as [|b' before]; cbn in *.
      + exists v, q', after. split; [reflexivity|constructor; assumption].
      + exists v, b', (before ++ q' :: after). split; [reflexivity|]. inversion W1; subst. constructor; [assumption|]. apply Forall_mid. auto.
  Qed.

  Lemma stuck_forever early s t : psteps early s t -> stuck s -> stuck t.
  Proof. induction 1 as [|s t u _ IH Hs]; auto. intros Hi. exact (stuck_step _ _ _ (IH Hi) Hs). Qed.

  Lemma stuck_not_returned s : stuck s -> ~ all_returned s.
  Proof.
    intros (_ & v & p & a & Ht & W) A. unfold all_returned in A. rewrite Ht in A. inversion A as [|? ? _ A']; subst.
    inversion A' as [|? ? [u ->] _]; subst. inversion W as [|? ? [Hw|[Hw|Hw]] _]; discriminate.
  Qed.

  Lemma early_stuck v : exists s, psteps true (pstart 2) s /\ stuck s /\ p_threads s = [Returned v; Loading].
  Proof.
    exists (PState LockedEntry None [Returned v; Loading] 1). split; [|split; [|reflexivity]].
    - unfold pstart. cbn [repeat].
      eapply psteps_step; [eapply psteps_step; [eapply psteps_step; [apply psteps_refl|]|]|].
      + apply (pstep_at true Initial None [] Loading [Loading] 0 _ _ _ _ (move_load true Initial None 0)).
      + apply (pstep_at true Initial None [] (Entering Initial) [Loading] 0 _ _ _ _ (move_lock true Initial None 0 eq_refl)).
      + apply (pstep_at true LockedEntry None [] Evaluating [Loading] 1 _ _ _ _ (move_early true LockedEntry None 1 v eq_refl)).
    - split; [reflexivity|]. exists v, Loading, []. split; [reflexivity|]. repeat constructor.
  Qed.
End Protocol.
