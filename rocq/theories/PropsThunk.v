(** C48: threads that share a lazy value. *)
From Coq Require Import List Bool PeanoNat Lia.
From Verif Require Import ThunkProtocol ThunkProtocolProofs.
Import ListNotations.

(** For every number of threads that call a shared thunk and every schedule, the
    body is started at most once. *)
Theorem shared_thunk_runs_once : forall (V : Type) early k (s : @pstate V),
  psteps early (pstart k) s -> p_runs s <= 1.
Proof. intros V. exact runs_once. Qed.
Print Assumptions shared_thunk_runs_once.

(** All calls that return, return the same value. *)
Theorem shared_thunk_same_value : forall (V : Type) early k (s : @pstate V) u v,
  psteps early (pstart k) s -> In (Returned u) (p_threads s) -> In (Returned v) (p_threads s) -> u = v.
Proof. intros V. exact same_value. Qed.
Print Assumptions shared_thunk_same_value.

(** No thread gets to read the value before it is stored. *)
Theorem shared_thunk_read_is_set : forall (V : Type) early k (s : @pstate V),
  psteps early (pstart k) s -> In Reading (p_threads s) -> exists v, p_value s = Some v.
Proof. intros V. exact reads_set. Qed.
Print Assumptions shared_thunk_read_is_set.

(** If the body does not return early, then however the threads were scheduled so
    far, all calls can still return. *)
Theorem shared_thunk_can_finish : forall (V : Type) k (s : @pstate V),
  inhabited V -> psteps false (pstart k) s ->
  exists t, psteps false s t /\ forall p, In p (p_threads t) -> exists v, p = Returned v.
Proof.
  intros V k s [v] H. destruct (can_finish k s H v) as (t & H1 & H2). exists t. split; [exact H1|].
  intros p Hp. unfold all_returned in H2. rewrite Forall_forall in H2. apply H2, Hp.
Qed.
Print Assumptions shared_thunk_can_finish.

(** With an early return this is false: after the body has returned early, a second
    call never returns, whatever happens. *)
Theorem shared_thunk_can_finish_refuted : forall (V : Type) (v : V), exists s : @pstate V,
  psteps true (pstart 2) s /\ p_threads s = [Returned v; Loading] /\
  forall t, psteps true s t -> exists p, In p (p_threads t) /\ forall u, p <> Returned u.
Proof.
  intros V v. destruct (early_stuck v) as (s & H1 & H2 & H3). exists s. split; [exact H1|]. split; [exact H3|].
  intros t Ht. destruct (stuck_forever _ _ _ Ht H2) as (_ & u & p & a & Eq & W). exists p.
  rewrite Eq. split; [right; left; reflexivity|]. intros w ->. inversion W as [|? ? [Hw|[Hw|Hw]] _]; discriminate.
Qed.
Print Assumptions shared_thunk_can_finish_refuted.

(** Two threads: one evaluates the body, the other waits and reads the value. *)
Example shared_case : exists s : @pstate nat,
  psteps false (pstart 2) s /\ p_threads s = [Returned 7; Returned 7] /\ p_runs s = 1.
Proof.
  exists (PState NormalEntry (Some 7) [Returned 7; Returned 7] 1). split; [|split; reflexivity].
  unfold pstart. cbn [repeat].
  repeat (eapply psteps_step; [|
    first [apply (pstep_at false NormalEntry (Some 7) [Returned 7] Reading [] 1); apply move_read; reflexivity
          |apply (pstep_at false NormalEntry (Some 7) [Returned 7] (Entering NormalEntry) [] 1); apply move_normal
          |apply (pstep_at false NormalEntry (Some 7) [Returned 7] Loading [] 1); apply move_load
          |apply (pstep_at false LockedEntry (Some 7) [] (Unlocking 7) [Loading] 1); apply move_unlock
          |apply (pstep_at false LockedEntry None [] (Storing 7) [Loading] 1); apply move_store
          |apply (pstep_at false LockedEntry None [] Evaluating [Loading] 1); apply move_body
          |apply (pstep_at false Initial None [] (Entering Initial) [Loading] 0); apply move_lock; reflexivity
          |apply (pstep_at false Initial None [] Loading [Loading] 0); apply move_load]]).
  apply psteps_refl.
Qed.
