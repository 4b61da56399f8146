(** If the outside makes no calls while it answers, a call logs no results. *)
From Coq Require Import String List ZArith Bool Lia.
From Verif Require Import Base Mir MirSim RunInvariant HirType HirTypeModule Hir HirMir HirProgram HirMeaning MeaningSpec MeaningProgramSpec SessionSpec.
Import ListNotations.

Definition is_result (e : event) : bool := match e with EvResult _ => true | EvCall _ _ => false end.
(** [only_calls st st']: the log of [st'] is that of [st] with calls added. *)
Definition only_calls (st st' : state) : Prop :=
  exists l, s_log st' = (s_log st ++ l)%list /\ forallb (fun e => negb (is_result e)) l = true.

Section Quiet.
  Variable md : mode.
  Variable w : world.
  Variable m : mmodule.
  Hypothesis Q : quiet w.

  Lemma only_calls_refl st : only_calls st st.
  Proof. exists []. rewrite app_nil_r. split; reflexivity. Qed.
  Lemma only_calls_trans a b c : only_calls a b -> only_calls b c -> only_calls a c.
  Proof.
    intros (l & H & F) (l' & H' & F'). exists (l ++ l')%list. rewrite H', H, app_assoc, forallb_app, F, F'. split; reflexivity.
  Qed.
  Lemma only_calls_log a b st : s_log b = s_log a -> only_calls st a -> only_calls st b.
  Proof. intros E (l & H & F). exists l. rewrite E. auto. Qed.

  Lemma quiet_outside callf st0 st f vs t : only_calls st0 st -> ends (only_calls st0) (outside w m callf st f vs t).
  Proof.
    intros H. unfold outside. rewrite Q. cbn [run_script obind].
    assert (H' : only_calls st0 (log_event st (EvCall f vs))).
    { eapply only_calls_trans; [exact H|]. eexists [_]. cbn. split; reflexivity. }
    destruct (Mir.resolve _ _ _); [|exact H']. destruct (type_of m v); [|exact H']. destruct (mtype_eqb _ _); exact H'.
  Qed.

  Theorem quiet_call n : forall st0 st f vs, only_calls st0 st -> ends (only_calls st0) (call md w m n st f vs).
  Proof.
    induction n as [|n IH]; intros st0 st f vs H; [exact H|].
    assert (E : forall e rho, ends (only_calls st0) (eval md w m (call md w m n) rho st e)).
    { intros e rho. apply eval_ends; [|intros; apply IH; assumption|exact H].
      intros st1. apply only_calls_log. reflexivity. }
    assert (K : forall store o, (forall v st1, s_log (store v st1) = s_log st1) -> ends (only_calls st0) o -> ends (only_calls st0) (keep store o)).
    { intros store o Hs Ho. destruct o; cbn in *; auto. eapply only_calls_log; [apply Hs|exact Ho]. }
    cbn. destruct f; try exact Logic.I.
    - destruct (Nat.eqb _ _); [|exact Logic.I]. apply finish_ends, E.
    - destruct vs; [|exact Logic.I]. destruct (f_args d); [|exact Logic.I].
      destruct (nth_error (s_cells st) cell) as [[v|]|]; [exact H| |exact Logic.I]. apply K; [reflexivity|apply E].
    - destruct (find_def (m_defs m) g) as [d|].
      + destruct (f_thunk d).
        * destruct vs; [|exact Logic.I]. destruct (f_args d); [|exact Logic.I].
          destruct (lookup (s_globals st) g); [exact H|]. apply K; [reflexivity|apply E].
        * destruct (Nat.eqb _ _); [|exact Logic.I]. apply finish_ends, E.
      + destruct (lookup (m_declared m) g) as [[]|]; try exact Logic.I.
        destruct (Nat.eqb _ _); [|exact Logic.I]. apply quiet_outside, H.
    - destruct type; try exact Logic.I. destruct (Nat.eqb _ _); [|exact Logic.I]. apply quiet_outside, H.
  Qed.
End Quiet.
