(** Sessions of compiled programs. *)
From Coq Require Import String List ZArith Bool Lia Arith.
From Verif Require Import Base Mir MirSpec MirSim MirFuel HirType HirTypeSpec HirTypeModule Hir HirSpec HirValidate HirMir HirProgram LowerSpec LowerTag LowerTypeSpec
  LowerProgramSpec LowerCompleteSpec LowerSearchFits RunInvariant RunSpec HirMeaning HirForever MeaningSpec MeaningForever MeaningProgramSpec MeaningProgram SessionSpec QuietWorld
  PropsMeaning PropsForever MirAlpha MirPipeline MirPipelineSpec MirPipelineProofs MirLift MirLiftSpec MirRc MirRcProofs PropsMirRc.
Import ListNotations.
Local Open Scope list_scope.

Lemma outward_visible C l : forallb (fun e => negb (is_result e)) l = true ->
  filter (outward C) (map observe_event l) = map observe_event (filter (visible C) l).
Proof.
  induction l as [|e l IH]; cbn; [reflexivity|]. intros H. apply andb_true_iff in H as [H1 H2]. rewrite (IH H2).
  destruct e as [[g|i] vs|v]; cbn in *; [|reflexivity|discriminate].
  destruct (String.eqb g (string_equal C)); reflexivity.
Qed.

Lemma forall2_suffix {A B} (P : A -> B -> Prop) a b l l' : Forall2 P (a ++ b) (l ++ l') -> Forall2 P a l -> Forall2 P b l'.
Proof.
  revert l. induction a as [|x a IH]; intros l H Ha; inversion Ha; subst; cbn in *; [exact H|].
  inversion H; subst. eauto.
Qed.

Section Sessions.
  Variable f : string -> string.
  Variable n k : nat.
  Variable C : config.
  Variable p q : program.
  Variable M : mmodule.
  Variable w : world.
  Variable outer : list (string * list hvalue) -> string -> list hvalue -> hvalue -> Prop.
  Hypothesis H : compile_program n k C p = Ok M.
  Hypothesis Hq : analyze_program n p = Ok q.
  Hypothesis CF : config_fits C.
  Hypothesis PF : program_fits f C p.
  Hypothesis Raw : raw_program p.
  Hypothesis A : apart_module (program_hir p).
  Hypothesis SB : searchable C q M.
  Hypothesis Own : own_types p.
  Hypothesis Once : fields_once p.
  Hypothesis An : answers f n C q M w outer.
  Hypothesis Q : quiet w.

  Notation sees := (seen_as f n C q M).
  Notation holds := (state_at_run_time f n C q M).

  Lemma log_result s st v : holds s st -> holds s (log_event st (EvResult v)).
  Proof.
    intros (H1 & H2 & H3). split; [|split; assumption]. cbn. rewrite filter_app. cbn. rewrite app_nil_r. exact H1.
  Qed.

  (** What the calls of a state add *)
  Lemma calls_added s st s1 st1 made L : holds s st -> calls s1 = calls s ++ made ->
    Forall2 (call_rep f n (program_env q) (program_records q) C (fun _ => True) M) (calls s1) (filter (visible C) (s_log st1)) ->
    s_log st1 = s_log st ++ L -> forallb (fun e => negb (is_result e)) L = true ->
    Forall2 sees (map ShownCall made) (filter (outward C) (map observe_event L)).
  Proof.
    intros (H1 & _) E H2 EL F. rewrite outward_visible by exact F. rewrite E, EL, filter_app in H2.
    apply (fun h => forall2_suffix _ _ _ _ _ h H1) in H2. clear - H2. revert H2. generalize (filter (visible C) L). intros l H2.
    induction H2 as [|c e made' l (vs & -> & Hc) _ IH]; cbn; constructor; [|exact IH].
    destruct c as [g us]. cbn in *. split; [reflexivity|]. clear IH.
    induction Hc as [|u v us vs Hu _ IH]; cbn; constructor; [|exact IH]. exists v. split; [exact Hu|reflexivity].
  Qed.

  Lemma call_asked s r c st : holds s st -> asks M r c ->
    exists vs, Forall2 (at_run_time f n C q M) (snd r) vs /\
    forall d sc, run_script M (call Lexical w M d) (c :: sc) st =
      obind (call Lexical w M d st (VGlobal (fst r)) vs) (fun v st => run_script M (call Lexical w M d) sc (log_event st (EvResult v))).
  Proof.
    intros Hs (Ec & Hd & types & t & vs & Ht & Hv & Hr). exists vs. split.
    - clear - Hv. induction Hv as [|u v us vs Huv _ IH]; constructor; [|exact IH]. apply plain_rep, Huv.
    - intros d sc. destruct c as [c ts]. cbn [fst snd] in *. subst c. cbn [run_script resolve_callee].
      destruct (find_def (m_defs M) (fst r)); [|congruence]. rewrite Ht, Hr. reflexivity.
  Qed.

  Lemma call_shows s g us v s1 made st : applies (program_env q) (defined_records q) (program_hir q) w outer s (UGlobal g) us v s1 ->
    calls s1 = calls s ++ made -> holds s st -> forall vs, Forall2 (at_run_time f n C q M) us vs ->
    exists v' st1 L, runs w M st (VGlobal g) vs v' st1 /\ at_run_time f n C q M v v' /\ holds s1 st1 /\
      s_log st1 = s_log st ++ L /\ Forall2 sees (map ShownCall made) (filter (outward C) (map observe_event L)).
  Proof.
    intros Ha E Hs vs Hu.
    destruct (compiled_program_keeps_meaning_partial f n k C p q M w outer H Hq CF PF Raw A SB Own Once An _ _ _ _ _ Ha _ _ _ Hs
      (rep_global _ _ _ _ _ _ _ g) Hu) as (v' & st1 & Hr & Hv & Hs1).
    destruct Hr as (d0 & Hr). pose proof (quiet_call Lexical w M Q d0 st st (VGlobal g) vs (only_calls_refl st)) as K.
    rewrite (Hr d0 (Nat.le_refl _)) in K. destruct K as (L & EL & F).
    exists v', st1, L. split; [exists d0; exact Hr|]. split; [exact Hv|]. split; [exact Hs1|]. split; [exact EL|].
    eapply calls_added; [exact Hs|exact E|apply Hs1|exact EL|exact F].
  Qed.

  Lemma session_runs s rs out s2 : session q w outer s rs out s2 ->
    forall sc st, holds s st -> Forall2 (asks M) rs sc ->
    exists N st2 L, (forall d sc', N <= d -> run_script M (call Lexical w M d) (sc ++ sc') st = run_script M (call Lexical w M d) sc' st2) /\
      holds s2 st2 /\ s_log st2 = s_log st ++ L /\ Forall2 sees out (filter (outward C) (map observe_event L)).
  Proof.
    induction 1 as [s|s g us v s1 made rest out s2 Ha E _ IH]; intros sc st Hs Hr; inversion Hr; subst.
    - exists 0, st, []. rewrite app_nil_r. cbn. split; [reflexivity|]. split; [exact Hs|]. split; [reflexivity|constructor].
    - match goal with Hx : asks M _ ?c |- _ => destruct (call_asked _ _ _ _ Hs Hx) as (vs & Hu & Hc) end. cbn [fst snd] in *.
      destruct (call_shows _ _ _ _ _ _ _ Ha E Hs vs Hu) as (v' & st1 & L1 & (d1 & R1) & Hv & Hs1 & EL1 & F1).
      match goal with Hx : Forall2 (asks M) rest ?l |- _ => destruct (IH l _ (log_result _ _ v' Hs1) Hx) as (d2 & st2 & L2 & R2 & Hs2 & EL2 & F2) end.
      exists (Nat.max d1 d2), st2, (L1 ++ EvResult v' :: L2). split; [|split; [exact Hs2|split]].
      + intros d sc' Hd. cbn [app]. rewrite Hc, (R1 d) by lia. cbn [obind]. apply R2. lia.
      + rewrite EL2. cbn. rewrite EL1, <- !app_assoc. reflexivity.
      + rewrite map_app, filter_app. apply Forall2_app; [exact F1|]. cbn. constructor; [|exact F2].
        exists v'. split; [exact Hv|reflexivity].
  Qed.

  Lemma start_holds : holds (HState [] []) initial.
  Proof. split; [constructor|]. split; intros; [discriminate|reflexivity]. Qed.

  (** A session, then a call that never ends *)
  Lemma session_forever rs out s2 sc r c at_ : session q w outer (HState [] []) rs out s2 -> Forall2 (asks M) rs sc ->
    never_ends (program_env q) (defined_records q) (program_hir q) w outer s2 (UGlobal (fst r)) (snd r) at_ -> asks M r c ->
    forall i, exists N, forall d, N <= d -> exists st' j made more rest,
      run Lexical w M d (sc ++ [c]) = Timeout st' /\ Forall2 sees (out ++ map ShownCall (made ++ more)) (filter (outward C) (observe_log st')) /\
      calls (reached (at_ i)) = calls s2 ++ made /\ calls (reached (at_ j)) = calls s2 ++ made ++ more ++ rest.
  Proof.
    intros Hses Hsc Hn Hc i.
    destruct (session_runs _ _ _ _ Hses sc initial start_holds Hsc) as (N1 & st2 & L & R & Hs2 & EL & F).
    destruct (call_asked _ _ _ _ Hs2 Hc) as (vs & Hu & Hrun).
    destruct (compiled_program_never_ends_partial f n k C p q M w outer H Hq CF PF Raw A SB Own Once An _ _ _ _ Hn _ _ _ Hs2
      (rep_global _ _ _ _ _ _ _ (fst r)) Hu) as (K1 & K2).
    destruct (K2 i) as (N2 & K3). exists (Nat.max N1 N2). intros d Hd.
    destruct (K3 d) as (st' & l1 & T1 & B1); [lia|]. destruct (K1 d) as (st3 & j & cs & l2 & T2 & B2 & B3).
    rewrite T1 in T2. injection T2 as <-.
    (* the calls before those of the endless call *)
    assert (Pre : forall (a b x y : list (string * list hvalue)), a ++ x = b ++ y -> List.length a <= List.length b -> exists l', b = a ++ l').
    { clear. induction a as [|c a IH]; intros b x y E Le; [exists b; reflexivity|]. destruct b as [|c' b]; [cbn in Le; lia|]. cbn in E. injection E as <- E.
      destruct (IH b x y E) as (l' & ->); [cbn in Le; lia|]. exists l'. reflexivity. }
    pose proof (quiet_call Lexical w M Q d st2 st2 (VGlobal (fst r)) vs (only_calls_refl st2)) as O.
    rewrite T1 in O. destruct O as (L' & EL' & FL).
    assert (S0 : forall i, exists l, calls (reached (at_ i)) = calls s2 ++ l).
    { intros i0. destruct (endless_calls _ _ _ _ _ at_ (proj2 Hn) 0 i0 (Nat.le_0_l _)) as (z & E1).
      exists z. rewrite E1. f_equal. destruct Hn as [He _]. inversion He; reflexivity. }
    destruct (S0 i) as (made & Ei). destruct (S0 j) as (all & Ej).
    assert (Cs : exists more, cs = calls s2 ++ made ++ more).
    { assert (Len : List.length (calls (reached (at_ i))) <= List.length cs).
      { rewrite (pairs_length _ _ _ B2), <- (pairs_length _ _ _ B1), app_length. lia. }
      assert (P : exists l', cs = calls (reached (at_ i)) ++ l').
      { destruct (Nat.le_ge_cases i j) as [Lij|Lij]; destruct (endless_calls _ _ _ _ _ at_ (proj2 Hn) _ _ Lij) as (z & E).
        - eapply (Pre _ cs z l2); [|exact Len]. rewrite <- E. exact B3.
        - eapply (Pre _ cs [] (l2 ++ z)); [|exact Len]. rewrite app_nil_r, E, B3, app_assoc. reflexivity. }
      destruct P as (l' & ->). exists l'. rewrite Ei, app_assoc. reflexivity. }
    destruct Cs as (more & ->). exists st', j, made, more, l2. split; [|split; [|split]].
    - unfold run. rewrite R by lia. rewrite Hrun, T1. reflexivity.
    - unfold observe_log. rewrite EL', EL. cbn [initial s_log app]. rewrite (map_app observe_event), filter_app. apply Forall2_app; [exact F|].
      eapply (calls_added s2 st2 (HState (calls s2 ++ made ++ more) []) st'); [exact Hs2|reflexivity|exact B2|exact EL'|exact FL].
    - exact Ei.
    - rewrite B3, <- !app_assoc. reflexivity.
  Qed.
End Sessions.

(** Lambda lifting adds functions. *)
Lemma map_state_kept {A S} (g : A -> S -> A * S) (P : A -> A -> Prop) l : (forall a s, P a (fst (g a s))) -> forall s, Forall2 P l (fst (map_state g l s)).
Proof.
  intros H. induction l as [|a l IH]; intros s; cbn; [constructor|]. specialize (H a s).
  destruct (g a s) as [a' s']. specialize (IH s'). destruct (map_state g l s') as [l' s2]. cbn in *. constructor; assumption.
Qed.

Lemma lift_infos m : infos_ok m -> infos_ok (lift_module m).
Proof.
  assert (G : forall g, global_type m g <> None -> global_type (lift_module m) g <> None).
  { intros g. unfold lift_module, global_type. pose proof (map_state_kept lift_global (fun d d' => f_name d' = f_name d) (m_defs m)) as K.
    specialize (fun Hx => K Hx (Lifted [] 0)). destruct (map_state lift_global (m_defs m) (Lifted [] 0)) as [ds cx]. cbn [set_defs m_defs m_declared fst] in *.
    assert (K' : Forall2 (fun d d' => f_name d' = f_name d) (m_defs m) ds).
    { apply K. intros d s. unfold lift_global. destruct (lift (f_body d) s). reflexivity. }
    clear K. unfold find_def. induction K' as [|d d' l l' E _ IH]; cbn.
    - match goal with |- context [find ?h (l_defs cx)] => destruct (find h (l_defs cx)); [discriminate|auto] end.
    - rewrite E. destruct (String.eqb g (f_name d)); [discriminate|exact IH]. }
  intros [H1 H2]. assert (E : m_infos (lift_module m) = m_infos m /\ m_fallback (lift_module m) = m_fallback m).
  { unfold lift_module. destruct (map_state lift_global (m_defs m) (Lifted [] 0)). split; reflexivity. }
  destruct E as [E1 E2]. split; [rewrite E1|rewrite E2]; eauto.
Qed.

Lemma middle_end_infos m : proper_source m -> infos_ok (middle_end m).
Proof.
  intros Hs. unfold middle_end. apply lift_infos. pose proof (concat_source m Hs) as Hc. unfold closure_passes.
  eapply same_infos; [apply stage_same3; exact Hc|apply Hc].
Qed.

(** From the compiled module to the module with reference outward *)
Lemma back_end_refines M M' : proper_source M -> no_closed_thunks (closure_passes M) -> reference_count (middle_end M) = Some M' ->
  refines Lexical M Declared M'.
Proof.
  intros Hs Ht Hr. eapply refines_trans; [exact (middle_end_refines M Hs Ht)|].
  exact (reference_counting_preserves_behaviour Declared _ _ Hr (middle_end_infos M Hs)).
Qed.
