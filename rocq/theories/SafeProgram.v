(** Accepted programs, and their compiled code, do not go wrong. *)
From Coq Require Import String List ZArith Bool Lia Arith Permutation.
From Verif Require Import Base Mir MirFuel HirType HirTypeOrder HirTypeSpec HirTypeModule HirTypeSub Hir HirValidate HirCheck HirSpec HirParts HirTyping HirMain HirMir HirProgram LowerSpec LowerTypeSpec
  LowerProgramSpec LowerTypeBase LowerTypeNames LowerCompleteSpec LowerSource RunSpec DataSpec HirMeaning HirForever MeaningSpec MeaningRun LowerMeaning MeaningProgramSpec MeaningProgram
  MeaningForever SafeSpec SafeProofs.
Import ListNotations.
Local Open Scope list_scope.

(** ** Nested calls at run time *)
Section Run.
  Variable f : string -> string.
  Variable n : nat.
  Variable E : tenv.
  Variable R : renv.
  Variable C : config.
  Variable T : ty -> Prop.
  Variable p : hmodule.
  Variable m : mmodule.
  Variable w : world.
  Variable outer : list (string * list hvalue) -> string -> list hvalue -> hvalue -> Prop.
  Variable own : renv.
  Hypothesis HC : compiled_from f n E R C T p m own w outer.

  Lemma nested_code d q : nested E own p w outer d q -> forall d', d = S d' -> forall k c st me, coded f n E R C T m q k c st me ->
    exists st', eval Lexical w m (call Lexical w m d') c st me = Timeout st'.
  Proof.
    induction 1 as [q|d q q' G _ IH|d s rho ft ts r g args u us s1 q N Q L H En _ IH]; intros d' Hd k c st me Co; [discriminate|..].
    - destruct (goes_on_follows f n E R C T p m w outer own HC _ _ G k c st me Co) as (k1 & c1 & st1 & me1 & Co1 & D).
      destruct (IH d' Hd k1 c1 st1 me1 Co1) as (st2 & A).
      assert (K : forall d2, leads w m d2 c st me c1 st1 me1 -> exists st', eval Lexical w m (call Lexical w m d') c st me = Timeout st').
      { intros d2 (_ & n0 & K). destruct (K d') as [(_ & st' & Td & _)|(n' & Q & Tr)]; [eauto|].
        destruct (depth_below Lexical w m n' d' c1 st1 me1 ltac:(lia)) as [(st' & Z & _)|Z]; [exists st'; apply Tr, Z|]. rewrite A in Z. eauto. }
      destruct D as [(_ & D)|D]; eapply K, D.
    - injection Hd as <-. destruct (call_follows f n E R C T p m w outer own HC _ _ _ _ _ _ _ _ _ _ _ k c st me N Q L H En Co) as (k1 & c1 & st1 & me1 & Co1 & (_ & n0 & K)).
      destruct (K d) as [(_ & st' & Td & _)|(n' & Qd & Tr)]; [eauto|]. destruct (IH n' Qd k1 c1 st1 me1 Co1) as (st2 & A). exists st2. apply Tr, A.
  Qed.

  Lemma nested_runs d s g us q g' vs st : enters p s g us q -> nested E own p w outer d q -> rep f n E R C T m g g' -> Forall2 (rep f n E R C T m) us vs ->
    state_rep f n E R C T m s st -> exists st', call Lexical w m d st g' vs = Timeout st'.
  Proof.
    intros En N Rg Rs Sr. destruct d as [|d]; [exists st; reflexivity|]. destruct (entered f n E R C T p m w outer own HC s g us q g' vs st En Rg Rs Sr) as (k & c & me & Co & K).
    destruct (nested_code _ _ N d eq_refl k c st me Co) as (st' & A). exists st'. apply K, A.
  Qed.

  Lemma runs_or_stops st g vs v st' d : runs w m st g vs v st' -> call Lexical w m d st g vs = Done v st' \/ exists st2, call Lexical w m d st g vs = Timeout st2.
  Proof.
    intros (n0 & H). destruct (call_below Lexical w m d (Nat.max d n0) ltac:(lia) st g vs) as [(st2 & Z & _)|Z]; [right; eauto|]. left. rewrite Z. apply H. lia.
  Qed.
End Run.

(** ** Whole programs *)
Section Program.
  Variable f : string -> string.
  Variable C : config.
  Variable q : program.
  Variable w : world.
  Variable outer : list (string * list hvalue) -> string -> list hvalue -> hvalue -> Prop.
  Let E := program_env q.
  Let R := program_records q.
  Let own := defined_records q.
  Let p := program_hir q.
  Hypothesis PF : program_fits f C q.
  Hypothesis X : exact_module E R p.
  Hypothesis T : tries_allowed E p.
  Hypothesis Cov : covered_program q.
  Hypothesis Fun : declares_functions q.
  Hypothesis An : answers_typed q outer.

  Lemma known t : type_in q t -> defined E t.
  Proof. intros H. apply (pf_types f C q PF t H). Qed.

  Lemma program_names : NoDup (map fst (h_declared p ++ map (fun d => (fst d, lambda_type (snd d))) (h_defs p))).
  Proof.
    pose proof (pf_names f C q PF) as N. unfold global_names in N. cbn [p program_hir h_declared h_defs]. rewrite !map_app, map_map. cbn [fst]. change (map (fun x : string * lambda => fst x) (p_defs q)) with (map fst (p_defs q)).
    rewrite <- app_assoc. eapply Permutation_NoDup; [|exact N]. apply Permutation_app_swap_app.
  Qed.

  Lemma own_records_known r fts : lookup own r = Some fts -> lookup R r = Some fts.
  Proof.
    intros H. apply lookup_In in H. unfold own, defined_records in H. apply in_map_iff in H. destruct H as (d & Q & H). injection Q as <- <-.
    apply filter_In in H. destruct H as [H _]. exact (record_lookup f C q PF d H).
  Qed.

  Lemma records_fine r fts : lookup R r = Some fts -> NoDup (map fst fts) /\ forall x ft, In (x, ft) fts -> defined E ft.
  Proof.
    intros H. apply lookup_In in H. apply in_rev in H. cbn in H. rewrite map_map in H. apply in_map_iff in H. destruct H as (d & Q & H). injection Q as <- <-.
    split; [apply (pf_fields f C q PF d H)|]. intros x ft Hx. apply known. eapply ti_field; eassumption.
  Qed.

  Lemma definitions_fine g l : lookup (h_defs p) g = Some l ->
    lookup (module_env p) g = Some (lambda_type l) /\ exact E R (rev (l_arguments l) ++ module_env p) (l_body l) (l_result l) /\
    sound_body E own p (l_result l) (l_body l) /\ defined E (lambda_type l).
  Proof.
    intros H. apply lookup_In in H. assert (Hr : defined E (l_result l)) by (apply known; eapply ti_result, H). split; [|split; [exact (X g l H)|split]].
    - apply nodup_lookup_rev; [exact program_names|]. apply in_app_iff. right. apply in_map_iff. exists (g, l). auto.
    - split; [exact Hr|]. split; [intros e O; split; [exact (Cov g l e H O)|intros t Ht; apply known; eapply ti_expression; eassumption]|]. split.
      + intros g' O _. right. exists g, l. auto.
      + intros c t a Hw. destruct (T g l H c t a Hw) as (r & Qc & Hs). subst c. exists r. split; [reflexivity|]. split; [|split; [exact Hs|]].
        * apply within_written in Hw as [Z|Z]; [injection Z as <-; exact Hr|]. apply written_occurs in Z as (e' & O & Z). apply known. eapply ti_expression; eassumption.
        * apply (pf_definitions f C q PF g l H) with (r := r) in Hw; [exact Hw|reflexivity].
    - unfold lambda_type. apply defined_function. split; [|exact Hr]. apply Forall_forall. intros t Ht. apply in_map_iff in Ht. destruct Ht as ([y t'] & <- & Ht). apply known. eapply ti_argument; eassumption.
  Qed.

  Lemma declared_found g t : lookup (module_env p) g = Some t -> lookup (h_defs p) g = None -> lookup (h_declared p) g = Some t.
  Proof.
    intros H N. apply lookup_In in H. unfold module_env in H. apply in_rev, in_app_or in H. destruct H as [H|H].
    - apply nodup_lookup; [|exact H]. pose proof program_names as D. rewrite map_app in D. apply nodup_left in D. exact D.
    - exfalso. apply in_map_iff in H. destruct H as ([y l] & Q & H). cbn in Q. injection Q as <- _. apply lookup_none in N. apply N. apply (in_map fst) in H. exact H.
  Qed.

  Lemma declared_fine g t : lookup (h_declared p) g = Some t -> defined E t /\ exists ts r, t = TFunction ts r.
  Proof.
    intros H. apply lookup_In in H. split; [|exact (Fun g t H)]. apply known. cbn [p program_hir h_declared] in H. apply in_app_or in H.
    destruct H as [H|H]; [eapply ti_declared, H|eapply ti_foreign, H].
  Qed.

  Theorem program_safe d ts r g us s : defined E (TFunction ts r) -> has_type q (TFunction ts r) g -> Forall2 (has_type q) ts us -> sound_state q s ->
    (exists v s', applies E own p w outer s g us v s' /\ has_type q r v /\ sound_state q s') \/ goes_deep q w outer d s g us.
  Proof.
    intros D V Vs St. refine (call_ok f E R own p w outer (ctx_types _ _ _ (pf_context f C q PF)) definitions_fine declared_found An d ts r g us s _ D V Vs St).
    exact (is_safe f E R own p w outer (ctx_types _ _ _ (pf_context f C q PF)) own_records_known records_fine definitions_fine declared_found declared_fine An d).
  Qed.
End Program.

Lemma accepted_safe f n C p q w outer : analyze_program n p = Ok q -> program_fits f C p -> raw_program p -> apart_module (program_hir p) ->
  covered_program q -> declares_functions q -> answers_typed q outer ->
  forall d ts r g us s, defined (program_env q) (TFunction ts r) -> has_type q (TFunction ts r) g -> Forall2 (has_type q) ts us -> sound_state q s ->
  (exists v s', applies (program_env q) (defined_records q) (program_hir q) w outer s g us v s' /\ has_type q r v /\ sound_state q s') \/ goes_deep q w outer d s g us.
Proof.
  intros Hq PF Raw A Cov Fun An d ts r g us s. 
  unfold analyze_program in Hq. repeat match type of Hq with (if ?b then _ else _) = _ => destruct b; [discriminate|] end.
  destruct (analyze n (program_env p) (program_records p) (open_records p) (program_hir p)) as [m| | |] eqn:Hm; try discriminate.
  cbn [bind] in Hq. injection Hq as <-.
  destruct (exact_q f C p PF Raw n m Hm A) as [X T].
  exact (program_safe f C _ w outer (program_fits_q f C p PF Raw n m Hm) X T Cov Fun An d ts r g us s).
Qed.
