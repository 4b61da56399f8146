(** The middle end as a whole: property C26. *)
From Coq Require Import String List ZArith Bool.
From Verif Require Import Base Names Mir MirSpec MirScopeSpec MirNormSpec MirLiftSpec MirPipelineSpec
  MirEnv MirEnvProofs MirExamples MirLiftExamples MirLoose MirPipeline MirPipelineProofs.
Import ListNotations.
Local Open Scope string_scope.

(** ** Checks of examples *)
Lemma plain_not_reserved x : has_colon x = false -> ~ reserved x.
Proof. intros H (s & [-> | [-> | ->]]); discriminate. Qed.

Definition reused_check (m : mmodule) : bool :=
  forallb (fun d => forallb (fun x => negb (mem x (binders (f_body d))) ||
    negb (mem x (lets (f_body d))) && negb (mem x (copies (f_body d)))) (fv (f_body d))) (m_defs m).

Lemma reused_ok m : reused_check m = true -> arguments_not_reused m.
Proof.
  intros H d x Hd Hf Hb _. unfold reused_check in H. rewrite forallb_forall in H. specialize (H d Hd).
  rewrite forallb_forall in H. apply fv_free in Hf. specialize (H x Hf). apply mem_In in Hb. rewrite Hb in H.
  cbn in H. apply andb_true_iff in H as [H1 H2]. apply negb_true_iff in H1, H2.
  split; intros Hin; [|apply in_copies in Hin]; apply mem_In in Hin; congruence.
Qed.

Lemma proper_source_check m :
  infos_ok m -> shaped m -> plain_globals m = true -> forallb plain_names (m_defs m) = true ->
  forallb plain_def (m_defs m) = true ->
  forallb (fun g => forallb (fun d => nodupb (map fst (f_args d))) (local_defs (f_body g))) (m_defs m) = true ->
  reused_check m = true -> proper_source m.
Proof.
  intros Hi Hs H1 H2 H3 H4 H5. constructor; auto.
  - apply plain_hygienic; assumption.
  - apply distinct_arguments_check. assumption.
  - split.
    + intros g Hg. apply plain_not_reserved. apply global_type_in in Hg. unfold plain_globals in H1.
      rewrite forallb_forall in H1. apply negb_true_iff, H1, Hg.
    + intros d x Hd Hx. apply plain_not_reserved. rewrite forallb_forall in H2. specialize (H2 d Hd).
      unfold plain_names in H2. rewrite forallb_forall in H2. apply negb_true_iff, H2. rewrite !in_app_iff.
      rewrite <- fv_free in Hx. tauto.
  - apply reused_ok. assumption.
Qed.

(** ** C26 *)
(** Concatenation flattening, renaming, normalization and environment
    inference in sequence. *)
Theorem closure_passes_preserve_behaviour_partial m : proper_source m ->
  refines Lexical m Declared (closure_passes m).
Proof. exact (closure_passes_refine m). Qed.
Print Assumptions closure_passes_preserve_behaviour_partial.

(** The same followed by lambda lifting.  Missing: modules where a local thunk
    captures nothing after the first passes, and modules where a let expression
    binds the name of a used argument of the global function around it, or gives
    another name to an argument whose name is bound again; see the refutations
    below. *)
Theorem middle_end_preserves_behaviour_partial m : proper_source m -> no_closed_thunks (closure_passes m) ->
  refines Lexical m Declared (middle_end m).
Proof. exact (middle_end_refines m). Qed.
Print Assumptions middle_end_preserves_behaviour_partial.

Lemma example_source : proper_source example.
Proof.
  apply proper_source_check; [exact example_infos| |vm_compute; reflexivity..].
  apply operations_shaped. intros o k H. vm_compute in H.
  repeat (destruct H as [H|H]; [injection H as <- <-; vm_compute; reflexivity|]); try exact I.
  destruct H.
Qed.

Lemma lift_example_source : proper_source lift_example.
Proof.
  apply proper_source_check;
    [split; [intros t g; discriminate|discriminate]| |vm_compute; reflexivity..].
  apply operations_shaped. intros o k H. vm_compute in H.
  repeat (destruct H as [H|H]; [injection H as <- <-; vm_compute; reflexivity|]); try exact I.
  destruct H.
Qed.

Example middle_end_example :
  proper_source example /\ no_closed_thunks (closure_passes example) /\
  shown (run Lexical integers example 5 example_script) = Some example_log /\
  shown (run Declared integers (middle_end example) 5 example_script) = Some example_log /\
  proper_source lift_example /\ no_closed_thunks (closure_passes lift_example) /\
  shown (run Lexical caller lift_example 9 example_script) = Some lift_log /\
  shown (run Declared caller (middle_end lift_example) 9 example_script) = Some lift_log /\
  map f_name (m_defs (middle_end lift_example)) = ["f"; "debug"; "mir:lift:0:h"; "mir:lift:1:g"].
Proof.
  split; [exact example_source|].
  split; [apply no_closed_thunks_check; vm_compute; reflexivity|].
  do 2 (split; [vm_compute; reflexivity|]).
  split; [exact lift_example_source|].
  split; [apply no_closed_thunks_check; vm_compute; reflexivity|].
  repeat split; vm_compute; reflexivity.
Qed.

(** Without [arguments_not_reused]:
    [f = \(x number) number { y = x; x = 2; x + y }] returns another number. *)
Definition reused_argument : mmodule :=
  set_defs example
    [Fdef "f" [] [("x", TNumber)] TNumber
       (Let "y" TNumber (Var "x") (Let "x" TNumber (num 2) (Op (OArith Add) [Var "x"; Var "y"]))) false;
     debug_function].

Theorem middle_end_reused_argument_refuted :
  exists m, infos_ok m /\ hygienic m /\ distinct_arguments m /\ shaped m /\ no_reserved_names m /\
    no_closed_thunks (closure_passes m) /\ ~ refines Lexical m Declared (middle_end m).
Proof.
  exists reused_argument.
  split; [split; [intros t g; discriminate|discriminate]|].
  split; [apply plain_hygienic; reflexivity|].
  split; [apply distinct_arguments_check; reflexivity|].
  split.
  { apply operations_shaped. intros o k H. vm_compute in H. destruct H as [H|[]]. injection H as <- <-. reflexivity. }
  split.
  { split.
    - intros g Hg. apply plain_not_reserved. apply global_type_in in Hg. vm_compute in Hg.
      repeat (destruct Hg as [<-|Hg]; [reflexivity|]). destruct Hg.
    - intros d x Hd Hx. apply plain_not_reserved. rewrite <- fv_free in Hx.
      destruct Hd as [<-|[<-|[]]]; vm_compute in Hx;
        repeat match goal with
               | H : _ \/ _ |- _ => destruct H
               | H : False |- _ => destruct H
               | H : _ = x |- _ => rewrite <- H; reflexivity
               end. }
  split; [apply no_closed_thunks_check; vm_compute; reflexivity|].
  intros H. specialize (H integers 5 example_script).
  let r := eval vm_compute in (run Lexical integers reused_argument 5 example_script) in
  assert (E : run Lexical integers reused_argument 5 example_script = r) by (vm_compute; reflexivity);
  rewrite E in H; clear E.
  destruct H as (st' & E & Ho).
  let r := eval vm_compute in (run Declared integers (middle_end reused_argument) 5 example_script) in
  assert (E' : run Declared integers (middle_end reused_argument) 5 example_script = r)
    by (vm_compute; reflexivity);
  rewrite E' in E.
  injection E as <-. vm_compute in Ho. discriminate Ho.
Qed.
Print Assumptions middle_end_reused_argument_refuted.

(** Without [no_closed_thunks]. *)
Theorem middle_end_closed_thunk_refuted :
  exists m, proper_source m /\ ~ refines Lexical m Declared (middle_end m).
Proof.
  exists closed_thunk. split.
  { apply proper_source_check;
    [split; [intros t g; discriminate|discriminate]| |vm_compute; reflexivity..].
    apply operations_shaped. intros o k H. vm_compute in H.
    repeat (destruct H as [H|H]; [injection H as <- <-; vm_compute; reflexivity|]); try exact I.
    destruct H. }
  intros H. specialize (H integers 5 [(ByName "f", []); (ByName "f", [])]).
  let r := eval vm_compute in (run Lexical integers closed_thunk 5 [(ByName "f", []); (ByName "f", [])]) in
  assert (E : run Lexical integers closed_thunk 5 [(ByName "f", []); (ByName "f", [])] = r)
    by (vm_compute; reflexivity);
  rewrite E in H; clear E.
  destruct H as (st' & E & Ho).
  let r := eval vm_compute in (run Declared integers (middle_end closed_thunk) 5 [(ByName "f", []); (ByName "f", [])]) in
  assert (E' : run Declared integers (middle_end closed_thunk) 5 [(ByName "f", []); (ByName "f", [])] = r)
    by (vm_compute; reflexivity);
  rewrite E' in E.
  injection E as <-. vm_compute in Ho. discriminate Ho.
Qed.
Print Assumptions middle_end_closed_thunk_refuted.
