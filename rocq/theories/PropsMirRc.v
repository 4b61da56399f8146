(** Reference counting: properties C24 and C25. *)
From Coq Require Import String List ZArith Bool.
From Verif Require Import Base Names Mir MirSpec MirScopeSpec MirNormSpec MirExamples MirLiftExamples MirPipeline
  MirRc MirRcSpec MirRcValidSpec MirRcProofs MirRcFunction MirRcHiding MirRcBehaviour MirRcSound MirRcComplete MirRcAccept MirRcExamples
  MirPipelineSpec MirReadySpec MirReady MirReadyNames MirSourceCheck.
Import ListNotations.
Local Open Scope string_scope.

(** ** C24 *)
(** Every path through the counted code uses each reference exactly once.
    Missing: modules outside the conditions, for which the claim is false (see
    below). *)
Theorem references_are_balanced_partial m m' : rc_module m = Some m' ->
  normal m -> plain_tries m -> exact_scopes m -> hides_nothing m -> references_balanced m'.
Proof. exact (references_are_balanced m m'). Qed.
Print Assumptions references_are_balanced_partial.

(** Modules whose functions bind distinct names hide no variable and no global
    function. *)
Theorem distinct_names_hide_nothing m : distinct_binders m ->
  hides_nothing m /\ (not_counted m -> normal m -> plain_tries m -> exact_scopes m -> globals_not_hidden m).
Proof.
  intros H. split; [apply distinct_binders_hide_nothing; exact H|]. intros H1 H2 H3 H4. apply source_globals; assumption.
Qed.
Print Assumptions distinct_names_hide_nothing.

(** The passes before reference counting make modules that meet the conditions,
    from modules that the front end makes. *)
Theorem middle_end_is_ready m : proper_source m -> distinct_global_arguments m -> not_counted m -> plain_tries m ->
  not_counted (middle_end m) /\ normal (middle_end m) /\ plain_tries (middle_end m) /\ exact_scopes (middle_end m) /\
  (no_empty_case m -> no_empty_case (middle_end m)) /\
  (arguments_not_rebound m -> hides_nothing (middle_end m) /\ globals_not_hidden (middle_end m)).
Proof.
  intros H1 H2 H3 H4. destruct (middle_end_ready m H1 H2 H3 H4) as (R1 & R2 & R3 & R4 & R5).
  do 5 (split; [assumption|]). intros H5. pose proof (middle_end_distinct m H1 H5) as D.
  split; [apply distinct_binders_hide_nothing|apply source_globals]; assumption.
Qed.
Print Assumptions middle_end_is_ready.

(** From the front end on: reference counting accepts the module, and every path
    uses each reference exactly once.  Missing: functions that bind the name of
    an argument again, for which the claim is false
    ([executable_leaks_refuted]). *)
Theorem middle_end_counted_partial m : proper_source m -> distinct_global_arguments m -> not_counted m -> plain_tries m ->
  arguments_not_rebound m -> no_empty_case m -> exists m', reference_count (middle_end m) = Some m' /\ references_balanced m'.
Proof. exact (middle_end_counted m). Qed.
Print Assumptions middle_end_counted_partial.

Example middle_end_counted_example :
  proper_source lift_example /\ distinct_global_arguments lift_example /\ not_counted lift_example /\ plain_tries lift_example /\
  arguments_not_rebound lift_example /\ no_empty_case lift_example.
Proof.
  split; [apply proper_sourceb_ok; vm_compute; reflexivity|].
  split; [apply distinct_argumentsb_ok; vm_compute; reflexivity|].
  split; [apply not_counted_check; vm_compute; reflexivity|]. split; [apply plain_tries_check; vm_compute; reflexivity|].
  split; [apply not_reboundb_ok; vm_compute; reflexivity|apply no_empty_case_check; vm_compute; reflexivity].
Qed.

(** A variable that is hidden while a try operation returns early is lost: in
    [r = (x = "a"; read(x)?); g(x); r], the outer [x] is not dropped when
    [read(x)?] returns, and the validator accepts the result. *)
Theorem hidden_reference_refuted :
  exists m m', reference_count m = Some m' /\ normal m /\ plain_tries m /\ exact_scopes m /\
    globals_not_hidden m /\ ~ references_balanced m'.
Proof.
  exists hidden_variable.
  let r := eval vm_compute in (reference_count hidden_variable) in
  match r with Some ?m => exists m end.
  split; [vm_compute; reflexivity|].
  split; [apply normal_check; vm_compute; reflexivity|].
  split; [apply plain_tries_check; vm_compute; reflexivity|].
  split; [apply exact_scopes_check; vm_compute; reflexivity|].
  split; [apply globals_checked; [apply not_counted_check|]; vm_compute; reflexivity|].
  intros H. destruct (H _ (or_introl eq_refl)) as [Hb _]. apply balanced_checked in Hb. vm_compute in Hb. discriminate Hb.
Qed.
Print Assumptions hidden_reference_refuted.

(** Clones and drops do not change results. *)
Theorem reference_counting_preserves_behaviour md m m' : reference_count m = Some m' -> infos_ok m ->
  refines md m md m'.
Proof. intros H. apply rc_refines. apply reference_count_rc. exact H. Qed.
Print Assumptions reference_counting_preserves_behaviour.

Example references_are_balanced_example :
  (not_counted counted_example /\ normal counted_example /\ plain_tries counted_example /\
   exact_scopes counted_example /\ hides_nothing counted_example /\ globals_not_hidden counted_example /\
   no_empty_case counted_example) /\
  (let m := middle_end lift_example in
   not_counted m /\ normal m /\ plain_tries m /\ exact_scopes m /\ hides_nothing m /\ globals_not_hidden m /\
   no_empty_case m) /\
  match rc_module counted_example with
  | Some m => match m_defs m with
              | d :: _ => length (paths [] (f_body d) (at_entry false d)) = 3
              | [] => False
              end
  | None => False
  end /\
  infos_ok counted_example /\
  match reference_count (middle_end lift_example) with
  | Some m => shown (run Declared caller m 9 example_script) = Some lift_log
  | None => False
  end.
Proof.
  split; [apply ready_spec; vm_compute; reflexivity|].
  split; [apply ready_spec; vm_compute; reflexivity|].
  split; [vm_compute; reflexivity|].
  split; [split; [intros t g; discriminate|discriminate]|].
  vm_compute. reflexivity.
Qed.

(** Without normal form: [g(x) + x] gives its only [x] to [g] and clones it
    afterwards, and the validator accepts the result. *)
Theorem not_normal_reference_refuted :
  exists m m', reference_count m = Some m' /\ plain_tries m /\ exact_scopes m /\ hides_nothing m /\
    ~ references_balanced m'.
Proof.
  exists not_normal.
  let r := eval vm_compute in (reference_count not_normal) in
  match r with Some ?m => exists m end.
  split; [vm_compute; reflexivity|].
  split; [apply plain_tries_check; vm_compute; reflexivity|].
  split; [apply exact_scopes_check; vm_compute; reflexivity|].
  split; [apply hides_nothing_checked; vm_compute; reflexivity|].
  intros H. destruct (H _ (or_introl eq_refl)) as [Hb _]. apply balanced_checked in Hb. vm_compute in Hb. discriminate Hb.
Qed.
Print Assumptions not_normal_reference_refuted.

(** A try operation that returns a local variable: the transformation makes
    unbalanced code, which the validator reports as an error. *)
Theorem other_try_reference_refuted :
  exists m m', rc_module m = Some m' /\ normal m /\ exact_scopes m /\ hides_nothing m /\
    ~ references_balanced m' /\ reference_count m = None.
Proof.
  exists other_try.
  let r := eval vm_compute in (rc_module other_try) in
  match r with Some ?m => exists m end.
  split; [vm_compute; reflexivity|].
  split; [apply normal_check; vm_compute; reflexivity|].
  split; [apply exact_scopes_check; vm_compute; reflexivity|].
  split; [apply hides_nothing_checked; vm_compute; reflexivity|].
  split; [|vm_compute; reflexivity].
  intros H. destruct (H _ (or_introl eq_refl)) as [Hb _]. apply balanced_checked in Hb. vm_compute in Hb. discriminate Hb.
Qed.
Print Assumptions other_try_reference_refuted.

(** ** C25 *)
(** In code that the validator accepts, as many references of each variable are
    used up as are made, on every path.  Missing: their order, and shadowed
    variables; both are refuted below. *)
Theorem validated_references_partial m : validate m = true -> no_shadowing m -> references_net_balanced m.
Proof. exact (validated_net_balanced m). Qed.
Print Assumptions validated_references_partial.

(** The validator accepts balanced code. *)
Theorem balanced_code_is_accepted m : references_balanced m -> globals_not_hidden m -> no_empty_case m ->
  validate m = true.
Proof. exact (balanced_validated m). Qed.
Print Assumptions balanced_code_is_accepted.

(** So it accepts what the transformation makes: reference counting does not
    fail. *)
Theorem reference_counting_succeeds m :
  not_counted m -> normal m -> plain_tries m -> exact_scopes m -> hides_nothing m -> globals_not_hidden m -> no_empty_case m ->
  exists m', reference_count m = Some m' /\ references_balanced m'.
Proof. exact (reference_count_succeeds m). Qed.
Print Assumptions reference_counting_succeeds.

Example validated_references_example :
  match reference_count counted_example with
  | Some m => validate m = true /\ no_shadowing m
  | None => False
  end.
Proof.
  let r := eval vm_compute in (reference_count counted_example) in
  assert (E : reference_count counted_example = r) by (vm_compute; reflexivity); rewrite E.
  split; [vm_compute; reflexivity|]. apply no_shadowing_checked. vm_compute. reflexivity.
Qed.

Theorem validated_late_clone_refuted :
  exists m, validate m = true /\ no_shadowing m /\ ~ references_balanced m.
Proof.
  exists late_clone. split; [vm_compute; reflexivity|].
  split; [apply no_shadowing_checked; vm_compute; reflexivity|].
  intros H. destruct (H _ (or_introl eq_refl)) as [Hb _]. apply balanced_checked in Hb. vm_compute in Hb. discriminate Hb.
Qed.
Print Assumptions validated_late_clone_refuted.

Theorem validated_shadowed_return_refuted :
  exists m, validate m = true /\ ~ references_net_balanced m.
Proof.
  exists shadowed_return. split; [vm_compute; reflexivity|].
  intros H. destruct (H _ (or_introl eq_refl)) as [Hb _]. apply (Hb NetFault). vm_compute. auto.
Qed.
Print Assumptions validated_shadowed_return_refuted.

(** A case expression without branches is not accepted (the code panics). *)
Theorem empty_case_refuted :
  exists m, references_balanced m /\ globals_not_hidden m /\ validate m = false.
Proof.
  exists (one_function [] (Case (Lit LNone) [] None)).
  split; [|split; [|vm_compute; reflexivity]].
  - intros g [<-|[]]. split.
    + intros r Hr. vm_compute in Hr. destruct Hr.
    + intros d e Hw. apply within_parts in Hw. cbn in Hw. destruct Hw as [Hw|[Hw|[]]]; discriminate Hw.
  - intros local d x Hf Hm _ Hb. destruct local; cbn [function_of] in Hf.
    + destruct Hf as (g & e & [<-|[]] & Hw). apply within_parts in Hw. cbn in Hw.
      destruct Hw as [Hw|[Hw|[]]]; discriminate Hw.
    + destruct Hf as [<-|[]]. destruct Hb.
Qed.
Print Assumptions empty_case_refuted.
