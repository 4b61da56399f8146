(** Lambda lifting: property C23. *)
From Coq Require Import String List ZArith Bool.
From Verif Require Import Base Names Mir MirSpec MirScopeSpec MirNormSpec MirLiftSpec MirExamples MirLiftExamples
  MirLift MirLiftProofs MirLiftBoxProofs.
Import ListNotations.
Local Open Scope string_scope.

(** Missing: modules with local thunks that capture nothing; see
    [lifting_preserves_behaviour_refuted]. *)
Theorem lifting_preserves_behaviour_partial m :
  infos_ok m -> no_lifted_names m -> bound_once m -> proper_environments m -> no_closed_thunks m ->
  refines Declared m Declared (lift_module m).
Proof. exact (lift_refines m). Qed.
Print Assumptions lifting_preserves_behaviour_partial.

Lemma lift_example_infos : infos_ok lift_example.
Proof. split; [intros t g; discriminate|]. discriminate. Qed.

Lemma lift_example_names : no_lifted_names lift_example.
Proof. apply plain_no_lifted; reflexivity. Qed.

Lemma lift_example_bound : bound_once lift_example.
Proof. apply bound_once_check. reflexivity. Qed.

Example lifting_example :
  infos_ok lift_example /\ no_lifted_names lift_example /\ bound_once lift_example /\
  proper_environments lift_example /\ no_closed_thunks lift_example /\
  shown (run Declared caller lift_example 9 example_script) = Some lift_log /\
  shown (run Declared caller (lift_module lift_example) 9 example_script) = Some lift_log /\
  map (fun d => (f_name d, map fst (f_args d))) (m_defs (lift_module lift_example)) =
    [("f", ["n"]); ("debug", ["v"]); ("mir:lift:0:h", ["l"]); ("mir:lift:1:g", ["k"; "x"; "n"])].
Proof.
  split; [exact lift_example_infos|]. split; [exact lift_example_names|].
  split; [exact lift_example_bound|].
  split; [apply proper_environments_check; reflexivity|].
  split; [apply no_closed_thunks_check; reflexivity|].
  repeat split; vm_compute; reflexivity.
Qed.

(** A function that captures variables and is used as a value, or is a thunk,
    stays a local function with the same arguments and captured variables. *)
Theorem lifting_keeps_function_values m g d e :
  no_lifted_names m -> bound_once m ->
  In g (m_defs m) -> within (LetRec d e) (f_body g) -> f_env d <> [] ->
  f_thunk d = true \/ first_class (f_name d) (f_body d) \/ first_class (f_name d) e ->
  exists g' d' e', In g' (m_defs (lift_module m)) /\ within (LetRec d' e') (f_body g') /\
    f_name d' = f_name d /\ f_env d' = f_env d /\ f_args d' = f_args d /\ f_result d' = f_result d /\
    f_thunk d' = f_thunk d.
Proof. exact (lift_keeps_values m g d e). Qed.
Print Assumptions lifting_keeps_function_values.

Example function_values_example :
  exists g d e, no_lifted_names lift_example /\ bound_once lift_example /\
    In g (m_defs lift_example) /\ within (LetRec d e) (f_body g) /\ f_env d <> [] /\
    f_thunk d = false /\ first_class (f_name d) e /\ f_name d = "b".
Proof.
  eexists _, _, _. split; [exact lift_example_names|]. split; [exact lift_example_bound|].
  split; [left; reflexivity|]. split.
  { apply within_let_body, within_letrec_body, within_letrec_body, within_here. }
  split; [discriminate|]. split; [reflexivity|]. split; [|reflexivity].
  apply first_class_letrec_body, first_class_let_bound.
  apply (first_class_operation _ _ [Var "apply"] (Var "b") []); [constructor|discriminate].
Qed.

(** A local thunk that captures nothing becomes a global one, which is
    evaluated once in a run instead of once for each time its definition is
    reached. *)
Theorem lifting_preserves_behaviour_refuted :
  exists m, infos_ok m /\ no_lifted_names m /\ bound_once m /\ proper_environments m /\
    ~ refines Declared m Declared (lift_module m).
Proof.
  exists closed_thunk. split; [split; [intros t g; discriminate|discriminate]|].
  split; [apply plain_no_lifted; reflexivity|]. split; [apply bound_once_check; reflexivity|].
  split; [apply proper_environments_check; reflexivity|].
  intros H. specialize (H integers 5 [(ByName "f", []); (ByName "f", [])]).
  let r := eval vm_compute in (run Declared integers closed_thunk 5 [(ByName "f", []); (ByName "f", [])]) in
  assert (E : run Declared integers closed_thunk 5 [(ByName "f", []); (ByName "f", [])] = r)
    by (vm_compute; reflexivity);
  rewrite E in H; clear E.
  destruct H as (st' & E & Ho).
  let r := eval vm_compute in (run Declared integers (lift_module closed_thunk) 5 [(ByName "f", []); (ByName "f", [])]) in
  assert (E' : run Declared integers (lift_module closed_thunk) 5 [(ByName "f", []); (ByName "f", [])] = r)
    by (vm_compute; reflexivity);
  rewrite E' in E.
  injection E as <-. vm_compute in Ho. discriminate Ho.
Qed.
Print Assumptions lifting_preserves_behaviour_refuted.
