(** The passes of the middle end: properties C19-C22. *)
From Coq Require Import String List ZArith Bool.
From Verif Require Import Base Names Mir MirSpec MirScopeSpec MirNormSpec MirExamples
  MirConcat MirConcatProofs MirAlpha MirAlphaProofs MirNorm MirNormProofs MirEnv MirEnvProofs.
Import ListNotations.
Local Open Scope string_scope.

(** ** C19 *)
Theorem concatenation_preserves_behaviour m : infos_ok m ->
  refines Lexical m Lexical (concat_module m).
Proof. exact (concat_refines Lexical m). Qed.
Print Assumptions concatenation_preserves_behaviour.

Example concatenation_example :
  infos_ok example /\
  shown (run Lexical integers example 5 example_script) = Some example_log /\
  shown (run Lexical integers (concat_module example) 5 example_script) = Some example_log /\
  concat_module example <> example.
Proof.
  split; [exact example_infos|]. split; [vm_compute; reflexivity|]. split; [vm_compute; reflexivity|].
  intros E. apply (f_equal (fun m => map (fun d => operations (f_body d)) (m_defs m))) in E.
  vm_compute in E. discriminate.
Qed.

(** ** C20 *)
Theorem renaming_preserves_behaviour m : infos_ok m -> hygienic m ->
  refines Lexical m Lexical (alpha_module m).
Proof. exact (alpha_refines m). Qed.
Print Assumptions renaming_preserves_behaviour.

Theorem renaming_distinct_partial m d : hygienic m -> distinct_arguments m -> In d (m_defs (alpha_module m)) ->
  NoDup (binders (f_body d)) /\ forall x, In x (binders (f_body d)) -> global_type m x = None.
Proof. exact (alpha_distinct m d). Qed.
Print Assumptions renaming_distinct_partial.

Lemma example_hygienic : hygienic example.
Proof. apply plain_hygienic; reflexivity. Qed.

Lemma example_distinct_arguments : distinct_arguments example.
Proof.
  apply distinct_arguments_check. reflexivity.
Qed.

Example renaming_example :
  infos_ok example /\ hygienic example /\ distinct_arguments example /\
  shown (run Lexical integers example 5 example_script) = Some example_log /\
  shown (run Lexical integers (alpha_module example) 5 example_script) = Some example_log /\
  map (fun d => binders (f_body d)) (m_defs example) =
    [["x"; "u"; "g"; "k"; "x"; "z"; "x"; "y"]; []] /\
  map (fun d => binders (f_body d)) (m_defs (alpha_module example)) =
    [["x"; "u"; "g"; "k"; "x:1"; "z"; "x:2"; "y"]; []].
Proof.
  split; [exact example_infos|]. split; [exact example_hygienic|].
  split; [exact example_distinct_arguments|]. repeat split; vm_compute; reflexivity.
Qed.

(** Two arguments of a local function with one name get one new name. *)
Theorem renaming_distinct_refuted :
  exists m d, hygienic m /\ In d (m_defs (alpha_module m)) /\ ~ NoDup (binders (f_body d)).
Proof.
  exists (set_defs example [Fdef "f" [] [] TNumber
     (LetRec (Fdef "g" [] [("a", TNumber); ("a", TNumber)] TNumber (Var "a") false) (num 1)) false]).
  eexists. split; [apply plain_hygienic; reflexivity|]. split; [left; reflexivity|].
  intros H. vm_compute in H. inversion H as [|? ? _ H1]; subst.
  inversion H1 as [|? ? H2 _]; subst. apply H2. left. reflexivity.
Qed.
Print Assumptions renaming_distinct_refuted.

(** ** C21 *)
Theorem normalization_preserves_behaviour_partial m : infos_ok m ->
  names_apart m -> no_normal_names m -> shaped m ->
  refines Lexical m Lexical (norm_module m).
Proof. exact (fun Hi Hd Hn Hs => norm_refines m Hi (normalizable_spec m Hd Hn Hs)). Qed.
Print Assumptions normalization_preserves_behaviour_partial.

Lemma example_shaped : shaped example_renamed.
Proof.
  apply operations_shaped. intros o k H. vm_compute in H.
  repeat (destruct H as [H|H]; [injection H as <- <-; vm_compute; reflexivity|]); try exact I.
  destruct H.
Qed.

Example normalization_example :
  infos_ok example_renamed /\ names_apart example_renamed /\ no_normal_names example_renamed /\
  shaped example_renamed /\
  shown (run Lexical integers example_renamed 5 example_script) = Some example_log /\
  shown (run Lexical integers (norm_module example_renamed) 5 example_script) = Some example_log /\
  map (fun d => binders (f_body d)) (m_defs (norm_module example_renamed)) =
    [["x"; "anf:v:0"; "anf:v:1"; "u"; "g"; "k"; "x1"; "z"; "anf:v:2"; "x2"; "anf:v:3"]; []].
Proof.
  split; [exact example_renamed_infos|].
  split; [apply distinct_names_apart, distinct_binders_check; vm_compute; reflexivity|].
  split; [apply plain_no_normal; vm_compute; reflexivity|].
  split; [exact example_shaped|]. repeat split; vm_compute; reflexivity.
Qed.

(** Alpha conversion does not rename a local variable that has the name of an
    argument of the global function around it, so normalization may confuse
    them: [f = \(x number) number { y = x; x = 2; x + y }]. *)
Definition shadowed_argument : mmodule :=
  set_defs example
    [Fdef "f" [] [("x", TNumber)] TNumber
       (Let "y" TNumber (Var "x") (Let "x" TNumber (num 2) (Op (OArith Add) [Var "x"; Var "y"]))) false;
     Fdef "debug" [] [("v", TVariant)] TByteString (str "?") false].

Theorem normalization_preserves_behaviour_refuted :
  exists m, infos_ok m /\ hygienic m /\ distinct_arguments m /\ shaped m /\
    ~ refines Lexical m Lexical (norm_module (alpha_module m)).
Proof.
  exists shadowed_argument. split.
  { split; [intros t g; discriminate|]. discriminate. }
  split; [apply plain_hygienic; reflexivity|].
  split; [apply distinct_arguments_check; reflexivity|].
  split.
  { apply operations_shaped. intros o k H. vm_compute in H.
    destruct H as [H|[]]. injection H as <- <-. reflexivity. }
  intros H. specialize (H integers 5 example_script).
  let r := eval vm_compute in (run Lexical integers shadowed_argument 5 example_script) in
  assert (E : run Lexical integers shadowed_argument 5 example_script = r) by (vm_compute; reflexivity);
  rewrite E in H; clear E.
  destruct H as (st' & E & Ho).
  let r := eval vm_compute in
    (run Lexical integers (norm_module (alpha_module shadowed_argument)) 5 example_script) in
  assert (E' : run Lexical integers (norm_module (alpha_module shadowed_argument)) 5 example_script = r)
    by (vm_compute; reflexivity);
  rewrite E' in E.
  injection E as <-. vm_compute in Ho. discriminate Ho.
Qed.
Print Assumptions normalization_preserves_behaviour_refuted.

(** ** C22 *)
Theorem environments_exact m scope d : local_function (infer_module m) scope d ->
  NoDup (map fst (f_env d)) /\
  forall x t, In (x, t) (f_env d) <->
    lookup scope x = Some t /\ free x (f_body d) /\ x <> f_name d /\ ~ In x (map fst (f_args d)).
Proof. exact (infer_exact m scope d). Qed.
Print Assumptions environments_exact.

Theorem environments_preserve_behaviour m : infos_ok m ->
  refines Lexical m Declared (infer_module m).
Proof. exact (infer_refines m). Qed.
Print Assumptions environments_preserve_behaviour.

Example environments_example :
  infos_ok example /\
  shown (run Lexical integers example 5 example_script) = Some example_log /\
  shown (run Declared integers (infer_module example) 5 example_script) = Some example_log /\
  shown (run Declared integers example 5 example_script) = None /\
  exists scope d, local_function (infer_module example) scope d /\ f_env d = [("x", TNumber); ("n", TNumber)].
Proof.
  split; [exact example_infos|]. split; [vm_compute; reflexivity|]. split; [vm_compute; reflexivity|].
  split; [vm_compute; reflexivity|].
  eexists. eexists. split.
  - eexists. split; [left; reflexivity|]. cbn. apply local_let_body, local_let_body, local_here.
  - vm_compute. reflexivity.
Qed.
