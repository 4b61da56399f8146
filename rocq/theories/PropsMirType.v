(** The type checker of the middle end: property C27. *)
From Coq Require Import String List ZArith Bool.
From Verif Require Import Base Mir MirSpec MirScopeSpec MirNormSpec MirEnv MirExamples MirTypeCheck MirTypeSpec
  MirTypeProofs MirTypeExamples.
Import ListNotations.
Local Open Scope string_scope.

(** Whatever the outside does and however long it runs, a module that the
    checker accepts never does anything without a meaning ([Wrong]: an operation
    on a value of another kind, a missing variable, field or alternative), and
    it hands to the outside only values of the declared types.
    Missing: environments, exhaustive cases and the name of the fallback
    function, which the checker does not check; see the counterexamples. *)
Theorem accepted_modules_do_not_go_wrong_partial md w m n sc :
  type_check m = true -> well_built m ->
  environments_right md m -> cases_have_default m -> fallback_not_hidden m ->
  match run md w m n sc with
  | Done _ st | Timeout st | Bad st => Forall (event_fits m) (s_log st)
  | Return _ _ | Wrong => False
  end.
Proof. intros. apply type_check_sound; assumption. Qed.
Print Assumptions accepted_modules_do_not_go_wrong_partial.

(** A function returns a value of its declared result type. *)
Theorem accepted_functions_return_their_type_partial md w m n sc g d args st :
  type_check m = true -> well_built m ->
  environments_right md m -> cases_have_default m -> fallback_not_hidden m ->
  find_def (m_defs m) g = Some d ->
  run md w m n (sc ++ [(ByName g, args)])%list = Done tt st ->
  exists log v, s_log st = (log ++ [EvResult v])%list /\ has_type m v (f_result d).
Proof. intros. eapply type_check_result; eassumption. Qed.
Print Assumptions accepted_functions_return_their_type_partial.

(** Environment inference gives the environments. *)
Theorem inferred_environments_right m : environments_right Declared (infer_module m).
Proof. exact (inferred_right m). Qed.
Print Assumptions inferred_environments_right.

Example accepted_modules_example :
  (type_check typed_example = true /\
   (well_built typed_example /\ cases_have_default typed_example /\ fallback_not_hidden typed_example) /\
   environments_right Lexical typed_example) /\
  (let m := infer_module typed_example in
   type_check m = true /\ (well_built m /\ cases_have_default m /\ fallback_not_hidden m) /\
   environments_right Declared m /\
   shown (run Declared (reader (TmVariant TNumber (TmNumber 3)) TmNone []) m 12 example_script) =
   Some [ObCall (FName "read") [ObNumber 5]; ObCall (FName "print") [ObBytes "a"];
         ObResult (ObVariant TNumber (ObNumber 5))] /\
   shown (run Declared (reader (TmVariant TBoolean (TmBool true)) TmNone [(ByKnown 1, [TmNumber 2])]) m 12 example_script) =
   Some [ObCall (FName "read") [ObNumber 5]; ObCall (FName "apply") [ObFunction];
         ObCall (FName "print") [ObBytes "a"]; ObResult (ObNumber 5);
         ObResult (ObVariant TNumber (ObNumber 1))] /\
   shown (run Declared (reader (TmVariant (TRecord "pair") (TmRecord "pair" [TmNumber 9; TmBytes "q"])) TmNone [])
            m 12 example_script) =
   Some [ObCall (FName "read") [ObNumber 5]; ObResult (ObVariant TNumber (ObNumber 9))]).
Proof.
  split.
  - split; [vm_compute; reflexivity|]. split; [apply built_spec; vm_compute; reflexivity|].
    apply bare_right. vm_compute. reflexivity.
  - cbv zeta. split; [vm_compute; reflexivity|]. split; [apply built_spec; vm_compute; reflexivity|].
    split; [apply inferred_right|]. split; [vm_compute; reflexivity|].
    split; vm_compute; reflexivity.
Qed.

(** The checker accepts modules that go wrong: a case expression without an
    alternative for the value it gets, *)
Theorem missing_alternative_refuted : exists m w n sc,
  type_check m = true /\ well_built m /\ environments_right Lexical m /\ fallback_not_hidden m /\
  run Lexical w m n sc = Wrong.
Proof.
  exists missing_alternative, integers, 2, bool_script.
  split; [vm_compute; reflexivity|]. split; [split; [|split]|split; [|split]].
  - intros g t [].
  - intros d [<-|[<-|[]]]; (split; [reflexivity|discriminate]).
  - intros g d e [<-|[<-|[]]] W; apply MirRcExamples.within_parts in W; cbn in W; intuition discriminate.
  - apply bare_right. vm_compute. reflexivity.
  - intros g [<-|[<-|[]]]; cbn; intuition discriminate.
  - vm_compute. reflexivity.
Qed.
Print Assumptions missing_alternative_refuted.

(** a local function whose environment lacks a variable or gives it another
    type, *)
Theorem missing_environment_refuted : exists m w n sc,
  type_check m = true /\ (well_built m /\ cases_have_default m /\ fallback_not_hidden m) /\
  run Declared w m n sc = Wrong.
Proof.
  exists missing_environment, integers, 3, bool_script.
  split; [vm_compute; reflexivity|]. split; [apply built_spec; vm_compute; reflexivity|].
  vm_compute. reflexivity.
Qed.
Print Assumptions missing_environment_refuted.

Theorem wrong_environment_refuted : exists m w n sc,
  type_check m = true /\ (well_built m /\ cases_have_default m /\ fallback_not_hidden m) /\
  run Declared w m n sc = Wrong.
Proof.
  exists wrong_environment, integers, 3, bool_script.
  split; [vm_compute; reflexivity|]. split; [apply built_spec; vm_compute; reflexivity|].
  vm_compute. reflexivity.
Qed.
Print Assumptions wrong_environment_refuted.

(** and a local variable with the name of the fallback type information
    function, whose type the checker gives to the function. *)
Theorem hidden_fallback_refuted : exists m w n sc,
  type_check m = true /\ well_built m /\ environments_right Lexical m /\ cases_have_default m /\
  run Lexical w m n sc = Wrong.
Proof.
  exists hidden_fallback, integers, 3, bool_script.
  split; [vm_compute; reflexivity|]. split; [split; [|split]|split; [|split]].
  - intros g t [].
  - intros d [<-|[<-|[]]]; (split; [reflexivity|discriminate]).
  - intros g d e [<-|[<-|[]]] W; apply MirRcExamples.within_parts in W; cbn in W; intuition discriminate.
  - apply bare_right. vm_compute. reflexivity.
  - intros g a alts [<-|[<-|[]]] W; apply MirRcExamples.within_parts in W; cbn in W; intuition discriminate.
  - vm_compute. reflexivity.
Qed.
Print Assumptions hidden_fallback_refuted.
