(** C68: from a source text to its run.

    The front end ([compile_text]: parsing, translation of syntax and name
    resolution), analysis and the translation to MIR in a row: what the
    theorems of [PropsMeaning] and [PropsSafe] say of programs holds of texts.
    The hypotheses are those of [PropsMeaning] and [PropsSafe], but for those that
    hold of all texts: the program has no annotations, conversions or thunks and
    gives no field of a record twice. *)
From Coq Require Import String Ascii List ZArith Bool Lia Arith.
From Verif Require Import Base Mir MirFuel HirType HirTypeSpec HirTypeEq HirTypeSub HirTypeModule Hir HirSpec HirValidate HirMir HirProgram LowerSpec LowerTag LowerTypeSpec
  LowerProgramSpec LowerTypeBase LowerCompleteSpec LowerSource LowerFits LowerSearchFits RunSpec HirMeaning HirForever MeaningSpec MeaningRun LowerMeaning
  MeaningProgramSpec MeaningProgram MeaningForever SafeSpec SafeProofs SafeProgram Ast Resolve Desugar CrashSourceSpec PropsHir PropsLower PropsLowerType PropsMeaning PropsSafe PropsCrashSource.
Import ListNotations.
Local Open Scope string_scope.
Local Open Scope list_scope.

(** The text [s] is accepted and compiled to the MIR module [M]; [q] is the
    analyzed program. *)
Record text_compiled (f : string -> string) (n k : nat) (C : config) (read_float : string -> res Z) (prefix : string) (interfaces : apath -> option interface)
    (prelude : list interface) (s : string) (q : program) (M : mmodule) (w : world) (outer : list (string * list hvalue) -> string -> list hvalue -> hvalue -> Prop) : Prop := TextCompiled {
  tc_interfaces : forall p i, interfaces p = Some i -> open_interface i;
  tc_prelude : forall i, In i prelude -> open_interface i;
  tc_compiled : exists m, compile_text read_float prefix interfaces prelude s = Ok m /\
    analyze_program n (module_program m) = Ok q /\ compile_program n k C (module_program m) = Ok M /\
    program_fits f C (module_program m) /\ apart_module (program_hir (module_program m)) /\ own_types (module_program m);
  tc_config : config_fits C;
  tc_searchable : searchable C q M;
  tc_answers : answers f n C q M w outer
}.

(** A call of a function of the text on plain data that ends with plain data:
    compiled code ends with the same and calls the same functions of the outside.
    Missing for the full statement: what [PropsMeaning] says is missing. *)
Theorem text_runs_as_it_says_partial : forall f n k C read_float prefix interfaces prelude s q M w outer,
  text_compiled f n k C read_float prefix interfaces prelude s q M w outer ->
  forall g us v s' vs v', applies (program_env q) (defined_records q) (program_hir q) w outer (HState [] []) (UGlobal g) us v s' ->
  Forall2 plain us vs -> plain v v' ->
  exists st', runs w M (State [] [] []) (VGlobal g) vs v' st' /\
    Forall2 (fun c e => exists ws, e = EvCall (FName (fst c)) ws /\ Forall2 (at_run_time f n C q M) (snd c) ws)
      (calls s') (filter (visible C) (s_log st')).
Proof.
  intros f n k C rf prefix is prelude s q M w outer [O1 O2 (m & Hm & Hq & H & PF & A & Own) CF SB An].
  exact (compiled_program_gives_same_data_partial f n k C _ q M w outer H Hq CF PF (source_is_raw rf prefix is prelude s m O1 O2 Hm) A SB Own (source_gives_fields_once rf prefix is prelude s m O1 O2 Hm) An).
Qed.
Print Assumptions text_runs_as_it_says_partial.

(** Compiled code of a text, called with values of the argument types, ends with a
    value of the result type or has to be stopped: it does not go wrong.
    Missing for the full statement: what [PropsSafe] says is missing. *)
Theorem text_does_not_go_wrong_partial : forall f n k C read_float prefix interfaces prelude s q M w outer,
  text_compiled f n k C read_float prefix interfaces prelude s q M w outer ->
  covered_program q -> declares_functions q -> answers_typed q outer ->
  forall ts r g us s, defined (program_env q) (TFunction ts r) -> has_type q (TFunction ts r) g -> Forall2 (has_type q) ts us -> sound_state q s ->
  forall st g' vs, state_at_run_time f n C q M s st -> at_run_time f n C q M g g' -> Forall2 (at_run_time f n C q M) us vs ->
  forall d,
    (exists v s' v' st', call Lexical w M d st g' vs = Done v' st' /\
       has_type q r v /\ at_run_time f n C q M v v' /\ sound_state q s' /\ state_at_run_time f n C q M s' st') \/
    (exists st', call Lexical w M d st g' vs = Timeout st').
Proof.
  intros f n k C rf prefix is prelude s q M w outer [O1 O2 (m & Hm & Hq & H & PF & A & Own) CF SB An].
  exact (compiled_programs_do_not_go_wrong_partial f n k C _ q M w outer H Hq CF PF (source_is_raw rf prefix is prelude s m O1 O2 Hm) A SB Own (source_gives_fields_once rf prefix is prelude s m O1 O2 Hm) An).
Qed.
Print Assumptions text_does_not_go_wrong_partial.

(** ** An example *)
Definition sum_text : string := String.concat (String (Ascii.ascii_of_nat 10) "")
  ["type p { X number }";
   "adder = \(r p) \(number) number { \(y number) number { y + r.X } }";
   "Main = \(x number) number {";
   "f = adder(p{X: x})";
   "f(x) }"].
Definition sum_original (x : string) : string := if prefix "/sum.pen:" x then substring 9 (String.length x) x else x.
Definition sum_compiled : res rmodule := compile_text (fun _ => reject "") "/sum.pen:" (fun _ => None) [prelude_interface] sum_text.
Definition sum_module : rmodule := Eval vm_compute in match sum_compiled with Ok m => m | _ => RModule [] [] [] [] [] end.
Lemma sum_source : sum_compiled = Ok sum_module.
Proof. vm_compute. reflexivity. Qed.
Definition sum_program : program := module_program sum_module.
Definition sum_analyzed : program := Eval vm_compute in match analyze_program 30 sum_program with Ok q => q | _ => sum_program end.
Example sum_analysis : analyze_program 30 sum_program = Ok sum_analyzed.
Proof. vm_compute. reflexivity. Qed.
Definition no_outer (_ : list (string * list hvalue)) (_ : string) (_ : list hvalue) (_ : hvalue) : Prop := False.

Lemma sum_answers f n M : outer_only M "prelude:EqualStrings" (Mir.TFunction [TByteString; TByteString] Mir.TBoolean) = true ->
  answers f n word_config sum_analyzed M calc_world no_outer.
Proof.
  intros H1. constructor.
  - intros s st a b (S1 & S2 & S3). eexists. split.
    + apply (outer_runs M _ _ _ _ _ (TmBool (String.eqb a b)) _ H1); [reflexivity| |left; eauto]. rewrite map_app. unfold calc_answer. rewrite rev_app_distr. reflexivity.
    + split; [|split; [exact S2|exact S3]]. cbn [log_event s_log]. rewrite filter_app. cbn [filter visible]. rewrite app_nil_r. exact S1.
  - intros s st g us v vs _ _ [].
Qed.

Lemma sum_meets : exists M, text_compiled sum_original 30 60 word_config (fun _ => reject "") "/sum.pen:" (fun _ => None) [prelude_interface] sum_text sum_analyzed M calc_world no_outer.
Proof.
  destruct (compiled_ok (fun M => found sum_program M && outer_only M "prelude:EqualStrings" (Mir.TFunction [TByteString; TByteString] Mir.TBoolean)) sum_program) as (M & H & Hc); [vm_compute; reflexivity|].
  apply andb_true_iff in Hc. destruct Hc as [Hf Ho]. exists M. split.
  - discriminate.
  - apply source_example.
  - exists sum_module. split; [exact sum_source|]. split; [exact sum_analysis|]. split; [exact H|].
    split; [apply (fits_as_ok sum_original word_config sum_program 20 word_config_fits); vm_compute; reflexivity|]. split; [apply apart_decided; reflexivity|].
    intros t r Ht Hr. apply program_types_ok in Ht.
    assert (Q : forallb (fun t => forallb (fun r => negb (prefix "hir:" r)) (record_names t)) (program_types sum_program) = true) by (vm_compute; reflexivity).
    rewrite forallb_forall in Q. apply Q in Ht. rewrite forallb_forall in Ht. apply Ht in Hr. destruct (prefix "hir:" r); [discriminate|reflexivity].
  - exact word_config_fits.
  - exact (proj1 (found_ok sum_program M Hf) _ sum_analysis).
  - exact (sum_answers _ _ M Ho).
Qed.

(** [Main(x)] is [x + x], in the text and in its compiled code. *)
Notation sum_applies := (applies (program_env sum_analyzed) (defined_records sum_analyzed) (program_hir sum_analyzed) calc_world no_outer).
Example sum_main z : sum_applies (HState [] []) (UGlobal "/sum.pen:Main") [UNumber z] (UNumber (z + z)) (HState [] []).
Proof.
  eapply (ap_function _ _ _ _ _ _ _ _ _ (Gives _)); [reflexivity|discriminate|reflexivity|].
  eapply ev_let.
  { one. eapply ev_call; [discriminate|apply teq_refl|reflexivity|eapply evs_cons; [function|one]|].
    - change [("X", UNumber z)] with (combine ["X"] [UNumber z]). eapply (ev_record _ _ _ _ _ _ _ _ _ _ [("X", _)]); [apply teq_alias; reflexivity|]. one. variable.
    - eapply (ap_function _ _ _ _ _ _ _ _ _ (Gives _)); [reflexivity|discriminate|reflexivity|]. apply ev_lambda. }
  eapply ev_call; [discriminate|apply teq_refl|reflexivity|eapply evs_cons; [variable|one; variable]|].
  eapply (ap_closure _ _ _ _ _ _ _ _ _ _ (Gives _)); [reflexivity|]. eapply ev_binary; [|apply (b_add calc_world z z)].
  eapply evs_cons; [variable|]. one. eapply ev_field; [apply teq_alias; reflexivity|one; variable|reflexivity].
Qed.
Example sum_runs : exists M, text_compiled sum_original 30 60 word_config (fun _ => reject "") "/sum.pen:" (fun _ => None) [prelude_interface] sum_text sum_analyzed M calc_world no_outer /\
  forall z, exists st, runs calc_world M (State [] [] []) (VGlobal "/sum.pen:Main") [VNumber z] (VNumber (z + z)) st.
Proof.
  destruct sum_meets as (M & H). exists M. split; [exact H|]. intros z.
  destruct (text_runs_as_it_says_partial _ _ _ _ _ _ _ _ _ _ _ _ _ H _ _ _ _ [VNumber z] (VNumber (z + z)) (sum_main z)) as (st & R & _); [repeat constructor|constructor|]. exists st. exact R.
Qed.

(** The text meets the hypotheses of the second theorem too. *)
Definition sum_other (e : hexpr) : bool :=
  match e with HVariable x => negb (existsb (String.eqb x) ["/sum.pen:adder"; "r"; "y"; "x"; "f"]) | _ => false end.
Definition sum_uncovered (e : hexpr) : bool :=
  match e with
  | HIfList _ _ _ _ _ _ | HIfMap _ _ _ _ _ _ _ | HList _ _ | HComprehension _ _ _ | HMap _ _ _ | HThunk _ _ | HTry _ _ => true
  | HCall _ (HBuiltIn _) _ | HBinary (BinEquality _ _) _ _ => true
  | _ => false
  end.
Example sum_safe : covered_program sum_analyzed /\ declares_functions sum_analyzed /\ answers_typed sum_analyzed no_outer /\
  defined (program_env sum_analyzed) (TFunction [TNumber] TNumber) /\ has_type sum_analyzed (TFunction [TNumber] TNumber) (UGlobal "/sum.pen:Main") /\
  (forall z, Forall2 (has_type sum_analyzed) [TNumber] [UNumber z]) /\ sound_state sum_analyzed (HState [] []).
Proof.
  split; [|split; [|split; [|split; [intros x []|split; [|split]]]]].
  - intros x l e Hx He.
    assert (Q : forallb (fun d => nowhere 20 sum_uncovered (l_body (snd d))) (p_defs sum_analyzed) = true) by (vm_compute; reflexivity).
    rewrite forallb_forall in Q. apply Q in Hx. apply (nowhere_ok _ _ _ _ Hx) in He.
    destruct e as [| |t g args| | | | | | | | | | | |o l1 r1| |t e| | | | | | |]; cbn [sum_uncovered covered] in *; try exact I; try discriminate.
    + destruct g; try exact I. discriminate.
    + destruct o as [?|?|?|? ?|?]; try exact I. discriminate.
  - intros x t Hx. assert (Q : forallb (fun d : string * ty => match snd d with TFunction _ _ => true | _ => false end) (p_declared sum_analyzed ++ p_foreign sum_analyzed) = true) by (vm_compute; reflexivity).
    rewrite forallb_forall in Q. apply Q in Hx. cbn [snd] in Hx. destruct t; try discriminate Hx. eauto.
  - intros cs g t ts r us (x & l & Hx & Ho) N L Q Vs. exfalso.
    assert (K : forallb (fun d => nowhere 20 sum_other (l_body (snd d))) (p_defs sum_analyzed) = true) by (vm_compute; reflexivity).
    rewrite forallb_forall in K. apply K in Hx. apply (nowhere_ok _ _ _ _ Hx) in Ho. cbn [sum_other] in Ho. apply negb_false_iff, existsb_exists in Ho. destruct Ho as (y & Hy & E1). apply String.eqb_eq in E1. subst y.
    assert (Z : forallb (fun y => match lookup (h_defs (program_hir sum_analyzed)) y, lookup (h_declared (program_hir sum_analyzed)) y with
      | None, Some _ => false | _, _ => true end) ["/sum.pen:adder"; "r"; "y"; "x"; "f"] = true) by (vm_compute; reflexivity).
    rewrite forallb_forall in Z. apply Z in Hy. rewrite N, L in Hy. discriminate Hy.
  - eapply of_function; [left; intros Z; discriminate Z|apply teq_refl|reflexivity|apply teq_refl].
  - intros z. repeat constructor.
  - intros g l u _ H. discriminate H.
Qed.
