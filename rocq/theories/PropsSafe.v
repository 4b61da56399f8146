(** C66: accepted programs do not go wrong.

    From [SafeSpec]: [has_type] (values of types), [sound_state], [answers_typed]
    (functions of the outside answer with values of their types),
    [covered_program] (the kinds of expressions that [HirMeaning] gives a
    meaning), [goes_deep].  From [HirMeaning]: [applies].  The hypotheses about
    compiled programs are those of [PropsMeaning]. *)
From Coq Require Import String Ascii List ZArith Bool Lia Arith.
From Verif Require Import Base Mir MirFuel HirType HirTypeSpec HirTypeEq HirTypeSub HirTypeModule Hir HirSpec HirValidate HirMir HirProgram LowerSpec LowerTag LowerTypeSpec
  LowerProgramSpec LowerTypeBase LowerCompleteSpec LowerSource LowerFits LowerSearchFits RunSpec HirMeaning HirForever MeaningSpec MeaningRun LowerMeaning
  MeaningProgramSpec MeaningProgram MeaningForever SafeSpec SafeProofs SafeProgram PropsHir PropsLower PropsLowerType PropsMeaning.
Import ListNotations.
Local Open Scope string_scope.
Local Open Scope list_scope.

(** ** Source programs *)
(** A call of a function of an accepted program on values of its argument types
    ends with a value of its result type, or calls are nested in it as deep as
    one likes.  So evaluation never gets stuck: no operation is applied to values
    it is not defined for, no branch is missing, and no function is called with
    other arguments than it takes.

    Missing for the full statement: lists, maps, most built-in functions,
    comparison at the type none, of lists, maps, functions and records of other
    modules, and [?] on values of the type any, which [HirMeaning] gives no meaning;
    and programs that [program_fits] leaves out. *)
Theorem accepted_programs_do_not_go_wrong_partial : forall f n C p q w outer,
  analyze_program n p = Ok q ->
  program_fits f C p -> raw_program p -> apart_module (program_hir p) ->
  covered_program q -> declares_functions q -> answers_typed q outer ->
  forall ts r g us s, defined (program_env q) (TFunction ts r) -> has_type q (TFunction ts r) g -> Forall2 (has_type q) ts us -> sound_state q s ->
  forall d, (exists v s', applies (program_env q) (defined_records q) (program_hir q) w outer s g us v s' /\ has_type q r v /\ sound_state q s') \/
    goes_deep q w outer d s g us.
Proof. intros f n C p q w outer Hq PF Raw A Cov Fun An ts r g us s D V Vs St d. eapply accepted_safe; eassumption. Qed.
Print Assumptions accepted_programs_do_not_go_wrong_partial.

(** ** Compiled programs *)
(** [call Lexical w M d] is a call at run time, stopped when calls are nested
    deeper than [d]; a call that goes wrong is [Stuck].  Compiled code of an
    accepted program, called with values of the argument types, ends with a value
    of the result type or has to be stopped.  Missing: as above. *)
Theorem compiled_programs_do_not_go_wrong_partial : forall f n k C p q M w outer,
  compile_program n k C p = Ok M -> analyze_program n p = Ok q ->
  config_fits C -> program_fits f C p -> raw_program p -> apart_module (program_hir p) -> searchable C q M ->
  own_types p -> fields_once p -> answers f n C q M w outer ->
  covered_program q -> declares_functions q -> answers_typed q outer ->
  forall ts r g us s, defined (program_env q) (TFunction ts r) -> has_type q (TFunction ts r) g -> Forall2 (has_type q) ts us -> sound_state q s ->
  forall st g' vs, state_at_run_time f n C q M s st -> at_run_time f n C q M g g' -> Forall2 (at_run_time f n C q M) us vs ->
  forall d,
    (exists v s' v' st', call Lexical w M d st g' vs = Done v' st' /\
       has_type q r v /\ at_run_time f n C q M v v' /\ sound_state q s' /\ state_at_run_time f n C q M s' st') \/
    (exists st', call Lexical w M d st g' vs = Timeout st').
Proof.
  intros f n k C p q M w outer H Hq CF PF Raw A SB Own Once An Cov Fun Ans ts r g us s D V Vs St st g' vs Hs Hg Hu d.
  destruct (accepted_safe f n C p q w outer Hq PF Raw A Cov Fun Ans d ts r g us s D V Vs St) as [(v & s' & Ha & Hv & Hs')|(b & En & N)].
  - destruct (compiled_program_keeps_meaning_partial f n k C p q M w outer H Hq CF PF Raw A SB Own Once An s g us v s' Ha st g' vs Hs Hg Hu) as (v' & st' & Hr & R1 & R2).
    destruct (runs_or_stops _ _ _ _ _ _ _ d Hr) as [Hd|Hd]; [|right; exact Hd]. left. exists v, s', v', st'. auto.
  - right. pose proof (program_compiled_from f n k C p q M w outer H Hq CF PF Raw A SB Own Once An) as HC. eapply nested_runs; eassumption.
Qed.
Print Assumptions compiled_programs_do_not_go_wrong_partial.

(** ** A program that meets the hypotheses *)
Definition maybe_uncovered (e : hexpr) : bool :=
  match e with
  | HIfList _ _ _ _ _ _ | HIfMap _ _ _ _ _ _ _ | HList _ _ | HComprehension _ _ _ | HMap _ _ _ | HThunk _ _ => true
  | HCall _ (HBuiltIn b) _ => match b with BError | BSource => false | _ => true end
  | HBinary (BinEquality (Some t) _) _ _ =>
      match t with TUnion TString TString => false | TUnion (TReference a) (TReference b) => negb (String.eqb a "p" && String.eqb b "p") | _ => true end
  | HTry (Some t) _ => match t with TNumber => false | _ => true end
  | _ => false
  end.

Lemma calc_alternative t b : alt (program_env calc_analyzed) t b ->
  (t = TNumber -> b = TNumber) /\ (t = TString -> b = TString) /\ (t = TUnion TString TString -> b = TString) /\ (t = TUnion TNumber TString -> b = TNumber \/ b = TString) /\
  (t = TRecord "p" "p" -> b = TRecord "p" "p") /\ (t = TReference "p" -> b = TRecord "p" "p") /\ (t = TUnion (TReference "p") (TReference "p") -> b = TRecord "p" "p").
Proof.
  induction 1 as [x t a L _ IH|l r a _ IH|l r a _ IH|t N1 N2]; repeat split; intros Q; try discriminate; try (injection Q as -> ->); try tauto; try congruence.
  - injection Q as ->. vm_compute in L. injection L as <-. tauto.
Qed.

Definition calc_compared (t : ty) : Prop :=
  In t [TNumber; TUnion TString TString; TUnion TNumber TString; TUnion (TReference "p") (TReference "p")].

Lemma calc_simple : simple_types (program_env calc_analyzed) (defined_records calc_analyzed) calc_compared.
Proof.
  intros t Ht.
  assert (K : forall b, alt (program_env calc_analyzed) t b -> b = TNumber \/ b = TString \/ b = TRecord "p" "p").
  { intros b Hb. apply calc_alternative in Hb. cbn in Ht. intuition subst; intuition. }
  split; [|split].
  - intros x Hx. repeat (destruct Ht as [<-|Ht]; [cbn in Hx; repeat (destruct Hx as [<-|Hx]; [vm_compute; discriminate|]); destruct Hx|]). destruct Ht.
  - intros (b & Hb & Q). apply K in Hb as [-> | [-> | ->]]; revert Q; apply calc_differ; try reflexivity; discriminate.
  - intros a _ (b & Hb & Q). apply teq_sym in Q. apply K in Hb as [-> | [-> | ->]]; [tauto|tauto|]. do 4 right. exists "p", "p", (td_fields (t_def point)). split; [exact Q|]. split; [reflexivity|].
    intros x ft [Hx|[Hx|[]]]; injection Hx as <- <-; cbn; tauto.
Qed.

Lemma calc_covered : covered_program calc_analyzed.
Proof.
  intros x l e Hx He.
  assert (Q : forallb (fun d => nowhere 20 maybe_uncovered (l_body (snd d))) (p_defs calc_analyzed) = true) by (vm_compute; reflexivity).
  rewrite forallb_forall in Q. apply Q in Hx. apply (nowhere_ok _ _ _ _ Hx) in He.
  destruct e as [| |t g args| | | | | | | | | | | |o l1 r1| |t e| | | | | | |]; cbn [maybe_uncovered covered] in *; try exact I; try discriminate.
  - destruct g; try exact I. destruct f; try discriminate; tauto.
  - destruct o as [?|?|?|[t|] ?|?]; try exact I. split; [|exists calc_compared; split; [exact calc_simple|]].
    + destruct t as [| | | | | | | | | | |[| | | | | | | | | | |] [| | | | | | | | | | |]]; try discriminate.
      * apply negb_false_iff, andb_true_iff in He as [H1 H2]. apply String.eqb_eq in H1, H2. subst. right. right. right. left. exists "p", "p". split; [exact calc_point_type|discriminate].
      * right. right. left. apply teq_idem.
    + destruct t as [| | | | | | | | | | |[| | | | | | | | | | |] [| | | | | | | | | | |]]; try discriminate; [|cbn; tauto].
      apply negb_false_iff, andb_true_iff in He as [H1 H2]. apply String.eqb_eq in H1, H2. subst. cbn. tauto.
  - destruct t as [t|]; [|exact I]. destruct t; try discriminate. apply (calc_simple TNumber). cbn. tauto.
Qed.

Definition other_name (e : hexpr) : bool :=
  match e with HVariable x => negb (existsb (String.eqb x) ["ask"; "half"; "twice"; "s"; "g"; "a"; "v"; "r"; "b"]) | _ => false end.

Lemma calc_answers_typed : answers_typed calc_analyzed calc_outer.
Proof.
  destruct calc_meets as (M & _ & Hq & _ & F & _ & _). assert (W : wf (fun x => x) (program_env calc_analyzed)) by apply (pf_context _ _ _ F).
  intros cs g t ts r us (x & l & Hx & Ho) N L Q Vs.
  assert (K : forallb (fun d => nowhere 20 other_name (l_body (snd d))) (p_defs calc_analyzed) = true) by (vm_compute; reflexivity).
  rewrite forallb_forall in K. apply K in Hx. apply (nowhere_ok _ _ _ _ Hx) in Ho. cbn [other_name] in Ho. apply negb_false_iff, existsb_exists in Ho. destruct Ho as (y & Hy & E1). apply String.eqb_eq in E1. subst y.
  assert (Z : forallb (fun y => match lookup (h_defs (program_hir calc_analyzed)) y, lookup (h_declared (program_hir calc_analyzed)) y with
    | None, Some _ => String.eqb y "ask" | _, _ => true end) ["ask"; "half"; "twice"; "s"; "g"; "a"; "v"; "r"; "b"] = true) by (vm_compute; reflexivity).
  rewrite forallb_forall in Z. apply Z in Hy. rewrite N, L in Hy. apply String.eqb_eq in Hy. subst g.
  assert (La : lookup (h_declared (program_hir calc_analyzed)) "ask" = Some (TFunction [TString] TNumber)) by (vm_compute; reflexivity).
  rewrite La in L. injection L as <-. clear La N K Z.
  assert (D : defined (program_env calc_analyzed) (TFunction [TString] TNumber)) by (intros z []).
  destruct (function_parts _ _ W _ _ _ _ Q D) as [Qa Qr]. inversion Qa as [|? t0 ? ts0 Q1 Q2]; subst. inversion Q2; subst. inversion Vs as [|? u ? us0 V1 V2]; subst. inversion V2; subst.
  apply (value_teq _ _ _ _ _ W t0 TString) in V1; [|eapply (defined_teq _ _ W); [exact Q1|intros z []]|apply teq_sym, Q1].
  apply (string_is _ _ _ _ _ W) in V1 as (z & ->). exists (UNumber (Z.of_nat (String.length z))). split; [split; [reflexivity|eauto]|]. apply of_number, teq_sym, Qr.
Qed.

Example calc_safe : exists M,
  compile_program 30 60 word_config calc = Ok M /\ analyze_program 30 calc = Ok calc_analyzed /\
  config_fits word_config /\ program_fits (fun x => x) word_config calc /\ raw_program calc /\ apart_module (program_hir calc) /\
  searchable word_config calc_analyzed M /\ own_types calc /\ fields_once calc /\
  answers (fun x => x) 30 word_config calc_analyzed M calc_world calc_outer /\
  covered_program calc_analyzed /\ declares_functions calc_analyzed /\ answers_typed calc_analyzed calc_outer /\
  defined (program_env calc_analyzed) (TFunction [TString] (TUnion TNumber TError)) /\
  has_type calc_analyzed (TFunction [TString] (TUnion TNumber TError)) (UGlobal "main") /\
  (forall a, Forall2 (has_type calc_analyzed) [TString] [UString a]) /\ sound_state calc_analyzed (HState [] []).
Proof.
  destruct calc_meets as (M & H1 & H2 & H3 & H4 & H5 & H6 & H7 & H8 & H9 & H10). exists M. repeat (split; [assumption|]).
  split; [exact calc_covered|]. split; [|split; [exact calc_answers_typed|split; [intros x []|split; [|split]]]].
  - intros x t Hx. assert (Q : forallb (fun d : string * ty => match snd d with TFunction _ _ => true | _ => false end) (p_declared calc_analyzed ++ p_foreign calc_analyzed) = true) by (vm_compute; reflexivity).
    rewrite forallb_forall in Q. apply Q in Hx. cbn [snd] in Hx. destruct t; try discriminate Hx. eauto.
  - eapply of_function; [left; intros Z; discriminate Z|apply teq_refl|reflexivity|apply teq_refl].
  - intros a. repeat constructor.
  - intros g l u _ H. discriminate H.
Qed.

(** So [main], called with any string, gives a number or an error at run time, or
    has to be stopped. *)
Example calc_never_stuck : exists M, compile_program 30 60 word_config calc = Ok M /\ forall a d,
  (exists v v' st', call Lexical calc_world M d (State [] [] []) (VGlobal "main") [VBytes a] = Done v' st' /\
     has_type calc_analyzed (TUnion TNumber TError) v /\ at_run_time (fun x => x) 30 word_config calc_analyzed M v v') \/
  exists st', call Lexical calc_world M d (State [] [] []) (VGlobal "main") [VBytes a] = Timeout st'.
Proof.
  destruct calc_safe as (M & H1 & H2 & H3 & H4 & H5 & H6 & H7 & H8 & H9 & H10 & H11 & H12 & H13 & H14 & H15 & H16 & H17). exists M. split; [exact H1|]. intros a d.
  destruct (compiled_programs_do_not_go_wrong_partial _ _ _ _ _ _ _ _ _ H1 H2 H3 H4 H5 H6 H7 H8 H9 H10 H11 H12 H13 _ _ _ _ _ H14 H15 (H16 a) H17 (State [] [] []) (VGlobal "main") [VBytes a]) with (d := d)
    as [(v & s' & v' & st' & A & B & D & _)|A].
  - split; [constructor|]. split; [intros ? ? Z; discriminate Z|reflexivity].
  - constructor.
  - repeat constructor.
  - left. exists v, v', st'. auto.
  - right. exact A.
Qed.
