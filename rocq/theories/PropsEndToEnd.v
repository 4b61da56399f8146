(** C64: the program that is generated for a source program behaves as the source
    says, from analysis through lowering, the passes of the middle end and
    reference counting.

    From [HirMeaning] and [HirForever]: [applies], [never_ends], [reached].  From
    [SessionSpec]: [session] (the outside calls functions of the source program,
    one after another), [asks] (the same calls of the compiled module),
    [seen_as], [plainly], [outward] and [quiet].  [run Declared w M' d sc] is the
    generated program: the outside makes the calls [sc], and [d] bounds how deep
    calls may be nested. *)
From Coq Require Import String Ascii List ZArith Bool Lia Arith.
From Verif Require Import Base Mir MirSpec MirLiftSpec MirPipelineSpec MirPipeline MirRc MirRcSpec MirRcExamples MirExamples MirLiftExamples MirSourceCheck HirType HirTypeSpec HirTypeModule Hir HirSpec HirValidate HirMir HirProgram
  LowerSpec LowerTag LowerTypeSpec LowerProgramSpec LowerCompleteSpec LowerSearchFits RunSpec HirMeaning HirForever MeaningSpec MeaningRun LowerMeaning MeaningProgramSpec MeaningProgram
  SessionSpec SessionProofs MirReadySpec MirReadyNames LowerPlain PropsHir PropsLower PropsLowerType PropsMeaning PropsForever.
Import ListNotations.
Local Open Scope string_scope.
Local Open Scope list_scope.

(** What the theorems assume of the source program [p], the module [M] that it
    is lowered to and the world outside [w] (see [PropsMeaning]), and of the
    generated program [M'] (see [PropsMirPipeline]). *)
Record generated (f : string -> string) (n k : nat) (C : config) (p q : program) (M M' : mmodule) (w : world)
    (outer : list (string * list hvalue) -> string -> list hvalue -> hvalue -> Prop) : Prop := Generated {
  ge_lowered : compile_program n k C p = Ok M;
  ge_analyzed : analyze_program n p = Ok q;
  ge_config : config_fits C;
  ge_fits : program_fits f C p;
  ge_raw : raw_program p;
  ge_apart : apart_module (program_hir p);
  ge_search : searchable C q M;
  ge_own : own_types p;
  ge_once : fields_once p;
  ge_answers : answers f n C q M w outer;
  ge_source : proper_source M;
  ge_thunks : no_closed_thunks (closure_passes M);
  ge_counted : reference_count (middle_end M) = Some M'
}.

(** If the source program says that the calls of a session end, the generated
    program ends them too.  It shows the same calls and results in the same
    order.

    Missing for the full statement: what is missing in C63 and C26, functions and
    records in the arguments of the session, and outsides that call the program
    while they answer. *)
Theorem executable_session_partial : forall f n k C p q M M' w outer, generated f n k C p q M M' w outer -> quiet w ->
  forall requests out s' sc, session q w outer (HState [] []) requests out s' -> Forall2 (asks M) requests sc ->
  exists N, forall d, N <= d -> exists st, run Declared w M' d sc = Done tt st /\
    Forall2 (seen_as f n C q M) out (filter (outward C) (observe_log st)).
Proof.
  intros f n k C p q M M' w outer [H Hq CF PF Raw A SB Own Once An Hs Ht Hr] Q requests out s' sc Hses Hsc.
  destruct (session_runs f n k C p q M w outer H Hq CF PF Raw A SB Own Once An Q _ _ _ _ Hses sc initial (start_holds f n C q M) Hsc)
    as (N & st2 & L & R & _ & EL & F).
  exists N. intros d Hd. pose proof (back_end_refines M M' Hs Ht Hr w d sc) as B.
  specialize (R d [] Hd). rewrite app_nil_r in R. unfold run in B at 1. rewrite R in B. cbn [run_script] in B.
  destruct B as (st & B1 & B2). exists st. split; [exact B1|]. rewrite B2. unfold observe_log. rewrite EL. exact F.
Qed.
Print Assumptions executable_session_partial.

(** If the data shown is plain, what the outside sees is known exactly. *)
Theorem executable_shows_same_data_partial : forall f n k C p q M M' w outer, generated f n k C p q M M' w outer -> quiet w ->
  forall requests out s' sc es, session q w outer (HState [] []) requests out s' -> Forall2 (asks M) requests sc -> Forall2 plainly out es ->
  exists N, forall d, N <= d -> exists st, run Declared w M' d sc = Done tt st /\ filter (outward C) (observe_log st) = es.
Proof.
  intros f n k C p q M M' w outer G Q requests out s' sc es Hses Hsc Hes.
  destruct (executable_session_partial _ _ _ _ _ _ _ _ _ _ G Q _ _ _ _ Hses Hsc) as (N & K). exists N. intros d Hd.
  destruct (K d Hd) as (st & R & F). exists st. split; [exact R|].
  destruct G as [H Hq CF PF Raw A SB Own Once An _ _ _].
  pose proof (MeaningSpec.cf_tidy _ _ _ _ _ _ _ _ _ _ _ (program_compiled_from f n k C p q M w outer H Hq CF PF Raw A SB Own Once An)) as Tidy.
  assert (U : forall u v o, plain u v -> looks f n C q M u o -> o = observe v).
  { intros u v o Hp (v' & Hv & <-). apply (plain_unique f n _ _ C _ M Tidy u v Hp) in Hv. subst. reflexivity. }
  revert es Hes F. generalize (filter (outward C) (observe_log st)). clear - U. intros l es Hes. revert l.
  induction Hes as [|x e out es Hx _ IH]; intros l F; inversion F as [|? e' ? l' Hx' F']; subst; [reflexivity|].
  f_equal; [|apply IH; exact F']. destruct x as [[g us]|u]; destruct e as [[g1|] os|o]; destruct e' as [[g2|] os'|o']; cbn in *; try contradiction.
  - destruct Hx as (-> & vs & Hv & ->). destruct Hx' as (-> & Hl). f_equal. clear - U Hv Hl. revert os' Hl.
    induction Hv as [|u v us vs Hu _ IH]; intros os' Hl; inversion Hl as [|? o ? l Ho Hl']; subst; [reflexivity|]. cbn. f_equal; [exact (U _ _ _ Hu Ho)|apply IH; exact Hl'].
  - destruct Hx as (v & Hv & ->). f_equal. exact (U _ _ _ Hv Hx').
Qed.
Print Assumptions executable_shows_same_data_partial.

(** If the last call of a session never ends, the generated program never ends
    it.  The outside sees the calls and results before it, and more and more of
    the calls that the source says it makes, in the same order, and no others. *)
Theorem executable_never_ends_partial : forall f n k C p q M M' w outer, generated f n k C p q M M' w outer -> quiet w ->
  forall requests out s' sc r c at_, session q w outer (HState [] []) requests out s' -> Forall2 (asks M) requests sc ->
  never_ends (program_env q) (defined_records q) (program_hir q) w outer s' (UGlobal (fst r)) (snd r) at_ -> asks M r c ->
  forall i, exists N, forall d, N <= d -> exists st j made more rest,
    run Declared w M' d (sc ++ [c]) = Timeout st /\
    Forall2 (seen_as f n C q M) (out ++ map ShownCall (made ++ more)) (filter (outward C) (observe_log st)) /\
    calls (reached (at_ i)) = calls s' ++ made /\ calls (reached (at_ j)) = calls s' ++ made ++ more ++ rest.
Proof.
  intros f n k C p q M M' w outer [H Hq CF PF Raw A SB Own Once An Hs Ht Hr] Q requests out s' sc r c at_ Hses Hsc Hn Hc i.
  destruct (session_forever f n k C p q M w outer H Hq CF PF Raw A SB Own Once An Q _ _ _ _ _ _ _ Hses Hsc Hn Hc i) as (N & K).
  exists N. intros d Hd. destruct (K d Hd) as (st' & j & made & more & rest & R & F & E1 & E2).
  pose proof (back_end_refines M M' Hs Ht Hr w d (sc ++ [c])) as B. rewrite R in B. destruct B as (st & B1 & B2).
  exists st, j, made, more, rest. rewrite B2. auto.
Qed.
Print Assumptions executable_never_ends_partial.

(** ** Programs that meet the hypotheses *)
Definition takes_string (M : mmodule) (g : string) : bool :=
  match find_def (m_defs M) g, type_of M (VGlobal g) with Some _, Some (Mir.TFunction [TByteString] _) => true | _, _ => false end.
Lemma asks_string M g s : takes_string M g = true -> asks M (g, [UString s]) (ByName g, [TmBytes s]).
Proof.
  unfold takes_string. intros H. split; [reflexivity|]. cbn [fst snd]. destruct (find_def (m_defs M) g); [|discriminate].
  split; [discriminate|]. destruct (type_of M (VGlobal g)) as [[]|]; try discriminate.
  eexists _, _, [VBytes s]. split; [reflexivity|]. split; [repeat constructor|]. intros kn.
  repeat match type of H with context [match ?x with _ => _ end] => destruct x; try discriminate end. reflexivity.
Qed.

Definition thunks_capture (M : mmodule) : bool :=
  forallb (fun g => forallb (fun d => negb (f_thunk d && match f_env d with [] => true | _ => false end)) (local_defs (f_body g))) (m_defs M).
Definition generates (g : string) (M : mmodule) : bool :=
  proper_sourceb M && thunks_capture (closure_passes M) && takes_string M g &&
  match reference_count (middle_end M) with Some _ => true | None => false end.
Lemma generates_ok g M : generates g M = true -> proper_source M /\ no_closed_thunks (closure_passes M) /\
  (forall s, asks M (g, [UString s]) (ByName g, [TmBytes s])) /\ exists M', reference_count (middle_end M) = Some M'.
Proof.
  unfold generates. rewrite !andb_true_iff. intros [[[H1 H2] H3] H4]. split; [apply proper_sourceb_ok; exact H1|].
  split; [apply no_closed_thunks_check; exact H2|]. split; [intros s; apply asks_string; exact H3|].
  destruct (reference_count (middle_end M)) as [M'|]; [eauto|discriminate].
Qed.
Lemma calc_quiet : quiet calc_world.
Proof. intros seen. reflexivity. Qed.

Example calc_generated : exists M M', generated (fun x => x) 30 60 word_config calc calc_analyzed M M' calc_world calc_outer /\
  forall s, asks M ("main", [UString s]) (ByName "main", [TmBytes s]).
Proof.
  destruct calc_meets as (M & H1 & H2 & H3 & H4 & H5 & H6 & H7 & H8 & H9 & H10).
  destruct (compiled_ok (generates "main") calc) as (M0 & H0 & Hg); [vm_compute; reflexivity|].
  rewrite H1 in H0. injection H0 as <-. apply generates_ok in Hg as (G1 & G2 & G3 & M' & G4).
  exists M, M'. split; [constructor; assumption|exact G3].
Qed.

(** The outside calls [main("")], then [main("a")].  The program returns an
    error, then calls [ask("a")] and returns [3]. *)
Example calc_session : exists M M' N, generated (fun x => x) 30 60 word_config calc calc_analyzed M M' calc_world calc_outer /\
  forall d, N <= d -> exists st,
    run Declared calc_world M' d [(ByName "main", [TmBytes ""]); (ByName "main", [TmBytes "a"])] = Done tt st /\
    filter (outward word_config) (observe_log st) =
      [ObResult (ObVariant (Mir.TRecord "hir:error") (ObRecord "hir:error" [ObVariant TByteString (ObBytes "")]));
       ObCall (FName "ask") [ObBytes "a"];
       ObResult (ObVariant Mir.TNumber (ObNumber 3))].
Proof.
  destruct calc_generated as (M & M' & G & A).
  assert (S : session calc_analyzed calc_world calc_outer (HState [] []) [("main", [UString ""]); ("main", [UString "a"])]
    [ShownResult (UTagged TError (UError (UTagged TString (UString "")))); ShownCall ("ask", [UString "a"]); ShownResult (UTagged TNumber (UNumber 3))]
    (HState [("ask", [UString "a"])] [])).
  { apply (session_call _ _ _ _ _ _ _ _ [] _ _ _ calc_error); [reflexivity|].
    apply (session_call _ _ _ _ _ _ _ _ [("ask", [UString "a"])] _ _ _ calc_main); [reflexivity|]. constructor. }
  destruct (executable_shows_same_data_partial _ _ _ _ _ _ _ _ _ _ G calc_quiet _ _ _
    [(ByName "main", [TmBytes ""]); (ByName "main", [TmBytes "a"])]
    [ObResult (ObVariant (Mir.TRecord "hir:error") (ObRecord "hir:error" [ObVariant TByteString (ObBytes "")]));
     ObCall (FName "ask") [ObBytes "a"]; ObResult (ObVariant Mir.TNumber (ObNumber 3))] S) as (N & K).
  - repeat (constructor; [apply A|]). constructor.
  - constructor; [|constructor; [|constructor; [|constructor]]].
    + exists (VVariant (Mir.TRecord "hir:error") (VRecord "hir:error" [VVariant TByteString (VBytes "")])).
      split; [apply plain_tagged; [apply plain_error, plain_tagged; [constructor|cbn; tauto]|cbn; tauto]|reflexivity].
    + split; [reflexivity|]. exists [VBytes "a"]. split; [repeat constructor|reflexivity].
    + exists (VVariant Mir.TNumber (VNumber 3)). split; [apply plain_tagged; [constructor|cbn; tauto]|reflexivity].
  - exists M, M', N. split; [exact G|exact K].
Qed.

(** [loop("a")] calls [ask] as often as one likes. *)
Example spin_session : exists M M', generated (fun x => x) 30 60 word_config spin spin_analyzed M M' calc_world calc_outer /\
  forall i, exists N, forall d, N <= d -> exists st, run Declared calc_world M' d [(ByName "loop", [TmBytes "a"])] = Timeout st /\
    i <= List.length (filter (outward word_config) (observe_log st)).
Proof.
  destruct spin_meets as (M & H1 & H2 & H3 & H4 & H5 & H6 & H7 & H8 & H9 & H10).
  destruct (compiled_ok (generates "loop") spin) as (M0 & H0 & Hg); [vm_compute; reflexivity|].
  rewrite H1 in H0. injection H0 as <-. apply generates_ok in Hg as (G1 & G2 & G3 & M' & G4).
  exists M, M'. assert (G : generated (fun x => x) 30 60 word_config spin spin_analyzed M M' calc_world calc_outer) by (constructor; assumption).
  split; [exact G|]. intros i.
  destruct (executable_never_ends_partial _ _ _ _ _ _ _ _ _ _ G calc_quiet [] [] (HState [] []) [] ("loop", [UString "a"]) (ByName "loop", [TmBytes "a"]) _
    (session_end _ _ _ _) (Forall2_nil _) spin_never_ends (G3 "a") (3 * i)) as (N & K).
  exists N. intros d Hd. destruct (K d Hd) as (st & j & made & more & rest & R & F & E1 & _). exists st. split; [exact R|].
  rewrite (spin_calls i []) in E1. cbn [app calls] in E1. subst made. apply pairs_length in F. rewrite <- F.
  cbn [app]. rewrite map_length, app_length, repeat_length. lia.
Qed.

(** ** Without [proper_source]

    [f = \(x number) number { y = x; x = 2; x + y }] gives [3] for [1]; the
    generated program gives [4]. *)
Definition rebind : program :=
  let base := with_prelude [point] [] [] in
  Program (p_types base) [] [] (p_declared base)
    [("f", Lambda [("x", TNumber)] TNumber
       (HLet (Some "y") None (HVariable "x")
         (HLet (Some "x") None (HNumber 2) (HBinary (BinAddition None) (HVariable "x") (HVariable "y")))))].
Definition rebind_analyzed : program :=
  Program (p_types rebind) [] [] (p_declared rebind)
    [("f", Lambda [("x", TNumber)] TNumber
       (HLet (Some "y") (Some TNumber) (HVariable "x")
         (HLet (Some "x") (Some TNumber) (HNumber 2) (HBinary (BinAddition (Some TNumber)) (HVariable "x") (HVariable "y")))))].
Example rebind_analysis : analyze_program 30 rebind = Ok rebind_analyzed.
Proof. vm_compute. reflexivity. Qed.

Definition gives_number (M : mmodule) (z : Z) : bool :=
  match reference_count (middle_end M) with
  | Some M' => match run Declared calc_world M' 5 [(ByName "f", [TmNumber 1])] with
               | Done tt st => match observe_log st with [ObResult (ObNumber z')] => Z.eqb z' z | _ => false end
               | _ => false
               end
  | None => false
  end.

Theorem executable_rebound_argument_refuted : exists p q M M' st,
  compile_program 30 60 word_config p = Ok M /\ analyze_program 30 p = Ok q /\ reference_count (middle_end M) = Some M' /\
  applies (program_env q) (defined_records q) (program_hir q) calc_world calc_outer (HState [] []) (UGlobal "f") [UNumber 1] (UNumber 3) (HState [] []) /\
  run Declared calc_world M' 5 [(ByName "f", [TmNumber 1])] = Done tt st /\ observe_log st = [ObResult (ObNumber 4)].
Proof.
  destruct (compiled_ok (fun M => gives_number M 4) rebind) as (M & H & Hg); [vm_compute; reflexivity|].
  exists rebind, rebind_analyzed, M. unfold gives_number in Hg.
  destruct (reference_count (middle_end M)) as [M'|]; [|discriminate]. exists M'.
  destruct (run Declared calc_world M' 5 [(ByName "f", [TmNumber 1])]) as [[] st| | | |] eqn:R; [|discriminate Hg..]. exists st.
  split; [exact H|]. split; [exact rebind_analysis|]. split; [reflexivity|]. split.
  - eapply (ap_function _ _ _ _ _ _ _ _ _ (Gives _)); [reflexivity|discriminate|reflexivity|].
    eapply ev_let; [one; variable|]. eapply ev_let; [one; apply ev_number|].
    eapply ev_binary; [|apply (b_add calc_world 2 1)]. eapply evs_cons; [variable|one; variable].
  - split; [reflexivity|]. destruct (observe_log st) as [|[|[]] [|]]; try discriminate Hg. apply Z.eqb_eq in Hg. subst. reflexivity.
Qed.
Print Assumptions executable_rebound_argument_refuted.

(** ** References *)
(** Every path through the generated program uses each reference exactly once.
    Missing: programs in which a variable that is still needed is hidden, for
    which the claim is false (see below). *)
Theorem executable_references_balanced_partial n k C p M M' : compile_program n k C p = Ok M -> proper_source M ->
  distinct_global_arguments M -> hides_nothing (middle_end M) -> reference_count (middle_end M) = Some M' -> references_balanced M'.
Proof. intros H Hs Ha. exact (plain_balanced M M' Hs Ha (compile_program_plain _ _ _ _ _ H)). Qed.
Print Assumptions executable_references_balanced_partial.

Definition counted (M : mmodule) : bool :=
  proper_sourceb M && distinct_argumentsb M && hides_nothing_check (middle_end M) &&
  match reference_count (middle_end M) with Some _ => true | None => false end.
Lemma counted_ok M : counted M = true -> proper_source M /\ distinct_global_arguments M /\ hides_nothing (middle_end M) /\
  exists M', reference_count (middle_end M) = Some M'.
Proof.
  unfold counted. rewrite !andb_true_iff. intros [[[H1 H2] H3] H4]. split; [apply proper_sourceb_ok; exact H1|].
  split; [apply distinct_argumentsb_ok; exact H2|]. split; [apply hides_nothing_checked; exact H3|].
  destruct (reference_count (middle_end M)); [eauto|discriminate].
Qed.

Example executable_references_balanced_example : exists M M', compile_program 30 60 word_config calc = Ok M /\
  proper_source M /\ distinct_global_arguments M /\ hides_nothing (middle_end M) /\ reference_count (middle_end M) = Some M' /\ references_balanced M'.
Proof.
  destruct (compiled_ok counted calc) as (M & H & Hg); [vm_compute; reflexivity|].
  apply counted_ok in Hg as (H1 & H2 & H3 & M' & H4). exists M, M'. do 5 (split; [assumption|]).
  eapply executable_references_balanced_partial; eassumption.
Qed.

(** ** A leak *)
(** [main = \(x string | none) number | error {
       y = if x = x as string { half(x)? } else { 0 }
       keep(x) + y
     }]
    When [half(x)?] returns early, the generated program still owns the
    argument [x], which the string [x] hides, and does not drop it. *)
Definition leaky : program :=
  let base := with_prelude [point] [] [] in
  Program (p_types base) [] [("ask", TFunction [TString] TNumber); ("keep", TFunction [TUnion TString TNone] TNumber)] (p_declared base)
    [("half", Lambda [("s", TString)] (TUnion TNumber TError)
       (HIf (HBinary (BinEquality None HEqual) (HVariable "s") (HString ""))
          (HCall None (HBuiltIn BError) [HVariable "s"])
          (HCall None (HVariable "ask") [HVariable "s"])));
     ("main", Lambda [("x", TUnion TString TNone)] (TUnion TNumber TError)
       (HLet (Some "y") None
          (HIfType "x" (HVariable "x") [(TString, HTry None (HCall None (HVariable "half") [HVariable "x"])); (TNone, HNumber 0)] None)
          (HBinary (BinAddition None) (HCall None (HVariable "keep") [HVariable "x"]) (HVariable "y"))))].

Definition leaks (M : mmodule) : bool :=
  match reference_count (middle_end M) with
  | Some M' => match find_def (m_defs M') "main" with Some d => negb (balanced_check false d) | None => false end
  | None => false
  end.

Theorem executable_leaks_refuted : exists p M M',
  compile_program 30 60 word_config p = Ok M /\ proper_source M /\ reference_count (middle_end M) = Some M' /\ ~ references_balanced M'.
Proof.
  destruct (compiled_ok (fun M => proper_sourceb M && leaks M) leaky) as (M & H & Hg); [vm_compute; reflexivity|].
  apply andb_true_iff in Hg as [Hp Hg]. unfold leaks in Hg. exists leaky, M.
  destruct (reference_count (middle_end M)) as [M'|] eqn:R; [|discriminate Hg]. exists M'.
  split; [exact H|]. split; [apply proper_sourceb_ok; exact Hp|]. split; [reflexivity|]. intros Hb.
  destruct (find_def (m_defs M') "main") as [d|] eqn:D; [|discriminate Hg].
  apply find_some in D as [D _]. destruct (Hb d D) as [Hd _]. apply balanced_checked in Hd. rewrite Hd in Hg. discriminate Hg.
Qed.
Print Assumptions executable_leaks_refuted.
