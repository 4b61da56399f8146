(** C63: a compiled program does what its source says.

    From [HirMeaning]: what analyzed source programs mean ([ev], [applies]).
    From [MeaningSpec]: how source values and states look at run time.  From
    [MeaningProgramSpec]: [answers] (the world outside compares strings for the
    compiler and answers other calls as [outer] says), [fields_once],
    [own_types].  The other hypotheses are those of C53. *)
From Coq Require Import String Ascii List ZArith Bool.
From Verif Require Import Base Mir HirType HirTypeSpec HirTypeEq HirTypeSub HirTypeModule Hir HirSpec HirValidate DataSpec HirMir HirProgram LowerSpec LowerTag LowerTypeSpec
  LowerProgramSpec LowerTypeBase LowerCompleteSpec LowerSource LowerFits LowerSearchFits RunSpec HirMeaning MeaningSpec MeaningRun LowerMeaning
  MeaningProgramSpec MeaningProgram PropsHir PropsLower PropsLowerType.
Import ListNotations.
Local Open Scope string_scope.
Local Open Scope list_scope.

(** ** Whole programs *)
(** A call of a function that ends with the value [v] ends with [v] at run time
    too, makes the same calls of other modules and foreign functions in the same
    order with the same arguments, and keeps the same values of functions without
    arguments.  [g] is a function of the program, a closure, or a function of the
    outside; the call may be made at any time.

    Missing for the full statement: expressions with lists, maps and thunks,
    most built-in functions and comparisons at the type none, of lists, maps and
    records of other modules, which [HirMeaning] gives no meaning (C09, C10 and C48
    are about some of them), and functions of the outside that call functions they
    were given.  Calls that never end are in [PropsForever]. *)
Theorem compiled_program_keeps_meaning_partial : forall f n k C p q M w outer,
  compile_program n k C p = Ok M -> analyze_program n p = Ok q ->
  config_fits C -> program_fits f C p -> raw_program p -> apart_module (program_hir p) -> searchable C q M ->
  own_types p -> fields_once p -> answers f n C q M w outer ->
  forall s g us v s', applies (program_env q) (defined_records q) (program_hir q) w outer s g us v s' ->
  forall st g' vs, state_at_run_time f n C q M s st -> at_run_time f n C q M g g' -> Forall2 (at_run_time f n C q M) us vs ->
  exists v' st', runs w M st g' vs v' st' /\ at_run_time f n C q M v v' /\ state_at_run_time f n C q M s' st'.
Proof.
  intros f n k C p q M w outer H Hq CF PF Raw A SB Own Once An s g us v s' Ha st g' vs Hs Hg Hu.
  pose proof (program_compiled_from f n k C p q M w outer H Hq CF PF Raw A SB Own Once An) as HC.
  exact (proj2 (proj2 (meaning_kept f n _ _ C _ _ M w outer _ HC)) s g us v s' Ha g' vs st Hg Hu Hs).
Qed.
Print Assumptions compiled_program_keeps_meaning_partial.

(** A fresh run of a module, from a call of one of the module's functions on plain
    data: if the call ends with plain data, compiled code ends with the same, and
    calls the same functions of other modules and foreign functions. *)
Theorem compiled_program_gives_same_data_partial : forall f n k C p q M w outer,
  compile_program n k C p = Ok M -> analyze_program n p = Ok q ->
  config_fits C -> program_fits f C p -> raw_program p -> apart_module (program_hir p) -> searchable C q M ->
  own_types p -> fields_once p -> answers f n C q M w outer ->
  forall g us v s' vs v', applies (program_env q) (defined_records q) (program_hir q) w outer (HState [] []) (UGlobal g) us v s' ->
  Forall2 plain us vs -> plain v v' ->
  exists st', runs w M (State [] [] []) (VGlobal g) vs v' st' /\
    Forall2 (fun c e => exists ws, e = EvCall (FName (fst c)) ws /\ Forall2 (at_run_time f n C q M) (snd c) ws)
      (calls s') (filter (visible C) (s_log st')).
Proof.
  intros f n k C p q M w outer H Hq CF PF Raw A SB Own Once An g us v s' vs v' Ha Hu Hv.
  pose proof (program_compiled_from f n k C p q M w outer H Hq CF PF Raw A SB Own Once An) as HC.
  pose proof (MeaningSpec.cf_tidy _ _ _ _ _ _ _ _ _ _ _ HC) as Ht.
  assert (S0 : state_at_run_time f n C q M (HState [] []) (State [] [] [])).
  { split; [constructor|]. split; intros; [discriminate|reflexivity]. }
  assert (Hu' : Forall2 (at_run_time f n C q M) us vs).
  { clear - Hu. induction Hu as [|u v us vs Huv _ IH]; constructor; [|exact IH]. apply plain_rep, Huv. }
  destruct (compiled_program_keeps_meaning_partial f n k C p q M w outer H Hq CF PF Raw A SB Own Once An _ _ _ _ _ Ha _ _ _ S0 (rep_global _ _ _ _ _ _ _ g) Hu')
    as (v'' & st' & Hr & Hv' & Hs').
  apply (plain_unique f n _ _ C _ M Ht v v' Hv) in Hv'. subst v''. exists st'. split; [exact Hr|apply Hs'].
Qed.
Print Assumptions compiled_program_gives_same_data_partial.

(** ** A program that meets the hypotheses

    [half] compares strings, calls a foreign function or makes an error; [main]
    has a [?], a record with a field of a union type, and a closure that uses it;
    [like] compares records. *)
Definition point : type_def :=
  TypeDef {| td_name := "p"; td_original := "p"; td_fields := [("x", TNumber); ("y", TUnion TNumber TString)] |} true false.
Definition calc : program :=
  let base := with_prelude [point] [] [] in
  Program (p_types base) [] [("ask", TFunction [TString] TNumber)] (p_declared base)
    [("half", Lambda [("s", TString)] (TUnion TNumber TError)
       (HIf (HBinary (BinEquality None HEqual) (HVariable "s") (HString ""))
          (HCall None (HBuiltIn BError) [HVariable "s"])
          (HCall None (HVariable "ask") [HVariable "s"])));
     ("twice", Lambda [("g", TFunction [TNumber] TNumber); ("a", TNumber)] TNumber
       (HCall None (HVariable "g") [HCall None (HVariable "g") [HVariable "a"]]));
     ("main", Lambda [("s", TString)] (TUnion TNumber TError)
       (HLet (Some "v") None (HTry None (HCall None (HVariable "half") [HVariable "s"]))
       (HLet (Some "r") None (HRecord (TReference "p") [("y", HVariable "s"); ("x", HVariable "v")])
         (HCall None (HVariable "twice")
           [HLambda [("b", TNumber)] TNumber (HBinary (BinAddition None) (HVariable "b") (HField None (HVariable "r") "x"));
            HVariable "v"]))));
     ("like", Lambda [("a", TReference "p"); ("s", TString)] TBoolean
       (HBinary (BinEquality None HEqual) (HVariable "a") (HRecord (TReference "p") [("y", HVariable "s"); ("x", HNumber 1)])))].

(** The analyzed functions *)
Definition half_body : hexpr :=
  HIf (HBinary (BinEquality (Some (TUnion TString TString)) HEqual) (HVariable "s") (HString ""))
    (HCoerce TError (TUnion TError TNumber) (HCall (Some (TFunction [TAny] TError)) (HBuiltIn BError) [HCoerce TString TAny (HVariable "s")]))
    (HCoerce TNumber (TUnion TError TNumber) (HCall (Some (TFunction [TString] TNumber)) (HVariable "ask") [HVariable "s"])).
Definition twice_body : hexpr :=
  HCall (Some (TFunction [TNumber] TNumber)) (HVariable "g") [HCall (Some (TFunction [TNumber] TNumber)) (HVariable "g") [HVariable "a"]].
Definition adder_body : hexpr := HBinary (BinAddition (Some TNumber)) (HVariable "b") (HField (Some (TReference "p")) (HVariable "r") "x").
Definition main_body : hexpr :=
  HCoerce TNumber (TUnion TNumber TError)
    (HLet (Some "v") (Some TNumber) (HTry (Some TNumber) (HCall (Some (TFunction [TString] (TUnion TNumber TError))) (HVariable "half") [HVariable "s"]))
    (HLet (Some "r") (Some (TReference "p"))
       (HRecord (TReference "p") [("y", HCoerce TString (TUnion TNumber TString) (HVariable "s")); ("x", HVariable "v")])
       (HCall (Some (TFunction [TFunction [TNumber] TNumber; TNumber] TNumber)) (HVariable "twice")
         [HLambda [("b", TNumber)] TNumber adder_body; HVariable "v"]))).
Definition like_body : hexpr :=
  HBinary (BinEquality (Some (TUnion (TReference "p") (TReference "p"))) HEqual) (HVariable "a")
    (HRecord (TReference "p") [("y", HCoerce TString (TUnion TNumber TString) (HVariable "s")); ("x", HNumber 1)]).
Definition calc_analyzed : program :=
  Program (p_types calc) [] (p_foreign calc) (p_declared calc)
    [("half", Lambda [("s", TString)] (TUnion TNumber TError) half_body);
     ("twice", Lambda [("g", TFunction [TNumber] TNumber); ("a", TNumber)] TNumber twice_body);
     ("main", Lambda [("s", TString)] (TUnion TNumber TError) main_body);
     ("like", Lambda [("a", TReference "p"); ("s", TString)] TBoolean like_body)].

Example calc_analysis : analyze_program 30 calc = Ok calc_analyzed.
Proof. vm_compute. reflexivity. Qed.

(** [ask] answers with the length of a string. *)
Definition calc_answer (seen : list observed_event) : term :=
  match rev seen with
  | ObCall (FName g) [ObBytes a; ObBytes b] :: _ => if String.eqb g "prelude:EqualStrings" then TmBool (String.eqb a b) else TmNone
  | ObCall (FName g) [ObBytes a] :: _ => if String.eqb g "ask" then TmNumber (Z.of_nat (String.length a)) else TmNone
  | _ => TmNone
  end.
Definition calc_world : world :=
  World (fun o a b => match o with Add => a + b | Subtract => a - b | Multiply => a * b | Divide => a / b end)%Z
    (fun o a b => match o with Equal => Z.eqb a b | LessThan => Z.ltb a b | LessThanOrEqual => Z.leb a b
       | GreaterThan => Z.ltb b a | GreaterThanOrEqual => Z.leb b a | NotEqual => negb (Z.eqb a b) end)
    (fun _ => []) calc_answer.
Definition calc_outer (_ : list (string * list hvalue)) (g : string) (us : list hvalue) (v : hvalue) : Prop :=
  g = "ask" /\ exists s, us = [UString s] /\ v = UNumber (Z.of_nat (String.length s)).

Definition outer_only (M : mmodule) (g : string) (t : mtype) : bool :=
  match find_def (m_defs M) g, lookup (m_declared M) g with None, Some u => mtype_eqb u t | _, _ => false end.
Definition declares_outer (M : mmodule) : bool :=
  outer_only M "prelude:EqualStrings" (Mir.TFunction [TByteString; TByteString] Mir.TBoolean) && outer_only M "ask" (Mir.TFunction [TByteString] Mir.TNumber).

(** A call of the outside that is answered with a boolean or a number *)
Lemma outer_runs M g ts t vs st a v : outer_only M g (Mir.TFunction ts t) = true -> List.length vs = List.length ts ->
  calc_answer (map observe_event (s_log st ++ [EvCall (FName g) vs])) = a ->
  (a = TmBool (match v with VBool b => b | _ => false end) /\ t = Mir.TBoolean /\ (exists b, v = VBool b) \/
   a = TmNumber (match v with VNumber z => z | _ => 0%Z end) /\ t = Mir.TNumber /\ exists z, v = VNumber z) ->
  runs calc_world M st (VGlobal g) vs v (log_event st (EvCall (FName g) vs)).
Proof.
  unfold outer_only. intros H L A V. destruct (find_def (m_defs M) g) eqn:D; [discriminate|]. destruct (lookup (m_declared M) g) as [u|] eqn:Q; [|discriminate].
  apply mtype_eqb_eq in H. subst u. exists 1. intros [|n] Hn; [inversion Hn|]. cbn [call]. rewrite D, Q, L, Nat.eqb_refl. unfold outside. cbn [log_event s_log calc_world w_script w_answer run_script obind].
  rewrite A. destruct V as [(-> & -> & b & ->)|(-> & -> & z & ->)]; reflexivity.
Qed.

Lemma calc_answers f n M : declares_outer M = true -> answers f n word_config calc_analyzed M calc_world calc_outer.
Proof.
  intros H. apply andb_true_iff in H. destruct H as [H1 H2]. constructor.
  - intros s st a b (S1 & S2 & S3). eexists. split.
    + apply (outer_runs M _ _ _ _ _ (TmBool (String.eqb a b)) _ H1); [reflexivity| |left; eauto]. rewrite map_app. unfold calc_answer. rewrite rev_app_distr. reflexivity.
    + split; [|split; [exact S2|exact S3]]. cbn [log_event s_log]. rewrite filter_app. cbn [filter visible]. rewrite app_nil_r. exact S1.
  - intros s st g us v vs (S1 & S2 & S3) _ (-> & a & -> & ->) Hu. inversion Hu as [|u x us' vs' Hx Hr]; subst. inversion Hr; subst. inversion Hx; subst. eexists _, _. split; [|split].
    + apply (outer_runs M _ _ _ _ _ (TmNumber (Z.of_nat (String.length a))) (VNumber (Z.of_nat (String.length a))) H2); [reflexivity| |right; eauto].
      rewrite map_app. unfold calc_answer. rewrite rev_app_distr. reflexivity.
    + constructor.
    + split; [|split; [exact S2|exact S3]]. cbn [log_event s_log add_call calls]. rewrite filter_app. apply Forall2_app; [exact S1|]. constructor; [|constructor].
      exists [VBytes a]. split; [reflexivity|exact Hu].
Qed.

Definition twice_given (e : hexpr) : bool :=
  match e with HRecord _ fs | HUpdate _ _ fs => negb (no_duplicates [] (map fst fs)) | _ => false end.

Example calc_meets : exists M,
  compile_program 30 60 word_config calc = Ok M /\ analyze_program 30 calc = Ok calc_analyzed /\
  config_fits word_config /\ program_fits (fun x => x) word_config calc /\ raw_program calc /\ apart_module (program_hir calc) /\
  searchable word_config calc_analyzed M /\ own_types calc /\ fields_once calc /\
  answers (fun x => x) 30 word_config calc_analyzed M calc_world calc_outer.
Proof.
  destruct (compiled_ok (fun M => found calc M && declares_outer M) calc) as (M & H & Hc); [vm_compute; reflexivity|].
  apply andb_true_iff in Hc. destruct Hc as [Hf Ho]. exists M. split; [exact H|]. split; [exact calc_analysis|]. split; [exact word_config_fits|].
  split; [apply (fits_ok word_config calc 20 word_config_fits); vm_compute; reflexivity|]. split; [|split; [apply apart_decided; reflexivity|]].
  - assert (N : no_thunks_module (program_hir calc)) by (apply thunks_decided; reflexivity).
    intros x l Hx. split; [|exact (N x l Hx)]. repeat (destruct Hx as [Hx|Hx]; [injection Hx as <- <-; reflexivity|]). destruct Hx.
  - split; [exact (proj1 (found_ok calc M Hf) _ calc_analysis)|]. split; [|split; [|exact (calc_answers _ _ M Ho)]].
    + intros t r Ht Hr. apply program_types_ok in Ht.
      assert (Q : forallb (fun t => forallb (fun r => negb (prefix "hir:" r)) (record_names t)) (program_types calc) = true) by (vm_compute; reflexivity).
      rewrite forallb_forall in Q. apply Q in Ht. rewrite forallb_forall in Ht. apply Ht in Hr. destruct (prefix "hir:" r); [discriminate|reflexivity].
    + intros x l e Hx He.
      assert (Q : forallb (fun d => nowhere 20 twice_given (l_body (snd d))) (p_defs calc) = true) by (vm_compute; reflexivity).
      rewrite forallb_forall in Q. apply Q in Hx. apply (nowhere_ok _ _ _ _ Hx) in He. destruct e; try exact I; apply no_duplicates_ok; unfold twice_given in He;
      apply negb_false_iff in He; exact He.
Qed.

(** [main("a")] is [3], after one call of [ask], and [main("")] is an error. *)
Notation calc_applies := (applies (program_env calc_analyzed) (defined_records calc_analyzed) (program_hir calc_analyzed) calc_world calc_outer).
Notation calc_ev := (ev (program_env calc_analyzed) (defined_records calc_analyzed) (program_hir calc_analyzed) calc_world calc_outer).
Ltac one := eapply evs_cons; [|apply evs_nil].
Ltac variable := apply ev_variable; reflexivity.
Ltac function := apply ev_function; [reflexivity|first [left; discriminate|right; discriminate]].

Lemma calc_differ a b : canonicalize 1 (program_env calc_analyzed) a = Ok a -> canonicalize 1 (program_env calc_analyzed) b = Ok b -> a <> b ->
  ~ teq (program_env calc_analyzed) a b.
Proof.
  destruct calc_meets as (M & _ & _ & _ & F & _). intros Ha Hb N Q. apply N.
  eapply (teq_canon_eq (fun x => x)); [apply (pf_context _ _ _ F)|exact Q|exists 1; exact Ha|exists 1; exact Hb].
Qed.

Lemma calc_string s : calc_ev (HState [] []) [("s", UString s)]
  (HBinary (BinEquality (Some (TUnion TString TString)) HEqual) (HVariable "s") (HString "")) (Gives (UBoolean (String.eqb s ""))) (HState [] []).
Proof.
  eapply (ev_equality _ _ _ _ _ _ _ _ HEqual _ _ _ _ (DString s) (DString "")); [eapply evs_cons; [variable|one; apply ev_string]|right; right; left; apply teq_idem|apply read_string, teq_idem|apply read_string, teq_idem].
Qed.

Lemma calc_half : calc_applies (HState [] []) (UGlobal "half") [UString "a"] (UTagged TNumber (UNumber 1)) (HState [("ask", [UString "a"])] []).
Proof.
  eapply (ap_function _ _ _ _ _ _ _ _ _ (Gives _)); [reflexivity|discriminate|reflexivity|].
  eapply (ev_if _ _ _ _ _ _ _ _ _ _ false); [one; exact (calc_string "a")|]. cbn iota.
  eapply ev_box with (b := TNumber); [apply sub_right|exact I|apply teq_refl|]. one.
  eapply ev_call; [discriminate|apply teq_refl|reflexivity|eapply evs_cons; [function|one; variable]|].
  apply (ap_outer _ _ _ _ _ (HState [] []) "ask"); [reflexivity|discriminate|]. split; [reflexivity|]. exists "a". split; reflexivity.
Qed.

Definition calc_r : hvalue := URecord "p" [("y", UTagged TString (UString "a")); ("x", UNumber 1)].

Lemma calc_adder s z : calc_applies s (UClosure ["b"] adder_body [("r", calc_r); ("v", UNumber 1); ("s", UString "a")]) [UNumber z] (UNumber (z + 1)) s.
Proof.
  eapply (ap_closure _ _ _ _ _ _ _ _ _ _ (Gives _)); [reflexivity|]. eapply ev_binary; [|apply (b_add calc_world z 1)].
  eapply evs_cons; [variable|]. one. eapply ev_field; [apply teq_alias; reflexivity|one; variable|reflexivity].
Qed.

Example calc_main : calc_applies (HState [] []) (UGlobal "main") [UString "a"] (UTagged TNumber (UNumber 3)) (HState [("ask", [UString "a"])] []).
Proof.
  eapply (ap_function _ _ _ _ _ _ _ _ _ (Gives _)); [reflexivity|discriminate|reflexivity|].
  eapply ev_box with (b := TNumber); [apply sub_left|exact I|apply teq_refl|]. one.
  eapply ev_let.
  { one. eapply (ev_try _ _ _ _ _ _ _ _ _ TNumber (UNumber 1)).
    - one. eapply ev_call; [discriminate|apply teq_refl|reflexivity|eapply evs_cons; [function|one; variable]|exact calc_half].
    - apply calc_differ; [reflexivity|reflexivity|discriminate].
    - exists TNumber. split; [apply alt_self; discriminate|apply teq_refl].
    - left. split; [apply teq_refl|reflexivity]. }
  eapply ev_let.
  { one. eapply ev_record; [apply teq_alias; reflexivity|]. eapply evs_cons; [|one; variable].
    eapply ev_box with (b := TString); [apply sub_right|exact I|apply teq_refl|one; variable]. }
  eapply ev_call; [discriminate|apply teq_refl|reflexivity|eapply evs_cons; [function|eapply evs_cons; [apply ev_lambda|one; variable]]|].
  eapply (ap_function _ _ _ _ _ _ _ _ _ (Gives (UNumber 3))); [reflexivity|discriminate|reflexivity|].
  eapply ev_call; [discriminate|apply teq_refl|reflexivity| |exact (calc_adder _ 2)]. eapply evs_cons; [variable|]. one.
  eapply ev_call; [discriminate|apply teq_refl|reflexivity| |exact (calc_adder _ 1)]. eapply evs_cons; [variable|]. one. variable.
Qed.

Example calc_error : calc_applies (HState [] []) (UGlobal "main") [UString ""]
  (UTagged TError (UError (UTagged TString (UString "")))) (HState [] []).
Proof.
  eapply (ap_function _ _ _ _ _ _ _ _ _ (Returns _)); [reflexivity|discriminate|reflexivity|].
  apply ev_early. apply evs_returns. apply ev_early. apply evs_returns. eapply ev_try_error; [|apply teq_refl]. one.
  eapply ev_call; [discriminate|apply teq_refl|reflexivity|eapply evs_cons; [function|one; variable]|].
  eapply (ap_function _ _ _ _ _ _ _ _ _ (Gives _)); [reflexivity|discriminate|reflexivity|].
  eapply (ev_if _ _ _ _ _ _ _ _ _ _ true); [one; exact (calc_string "")|]. cbn iota.
  eapply ev_box with (b := TError); [apply sub_left|exact I|apply teq_refl|]. one.
  eapply ev_error; [one; eapply ev_box with (b := TString); [apply sub_top|exact I|apply teq_refl|one; variable]|].
  apply calc_differ; [reflexivity|reflexivity|discriminate].
Qed.

(** [like(p{x: 1, y: "b"}, "a")] is [false], and [like(p{x: 1, y: "a"}, "a")] is
    [true]: records are compared field by field. *)
Lemma calc_point_type : teq (program_env calc_analyzed) (TUnion (TReference "p") (TReference "p")) (TRecord "p" "p").
Proof. eapply teq_trans; [apply teq_idem|]. apply teq_alias. reflexivity. Qed.

Lemma calc_point a : read (program_env calc_analyzed) (defined_records calc_analyzed) (TUnion (TReference "p") (TReference "p"))
  (URecord "p" [("y", UTagged TString (UString a)); ("x", UNumber 1)]) (DRecord "p" "p" [DNumber 1; DString a]).
Proof.
  eapply read_record; [exact calc_point_type|reflexivity|]. eapply read_cons; [reflexivity|apply read_number, teq_refl|].
  eapply read_cons; [reflexivity| |apply read_nil]. apply read_tagged; [|exists TString; split; [apply alt_right, alt_self; discriminate|apply teq_refl]|apply read_string, teq_refl].
  intros Q. destruct calc_meets as (M & _ & _ & _ & F & _).
  assert (N : TUnion TNumber TString = TString); [|discriminate].
  eapply (teq_canon_eq (fun x => x)); [apply (pf_context _ _ _ F)|exact Q|exists 9; vm_compute; reflexivity|exists 1; reflexivity].
Qed.

Example calc_like a b : calc_applies (HState [] []) (UGlobal "like") [URecord "p" [("y", UTagged TString (UString a)); ("x", UNumber 1)]; UString b]
  (UBoolean (String.eqb a b)) (HState [] []).
Proof.
  eapply (ap_function _ _ _ _ _ _ _ _ _ (Gives _)); [reflexivity|discriminate|reflexivity|].
  replace (String.eqb a b) with (is_equal HEqual (same calc_world (DRecord "p" "p" [DNumber 1; DString a]) (DRecord "p" "p" [DNumber 1; DString b])))
    by (cbn; apply andb_true_r).
  eapply ev_equality; [eapply evs_cons; [variable|one]| |apply calc_point|apply calc_point].
  - change [("y", UTagged TString (UString b)); ("x", UNumber 1)] with (combine ["y"; "x"] [UTagged TString (UString b); UNumber 1]).
    eapply (ev_record _ _ _ _ _ _ _ _ _ _ [("y", _); ("x", _)]); [apply teq_alias; reflexivity|]. eapply evs_cons; [|one; apply ev_number].
    eapply ev_box with (b := TString); [apply sub_right|exact I|apply teq_refl|one; variable].
  - right. right. right. left. exists "p", "p". split; [exact calc_point_type|discriminate].
Qed.

(** So the compiled program gives [3] for ["a"] and the error for [""]. *)
Example calc_runs : exists M st st', compile_program 30 60 word_config calc = Ok M /\
  runs calc_world M (State [] [] []) (VGlobal "main") [VBytes "a"] (VVariant Mir.TNumber (VNumber 3)) st /\
  runs calc_world M (State [] [] []) (VGlobal "main") [VBytes ""]
    (VVariant (Mir.TRecord "hir:error") (VRecord "hir:error" [VVariant TByteString (VBytes "")])) st'.
Proof.
  destruct calc_meets as (M & H1 & H2 & H3 & H4 & H5 & H6 & H7 & H8 & H9 & H10).
  destruct (compiled_program_gives_same_data_partial _ _ _ _ _ _ _ _ _ H1 H2 H3 H4 H5 H6 H7 H8 H9 H10 _ _ _ _ [VBytes "a"] (VVariant Mir.TNumber (VNumber 3)) calc_main)
    as (st & Hst & _); [repeat constructor|apply plain_tagged; [constructor|cbn; tauto]|].
  destruct (compiled_program_gives_same_data_partial _ _ _ _ _ _ _ _ _ H1 H2 H3 H4 H5 H6 H7 H8 H9 H10 _ _ _ _ [VBytes ""]
    (VVariant (Mir.TRecord "hir:error") (VRecord "hir:error" [VVariant TByteString (VBytes "")])) calc_error)
    as (st' & Hst' & _); [repeat constructor|apply plain_tagged; [apply plain_error, plain_tagged; [constructor|cbn; tauto]|cbn; tauto]|].
  exists M, st, st'. auto.
Qed.
