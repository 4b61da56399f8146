(** C63 for programs that never end: a compiled program runs for ever if its
    source says so, and makes the same calls meanwhile.

    From [HirForever]: [never_ends] (a call of a source function whose evaluation
    goes on for ever) and [reached].  [call Lexical w M d] is the run-time call,
    stopped when calls are nested deeper than [d]; it is [Timeout] if it was
    stopped.  The hypotheses are those of [PropsMeaning]. *)
From Coq Require Import String Ascii List ZArith Bool Lia Arith.
From Verif Require Import Base Mir MirFuel HirType HirTypeSpec HirTypeEq HirTypeSub HirTypeModule Hir HirSpec HirValidate HirMir HirProgram LowerSpec LowerTag LowerTypeSpec
  LowerProgramSpec LowerTypeBase LowerCompleteSpec LowerSource LowerFits LowerSearchFits RunSpec HirMeaning HirForever MeaningSpec MeaningRun LowerMeaning
  MeaningProgramSpec MeaningProgram MeaningForever PropsHir PropsLower PropsLowerType PropsMeaning.
Import ListNotations.
Local Open Scope string_scope.
Local Open Scope list_scope.

(** The calls that a run of [M] up to [st] has made of other modules and foreign
    functions are [cs]. *)
Definition has_called (f : string -> string) (n : nat) (C : config) (q : program) (M : mmodule) (cs : list (string * list hvalue)) (st : state) : Prop :=
  Forall2 (fun c e => exists ws, e = EvCall (FName (fst c)) ws /\ Forall2 (at_run_time f n C q M) (snd c) ws) cs (filter (visible C) (s_log st)).

Lemma pairs_length {A B} (P : A -> B -> Prop) l l' : Forall2 P l l' -> List.length l = List.length l'.
Proof. induction 1; cbn; congruence. Qed.

(** A call that never ends never ends at run time: it is stopped however deep
    calls may be nested.  All the calls it makes of the outside come to be made,
    given room enough, and no others are, in the same order.

    Missing for the full statement: what is missing for calls that end, and
    evaluation that never ends inside functions of the outside. *)
Theorem compiled_program_never_ends_partial : forall f n k C p q M w outer,
  compile_program n k C p = Ok M -> analyze_program n p = Ok q ->
  config_fits C -> program_fits f C p -> raw_program p -> apart_module (program_hir p) -> searchable C q M ->
  own_types p -> fields_once p -> answers f n C q M w outer ->
  forall s g us at_, never_ends (program_env q) (defined_records q) (program_hir q) w outer s g us at_ ->
  forall st g' vs, state_at_run_time f n C q M s st -> at_run_time f n C q M g g' -> Forall2 (at_run_time f n C q M) us vs ->
  (forall d, exists st' i cs more, call Lexical w M d st g' vs = Timeout st' /\
     has_called f n C q M cs st' /\ calls (reached (at_ i)) = cs ++ more) /\
  (forall i, exists d0, forall d, d0 <= d -> exists st' more, call Lexical w M d st g' vs = Timeout st' /\
     has_called f n C q M (calls (reached (at_ i)) ++ more) st').
Proof.
  intros f n k C p q M w outer H Hq CF PF Raw A SB Own Once An s g us at_ Hn st g' vs Hs Hg Hu.
  pose proof (program_compiled_from f n k C p q M w outer H Hq CF PF Raw A SB Own Once An) as HC.
  destruct (never_ends_runs f n _ _ C _ _ M w outer _ HC s g us at_ g' vs st Hn Hg Hu Hs) as (K1 & K2).
  assert (K : forall d, exists st' i cs more, call Lexical w M d st g' vs = Timeout st' /\ has_called f n C q M cs st' /\ calls (reached (at_ i)) = cs ++ more).
  { intros d. destruct (K1 d) as (j & st' & stj & T1 & (l & T2) & (T3 & _)). rewrite T2, filter_app in T3. apply Forall2_app_inv_r in T3 as (cs & more & B1 & _ & B2).
    exists st', j, cs, more. auto. }
  split; [exact K|]. intros i. destruct (K2 i) as (sti & (B1 & _) & d0 & B2). exists d0. intros d L.
  destruct (B2 d L) as (st' & T1 & (l & T2)). destruct (K d) as (st2 & j & cs & more & T3 & T4 & T5).
  rewrite T1 in T3. injection T3 as <-.
  assert (P : exists l', cs = calls (reached (at_ i)) ++ l').
  { assert (Len : List.length (calls (reached (at_ i))) <= List.length cs).
    { rewrite (pairs_length _ _ _ T4), (pairs_length _ _ _ B1), T2, filter_app, app_length. lia. }
    assert (Pre : forall (a b x y : list (string * list hvalue)), a ++ x = b ++ y -> List.length a <= List.length b -> exists l', b = a ++ l').
    { clear. induction a as [|c a IH]; intros b x y Q Le; [exists b; reflexivity|]. destruct b as [|c' b]; [cbn in Le; lia|]. cbn in Q. injection Q as <- Q.
      destruct (IH b x y Q) as (l' & ->); [cbn in Le; lia|]. exists l'. reflexivity. }
    destruct (Nat.le_ge_cases i j) as [Lij|Lij]; destruct (endless_calls _ _ _ _ _ at_ (proj2 Hn) _ _ Lij) as (z & Q).
    - eapply (Pre _ cs z more); [|exact Len]. rewrite <- Q. exact T5.
    - eapply (Pre _ cs [] (more ++ z)); [|exact Len]. rewrite app_nil_r, Q, T5, app_assoc. reflexivity. }
  destruct P as (l' & ->). exists st', l'. auto.
Qed.
Print Assumptions compiled_program_never_ends_partial.

(** ** A program that meets the hypotheses

    [loop] asks a foreign function for ever. *)
Definition spin : program :=
  let base := with_prelude [point] [] [] in
  Program (p_types base) [] [("ask", TFunction [TString] TNumber)] (p_declared base)
    [("loop", Lambda [("s", TString)] TNumber
       (HLet None None (HCall None (HVariable "ask") [HVariable "s"])
         (HBinary (BinAddition None) (HNumber 1) (HCall None (HVariable "loop") [HVariable "s"]))))].
Definition spin_again : hexpr := HCall (Some (TFunction [TString] TNumber)) (HVariable "loop") [HVariable "s"].
Definition spin_rest : hexpr := HBinary (BinAddition (Some TNumber)) (HNumber 1) spin_again.
Definition spin_body : hexpr :=
  HLet None (Some TNumber) (HCall (Some (TFunction [TString] TNumber)) (HVariable "ask") [HVariable "s"]) spin_rest.
Definition spin_analyzed : program :=
  Program (p_types spin) [] (p_foreign spin) (p_declared spin) [("loop", Lambda [("s", TString)] TNumber spin_body)].

Example spin_analysis : analyze_program 30 spin = Ok spin_analyzed.
Proof. vm_compute. reflexivity. Qed.

Lemma spin_answers f n M : declares_outer M = true -> answers f n word_config spin_analyzed M calc_world calc_outer.
Proof.
  intros H. apply andb_true_iff in H. destruct H as [H1 H2]. constructor.
  - intros s st a b (S1 & S2 & S3). eexists. split.
    + apply (outer_runs M _ _ _ _ _ (TmBool (String.eqb a b)) _ H1); [reflexivity| |left; eauto]. rewrite map_app. unfold calc_answer. rewrite rev_app_distr. reflexivity.
    + split; [|split; [exact S2|exact S3]]. cbn [log_event s_log]. rewrite filter_app. cbn [filter visible]. rewrite app_nil_r. exact S1.
  - intros s st g us v vs (S1 & S2 & S3) _ (-> & a & -> & ->) Hu. inversion Hu as [|u x us' vs' Hx Hr]; subst. inversion Hr; subst. inversion Hx; subst. eexists _, _. split; [|split].
    + apply (outer_runs M _ _ _ _ _ (TmNumber (Z.of_nat (String.length a))) (VNumber (Z.of_nat (String.length a))) H2); [reflexivity| |right; eauto].
      rewrite map_app. unfold calc_answer. rewrite rev_app_distr. reflexivity.
    + constructor.
    + split; [|split; [exact S2|exact S3]]. cbn [log_event s_log add_call calls]. rewrite filter_app. apply Forall2_app; [exact S1|]. constructor; [|constructor].
      exists [VBytes a]. split; [reflexivity|exact Hu].
Qed.

Example spin_meets : exists M,
  compile_program 30 60 word_config spin = Ok M /\ analyze_program 30 spin = Ok spin_analyzed /\
  config_fits word_config /\ program_fits (fun x => x) word_config spin /\ raw_program spin /\ apart_module (program_hir spin) /\
  searchable word_config spin_analyzed M /\ own_types spin /\ fields_once spin /\
  answers (fun x => x) 30 word_config spin_analyzed M calc_world calc_outer.
Proof.
  destruct (compiled_ok (fun M => found spin M && declares_outer M) spin) as (M & H & Hc); [vm_compute; reflexivity|].
  apply andb_true_iff in Hc. destruct Hc as [Hf Ho]. exists M. split; [exact H|]. split; [exact spin_analysis|]. split; [exact word_config_fits|].
  split; [apply (fits_ok word_config spin 20 word_config_fits); vm_compute; reflexivity|]. split; [|split; [apply apart_decided; reflexivity|]].
  - assert (N : no_thunks_module (program_hir spin)) by (apply thunks_decided; reflexivity).
    intros x l Hx. split; [|exact (N x l Hx)]. repeat (destruct Hx as [Hx|Hx]; [injection Hx as <- <-; reflexivity|]). destruct Hx.
  - split; [exact (proj1 (found_ok spin M Hf) _ spin_analysis)|]. split; [|split; [|exact (spin_answers _ _ M Ho)]].
    + intros t r Ht Hr. apply program_types_ok in Ht.
      assert (Q : forallb (fun t => forallb (fun r => negb (prefix "hir:" r)) (record_names t)) (program_types spin) = true) by (vm_compute; reflexivity).
      rewrite forallb_forall in Q. apply Q in Ht. rewrite forallb_forall in Ht. apply Ht in Hr. destruct (prefix "hir:" r); [discriminate|reflexivity].
    + intros x l e Hx He.
      assert (Q : forallb (fun d => nowhere 20 twice_given (l_body (snd d))) (p_defs spin) = true) by (vm_compute; reflexivity).
      rewrite forallb_forall in Q. apply Q in Hx. apply (nowhere_ok _ _ _ _ Hx) in He. destruct e; try exact I; apply no_duplicates_ok; unfold twice_given in He;
      apply negb_false_iff in He; exact He.
Qed.

(** The evaluations inside [loop("a")]: a body, the sum after a call of [ask], the
    recursive call, the next body, ... *)
Fixpoint spin_at (i : nat) (cs : list (string * list hvalue)) : pending :=
  match i with
  | 0 => (HState cs [], [("s", UString "a")], spin_body)
  | 1 => (HState (cs ++ [("ask", [UString "a"])]) [], [("s", UString "a")], spin_rest)
  | 2 => (HState (cs ++ [("ask", [UString "a"])]) [], [("s", UString "a")], spin_again)
  | S (S (S i)) => spin_at i (cs ++ [("ask", [UString "a"])])
  end.
Example spin_never_ends : never_ends (program_env spin_analyzed) (defined_records spin_analyzed) (program_hir spin_analyzed) calc_world calc_outer
  (HState [] []) (UGlobal "loop") [UString "a"] (fun i => spin_at i []).
Proof.
  split; [exact (en_function (program_hir spin_analyzed) (HState [] []) "loop" (Lambda [("s", TString)] TNumber spin_body) [UString "a"] eq_refl ltac:(discriminate) eq_refl)|].
  assert (K : forall i, forall cs j, j < 3 -> goes_on (program_env spin_analyzed) (defined_records spin_analyzed) (program_hir spin_analyzed) calc_world calc_outer (spin_at (j + 3 * i) cs) (spin_at (S (j + 3 * i)) cs)).
  { induction i as [|i IH]; intros cs j L.
    - replace (j + 3 * 0) with j by lia. destruct j as [|[|[|j]]]; [| | |lia]; cbn [spin_at].
      + eapply on_statement. one. eapply ev_call; [discriminate|apply teq_refl|reflexivity|eapply evs_cons; [function|one; variable]|].
        apply (ap_outer _ _ _ _ _ (HState cs []) "ask"); [reflexivity|discriminate|]. split; [reflexivity|]. exists "a". split; reflexivity.
      + apply (on_operand _ _ _ _ _ _ _ spin_rest [HNumber 1] spin_again [] [UNumber 1]); [reflexivity|]. one. apply ev_number.
      + eapply on_call; [discriminate|apply teq_refl|reflexivity|eapply evs_cons; [function|one; variable]|].
        exact (en_function (program_hir spin_analyzed) _ "loop" (Lambda [("s", TString)] TNumber spin_body) [UString "a"] eq_refl ltac:(discriminate) eq_refl).
    - replace (j + 3 * S i) with (S (S (S (j + 3 * i)))) by lia. cbn [spin_at]. exact (IH (cs ++ [("ask", [UString "a"])]) j L). }
  intros i. rewrite (Nat.div_mod i 3) by lia. rewrite Nat.add_comm. apply K. apply Nat.mod_upper_bound. lia.
Qed.

Lemma spin_calls i : forall cs, calls (reached (spin_at (3 * i) cs)) = cs ++ repeat ("ask", [UString "a"]) i.
Proof.
  induction i as [|i IH]; intros cs; [rewrite app_nil_r; reflexivity|]. replace (3 * S i) with (S (S (S (3 * i)))) by lia.
  cbn [spin_at repeat]. rewrite IH, <- app_assoc. reflexivity.
Qed.

(** So the compiled program calls [ask] as often as one likes. *)
Example spin_runs : exists M, compile_program 30 60 word_config spin = Ok M /\
  forall i, exists d0, forall d, d0 <= d -> exists st, call Lexical calc_world M d (State [] [] []) (VGlobal "loop") [VBytes "a"] = Timeout st /\
    i <= List.length (filter (visible word_config) (s_log st)).
Proof.
  destruct spin_meets as (M & H1 & H2 & H3 & H4 & H5 & H6 & H7 & H8 & H9 & H10). exists M. split; [exact H1|].
  destruct (compiled_program_never_ends_partial _ _ _ _ _ _ _ _ _ H1 H2 H3 H4 H5 H6 H7 H8 H9 H10 _ _ _ _ spin_never_ends (State [] [] []) (VGlobal "loop") [VBytes "a"]) as (_ & K).
  - split; [constructor|]. split; intros; [discriminate|reflexivity].
  - constructor.
  - repeat constructor.
  - intros i. destruct (K (3 * i)) as (d0 & Hd). exists d0. intros d L. destruct (Hd d L) as (st & more & T1 & T2). exists st. split; [exact T1|].
    apply pairs_length in T2. rewrite <- T2, app_length. rewrite (spin_calls i []). cbn [app]. rewrite repeat_length. lia.
Qed.
