(** Properties of the HIR analyses: C40 (conversions), C41 (try operations),
    C42 (discarded errors), C45 (private record fields). *)
From Coq Require Import String List ZArith Bool.
From Verif Require Import Base HirType HirTypeModule HirTypeSpec HirTypeTermination HirTypeEq HirTypeSub HirTypeOrder
  Hir HirCheck HirCoerce HirInfer HirValidate HirSpec HirParts HirStrip HirTyping HirModule PropsTypes.
Import ListNotations.
Local Open Scope string_scope.

(** *** Examples of modules *)
Definition maybe := TUnion TNumber TNone.
Definition maybe_error := TUnion TNumber (TUnion TNone TError).

(** [f = \(p point, xs [number]) number | none | error {
       y = g()?
       h(y)
       q = point { x: 1, next: p }
       zs = [number | none a() for a in xs if a() > q.x]
       if z = y as number { z } else { if true { h(p.x) none } else { q.x } }
     }] *)
Definition demo_program : hmodule := {|
  h_declared := [("g", TFunction [] maybe_error); ("h", TFunction [maybe] TNone)];
  h_defs := [("f", {| l_arguments := [("p", TReference "point"); ("xs", TList TNumber)]; l_result := maybe_error;
    l_body :=
      HLet (Some "y") None (HTry None (HCall None (HVariable "g") []))
      (HLet None None (HCall None (HVariable "h") [HVariable "y"])
      (HLet (Some "q") None (HRecord (TReference "point") [("x", HNumber 1); ("next", HVariable "p")])
      (HLet (Some "zs") None (HComprehension maybe (HCall None (HVariable "a") [])
         [CompBranch ["a"] [(None, HVariable "xs")] (Some (HBinary (BinOrder HGreater) (HCall None (HVariable "a") []) (HField None (HVariable "q") "x")))])
      (HIfType "z" (HVariable "y") [(TNumber, HVariable "z")]
         (Some (None, HIf (HBoolean true)
            (HLet None None (HCall None (HVariable "h") [HField None (HVariable "p") "x"]) HNone)
            (HField None (HVariable "q") "x"))))))) |})] |}.

(** Deciding that no part of a concrete expression satisfies [P] *)
Fixpoint nowhere (n : nat) (P : hexpr -> bool) (e : hexpr) : bool :=
  match n with
  | O => false
  | S n => negb (P e) && forallb (nowhere n P) (parts e)
  end.
Lemma nowhere_part P n e p : nowhere n P e = true -> In p (parts e) -> exists m, nowhere m P p = true.
Proof.
  destruct n; [discriminate|]. cbn. intros H Hp. apply andb_true_iff in H. destruct H as [_ H]. rewrite forallb_forall in H.
  exists n. apply H, Hp.
Qed.
Lemma nowhere_ok P n e x : nowhere n P e = true -> occurs x e -> P x = false.
Proof.
  intros H (c & c' & Hw). revert n H. induction Hw as [c e|c e p c' x Hp _ IH|c e p c' x Hp _ IH|c e t p c' x Hp _ IH]; intros n H.
  - destruct n; [discriminate|]. cbn in H. apply andb_true_iff in H. destruct H as [H _]. destruct (P e); [discriminate|reflexivity].
  - destruct (nowhere_part _ _ _ _ H (eager_part _ _ Hp)) as [m Hm]. eapply IH, Hm.
  - destruct (nowhere_part _ _ _ _ H (lazy_part _ _ Hp)) as [m Hm]. eapply IH, Hm.
  - destruct (nowhere_part _ _ _ _ H (body_part _ _ _ Hp)) as [m Hm]. eapply IH, Hm.
Qed.
Fixpoint somewhere (n : nat) (P : hexpr -> bool) (e : hexpr) : bool :=
  match n with
  | O => false
  | S n => P e || existsb (somewhere n P) (parts e)
  end.
Lemma somewhere_ok P n : forall e, somewhere n P e = true -> exists x, occurs x e /\ P x = true.
Proof.
  induction n as [|n IH]; [discriminate|]. intros e H. cbn in H. apply orb_true_iff in H. destruct H as [H|H].
  - exists e. split; [exists None, None; apply within_self|exact H].
  - apply existsb_exists in H. destruct H as (p & Hp & H). destruct (IH p H) as (x & Hx & HP). exists x. split; [|exact HP].
    eapply HirMain.occurs_in_part; eassumption.
Qed.
Definition is_coercion (e : hexpr) : bool := match e with HCoerce _ _ _ => true | _ => false end.
Definition is_thunk (e : hexpr) : bool := match e with HThunk _ _ => true | _ => false end.
Definition clashes (e : hexpr) : bool :=
  match e with
  | HComprehension _ _ bs => existsb (fun b => existsb (fun x => existsb (fun it => mentions x (snd it)) (b_iteratees b)) (b_names b)) bs
  | _ => false
  end.
Definition module_nowhere (P : hexpr -> bool) (m : hmodule) : bool :=
  forallb (fun d => nowhere 30 P (l_body (snd d))) (h_defs m).
Lemma module_nowhere_ok P m : module_nowhere P m = true -> forall x l, In (x, l) (h_defs m) -> forall e, occurs e (l_body l) -> P e = false.
Proof. intros H x l Hin e He. unfold module_nowhere in H. rewrite forallb_forall in H. eapply nowhere_ok; [exact (H _ Hin)|exact He]. Qed.
Lemma source_decided m : module_nowhere is_coercion m = true -> source_module m.
Proof. intros H x l Hin s t a He. pose proof (module_nowhere_ok _ _ H x l Hin _ He). discriminate. Qed.
Lemma thunks_decided m : module_nowhere is_thunk m = true -> no_thunks_module m.
Proof. intros H x l Hin t a He. pose proof (module_nowhere_ok _ _ H x l Hin _ He). discriminate. Qed.
Lemma apart_decided m : module_nowhere clashes m = true -> apart_module m.
Proof.
  intros H x l Hin t el bs b He Hb u e y Hu Hy. pose proof (module_nowhere_ok _ _ H x l Hin _ He) as X. cbn [clashes] in X.
  destruct (mentions y e) eqn:M; [|reflexivity]. rewrite <- X. symmetry. apply existsb_exists. exists b. split; [exact Hb|].
  apply existsb_exists. exists y. split; [exact Hy|]. apply existsb_exists. exists (u, e). split; [exact Hu|exact M].
Qed.

Lemma demo_context : context_ok (fun x => x) demo demo_records.
Proof.
  constructor; [exact demo_wf|]. intros r fts y t Hr Hx. unfold demo_records, collect_records in Hr. cbn [demo_module tm_defs map rev app lookup td_name td_fields] in Hr.
  repeat match type of Hr with (if ?b then _ else _) = _ => destruct b end; try discriminate; injection Hr as <-;
    cbn [lookup] in Hx; repeat match type of Hx with (if ?b then _ else _) = _ => destruct b end; try discriminate; injection Hx as <-; demo_ok.
Qed.

Definition sound_analysis f E R (m : hmodule) : Prop :=
  context_ok f E R /\ types_known f E (module_written m) /\ source_module m.
Ltac known := unfold types_known; repeat (constructor; [demo_ok|]); constructor.

Lemma demo_program_ok : sound_analysis (fun x => x) demo demo_records demo_program /\ apart_module demo_program /\ no_thunks_module demo_program.
Proof.
  split; [split; [exact demo_context|split; [cbn; known|apply source_decided; reflexivity]]|].
  split; [apply apart_decided; reflexivity|apply thunks_decided; reflexivity].
Qed.

(** *** C40: conversions *)
(** After the analyses every position holds an expression of exactly the type
    it expects, conversions go from a type to one with all its values, and
    nothing but annotations and conversions has been added. *)
Theorem analysis_exact_partial : forall f E R n open m m2,
  context_ok f E R -> types_known f E (module_written m) -> source_module m -> apart_module m ->
  analyze n E R open m = Ok m2 ->
  exact_module E R m2 /\ strip_module m2 = strip_module m.
Proof.
  intros f E R n open m m2 C K S A H. destruct (analyze_sound f E R n open m m2 C K S H) as (H1 & H2 & _). split; [exact (H1 A)|exact H2].
Qed.

Theorem analysis_conversions_widen : forall f E R n open m m2,
  context_ok f E R -> types_known f E (module_written m) -> source_module m -> apart_module m ->
  analyze n E R open m = Ok m2 ->
  forall x l s t a, In (x, l) (h_defs m2) -> occurs (HCoerce s t a) (l_body l) -> widens E s t.
Proof.
  intros f E R n open m m2 C K S A H x l s t a Hin Ho. destruct (analysis_exact_partial f E R n open m m2 C K S A H) as [H1 _].
  exact (exact_widens E R _ _ _ (H1 x l Hin) s t a Ho).
Qed.

Example analysis_exact_case : sound_analysis (fun x => x) demo demo_records demo_program /\ apart_module demo_program /\
  exists m2, analyze 30 demo demo_records ["point"] demo_program = Ok m2 /\
    exists l s t a, h_defs m2 = [("f", l)] /\ occurs (HCoerce s t a) (l_body l).
Proof.
  destruct demo_program_ok as (H1 & H2 & _). split; [exact H1|]. split; [exact H2|].
  let r := eval vm_compute in (analyze 30 demo demo_records ["point"] demo_program) in
  match r with Ok ?m => exists m end. split; [vm_compute; reflexivity|]. eexists. do 3 eexists. split; [reflexivity|]. cbn [l_body].
  exists None, None. apply within_self.
Qed.

(** What is missing in [analysis_exact_partial]: programs where a list of a
    comprehension branch mentions a name of the same branch.  There the checker
    uses another scope than the other passes, which rejects programs such as
    [f = \(xs [number], x \() [number]) [number] {
       [number y() for x, y in xs, x()] }] *)
Definition shadow_program (x : string) : hmodule := {|
  h_declared := [];
  h_defs := [("f", {| l_arguments := [("xs", TList TNumber); ("x", TFunction [] (TList TNumber))];
    l_result := TList TNumber;
    l_body := HComprehension TNumber (HCall None (HVariable "y") [])
      [CompBranch [x; "y"] [(None, HVariable "xs"); (None, HCall None (HVariable "x") [])] None] |})] |}.

Example analysis_scope_case : analyze 30 demo demo_records [] (shadow_program "x") = NotFound "TypesNotMatched" /\
  exists m2, analyze 30 demo demo_records [] (shadow_program "z") = Ok m2.
Proof. split; [vm_compute; reflexivity|]. eexists. vm_compute. reflexivity. Qed.

(** *** C41: try operations *)
Theorem try_only_where_errors_return : forall f E R n open m m2,
  context_ok f E R -> types_known f E (module_written m) -> source_module m -> no_thunks_module m ->
  analyze n E R open m = Ok m2 -> tries_allowed E m.
Proof.
  intros f E R n open m m2 C K S N H. destruct (analyze_sound f E R n open m m2 C K S H) as (_ & _ & H1 & _). exact (H1 N).
Qed.

(** The check rejects nothing else. *)
Theorem try_check_complete : forall f E R n m m1,
  context_ok f E R -> types_known f E (module_written m) -> no_thunks_module m ->
  infer_module n E R m = Ok m1 -> tries_allowed E m ->
  exists N, forall k, N <= k -> validate_try_module k E m1 = Ok tt.
Proof.
  intros f E R n m m1 C K N H T. eapply validate_try_module_complete; [exact (ctx_types f E R C)|exact (infer_module_known f E R n m m1 C K H)|
    exact (no_thunks_infer _ _ _ _ _ H N)|]. apply (tries_allowed_strip E m m1 (infer_module_strip _ _ _ _ _ H) N), T.
Qed.

(** [f = \(xs [number]) [number] | error { [number g()? for x in xs] }] is
    rejected, and so is a [?] in a function that returns no error. *)
Definition lazy_try_program : hmodule := {|
  h_declared := [("g", TFunction [] (TUnion TNumber TError))];
  h_defs := [("f", {| l_arguments := [("xs", TList TNumber)]; l_result := TUnion (TList TNumber) TError;
    l_body := HComprehension TNumber (HTry None (HCall None (HVariable "g") [])) [CompBranch ["x"] [(None, HVariable "xs")] None] |})] |}.
Definition no_error_program : hmodule := {|
  h_declared := [("g", TFunction [] (TUnion TNumber TError))];
  h_defs := [("f", {| l_arguments := []; l_result := TNumber; l_body := HTry None (HCall None (HVariable "g") []) |})] |}.

Example try_case : sound_analysis (fun x => x) demo demo_records demo_program /\ no_thunks_module demo_program /\
  (exists m2, analyze 30 demo demo_records ["point"] demo_program = Ok m2) /\
  analyze 30 demo demo_records [] lazy_try_program = NotFound "TryOperationInList" /\
  analyze 30 demo demo_records [] no_error_program = NotFound "InvalidTryOperation" /\
  ~ tries_allowed demo lazy_try_program.
Proof.
  destruct demo_program_ok as (H1 & _ & H2). split; [exact H1|]. split; [exact H2|].
  split; [eexists; vm_compute; reflexivity|]. split; [vm_compute; reflexivity|]. split; [vm_compute; reflexivity|].
  intros H. destruct (H "f" _ (or_introl eq_refl) None None (HCall None (HVariable "g") [])) as (r & X & _); [|discriminate].
  cbn [l_body l_result]. eapply within_lazy; [|apply within_self]. cbn. right. left. reflexivity.
Qed.

(** *** C42: discarded errors *)
(** No statement outside the conditions of list comprehensions discards an
    error. *)
Theorem no_error_discarded_partial : forall f E R n open m m2,
  context_ok f E R -> types_known f E (module_written m) -> source_module m ->
  analyze n E R open m = Ok m2 -> no_discards_at outside_conditions E m2.
Proof.
  intros f E R n open m m2 C K S H. destruct (analyze_sound f E R n open m m2 C K S H) as (_ & _ & _ & H1 & _). exact H1.
Qed.

Theorem discard_check_complete : forall f E R n m m1,
  context_ok f E R -> types_known f E (module_written m) ->
  infer_module n E R m = Ok m1 -> check_module n E R m1 = Ok tt -> no_discards_at outside_conditions E m1 ->
  exists N, forall k, N <= k -> validate_unused_module k E m1 = Ok tt.
Proof.
  intros f E R n m m1 C K H Hc D. eapply validate_unused_module_complete; [exact (ctx_types f E R C)|exact (infer_module_known f E R n m m1 C K H)|exact Hc|exact D].
Qed.

(** [f = \(xs [number]) [number] {
       [number x() for x in xs if if true { g() true } else { false }] }] with
    [g : \() none | error] *)
Definition discard_program (inside : bool) : hmodule := {|
  h_declared := [("g", TFunction [] (TUnion TNone TError))];
  h_defs := [("f", {| l_arguments := [("xs", TList TNumber)]; l_result := TList TNumber;
    l_body := if inside then HComprehension TNumber (HCall None (HVariable "x") [])
        [CompBranch ["x"] [(None, HVariable "xs")]
           (Some (HIf (HBoolean true) (HLet None None (HCall None (HVariable "g") []) (HBoolean true)) (HBoolean false)))]
      else HLet None None (HCall None (HVariable "g") []) (HVariable "xs") |})] |}.

Lemma error_discards : discards_error demo (TUnion TError TNone).
Proof.
  split.
  - exists TError. split; [|apply teq_refl]. apply alt_left. constructor; intros; discriminate.
  - intros H. apply (has_alt_any (fun x => x) demo demo_wf _ (TUnion TError TNone)) in H; [discriminate|intros x []|exists 9; reflexivity].
Qed.

Definition is_discard (e : hexpr) : bool :=
  match e with HLet None (Some (TUnion TError TNone)) _ _ => true | _ => false end.

Theorem no_error_discarded_refuted : exists m m2,
  sound_analysis (fun x => x) demo demo_records m /\ apart_module m /\ no_thunks_module m /\
  analyze 30 demo demo_records [] m = Ok m2 /\ ~ no_discards_at everywhere demo m2.
Proof.
  exists (discard_program true).
  let r := eval vm_compute in (analyze 30 demo demo_records [] (discard_program true)) in match r with Ok ?m => exists m end.
  split; [split; [exact demo_context|split; [cbn; known|apply source_decided; reflexivity]]|].
  split; [apply apart_decided; reflexivity|]. split; [apply thunks_decided; reflexivity|]. split; [vm_compute; reflexivity|]. intros H.
  match type of H with no_discards_at _ _ {| h_defs := [(?x, ?l)] |} => specialize (H x l (or_introl eq_refl)); assert (S : somewhere 20 is_discard (l_body l) = true) by reflexivity end.
  apply somewhere_ok in S. destruct S as (e & He & Hn). destruct e; try discriminate.
  cbn in Hn. repeat match type of Hn with match ?d with _ => _ end = true => destruct d; try discriminate Hn end.
  destruct (H _ _ _ He) as (s & Z & D). injection Z as <-. exact (D error_discards).
Qed.

Example discard_case : sound_analysis (fun x => x) demo demo_records demo_program /\
  (exists m2, analyze 30 demo demo_records ["point"] demo_program = Ok m2) /\
  (exists m1, infer_module 30 demo demo_records demo_program = Ok m1 /\ check_module 30 demo demo_records m1 = Ok tt /\ validate_unused_module 30 demo m1 = Ok tt) /\
  analyze 30 demo demo_records [] (discard_program false) = NotFound "UnusedErrorValue".
Proof.
  destruct demo_program_ok as (H1 & _ & _). split; [exact H1|]. split; [eexists; vm_compute; reflexivity|]. split; [|vm_compute; reflexivity].
  let r := eval vm_compute in (infer_module 30 demo demo_records demo_program) in match r with Ok ?m => exists m end.
  split; [vm_compute; reflexivity|]. split; vm_compute; reflexivity.
Qed.

(** *** C45: private record fields *)
(** Fields of a record are constructed, read and updated only where the record
    is defined or exported with its fields, outside the conditions of list
    comprehensions. *)
Theorem private_fields_kept_partial : forall f E R n open m m2,
  context_ok f E R -> types_known f E (module_written m) -> source_module m ->
  analyze n E R open m = Ok m2 -> accesses_open_at outside_conditions E open m2.
Proof.
  intros f E R n open m m2 C K S H. destruct (analyze_sound f E R n open m m2 C K S H) as (_ & _ & _ & _ & H1). exact H1.
Qed.

Theorem field_check_complete : forall f E open m1,
  wf f E -> accesses_open_at outside_conditions E open m1 ->
  exists N, forall k, N <= k -> validate_record_module k E open m1 = Ok tt.
Proof. intros f E open m1 W H. exact (validate_record_module_complete f E open m1 W H). Qed.

(** [f = \(p point, xs [number]) [number] { [number x() for x in xs if x() > p.x] }] *)
Definition private_program (inside : bool) : hmodule := {|
  h_declared := [];
  h_defs := [("f", {| l_arguments := [("p", TReference "point"); ("xs", TList TNumber)]; l_result := TList TNumber;
    l_body := if inside then HComprehension TNumber (HCall None (HVariable "x") [])
        [CompBranch ["x"] [(None, HVariable "xs")]
           (Some (HBinary (BinOrder HGreater) (HCall None (HVariable "x") []) (HField None (HVariable "p") "x")))]
      else HList TNumber [Single (HField None (HVariable "p") "x")] |})] |}.

Definition is_access (e : hexpr) : bool := match e with HField (Some (TReference "point")) _ _ => true | _ => false end.

Theorem private_fields_kept_refuted : exists m m2,
  sound_analysis (fun x => x) demo demo_records m /\ apart_module m /\ no_thunks_module m /\
  analyze 30 demo demo_records [] m = Ok m2 /\ ~ accesses_open_at everywhere demo [] m2.
Proof.
  exists (private_program true).
  let r := eval vm_compute in (analyze 30 demo demo_records [] (private_program true)) in match r with Ok ?m => exists m end.
  split; [split; [exact demo_context|split; [cbn; known|apply source_decided; reflexivity]]|].
  split; [apply apart_decided; reflexivity|]. split; [apply thunks_decided; reflexivity|]. split; [vm_compute; reflexivity|]. intros H.
  match type of H with accesses_open_at _ _ _ {| h_defs := [(?x, ?l)] |} => specialize (H x l (or_introl eq_refl)); assert (S : somewhere 20 is_access (l_body l) = true) by reflexivity end.
  apply somewhere_ok in S. destruct S as (e & He & Hn).
  assert (X : exists t, accessed e = Some t) by (destruct e; try discriminate Hn; eexists; reflexivity). destruct X as [t Ht].
  destruct (H _ _ He Ht) as (s & _ & r & o & _ & []).
Qed.

Example private_case : sound_analysis (fun x => x) demo demo_records demo_program /\
  (exists m2, analyze 30 demo demo_records ["point"] demo_program = Ok m2) /\
  analyze 30 demo demo_records [] (private_program false) = NotFound "RecordFieldPrivate" /\
  analyze 30 demo demo_records [] demo_program = NotFound "RecordFieldPrivate".
Proof.
  destruct demo_program_ok as (H1 & _ & _). split; [exact H1|]. split; [eexists; vm_compute; reflexivity|]. split; vm_compute; reflexivity.
Qed.

Print Assumptions analysis_exact_partial.
Print Assumptions analysis_conversions_widen.
Print Assumptions try_only_where_errors_return.
Print Assumptions try_check_complete.
Print Assumptions no_error_discarded_partial.
Print Assumptions discard_check_complete.
Print Assumptions no_error_discarded_refuted.
Print Assumptions private_fields_kept_partial.
Print Assumptions field_check_complete.
Print Assumptions private_fields_kept_refuted.
