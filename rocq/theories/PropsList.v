(** Properties of lists and thunks: C18 (lists behave like sequences), C47 (a lazy
    value is computed at most once). *)
From Coq Require Import String List ZArith Bool Lia.
From Verif Require Import Base HirType Hir HirMir Mir RunSpec RunProofs ListSpec PreludeList ListProofs ListLiteral ThunkProofs PropsLower.
Import ListNotations.
Local Open Scope string_scope.

(** The definitions below are what the analyses and the lowering make of
    packages/prelude/List.pen. *)
Theorem prelude_list_compiles : list_code = Ok list_defs.
Proof. exact list_code_ok. Qed.
Print Assumptions prelude_list_compiles.

(** A module with the prelude, for the examples *)
Definition lists : mmodule :=
  MModule list_records_mir [(combine_name, TFunction [TNumber; TNumber] TNumber)] list_defs [] "".
Example lists_links : links lists list_defs.
Proof. intros d H. cbn in H. repeat (destruct H as [<-|H]; [reflexivity|]). destruct H. Qed.
Example lists_declares : declares lists list_records_mir.
Proof. intros r t H. cbn in H. repeat (destruct H as [[= <- <-]|H]; [reflexivity|]). destruct H. Qed.
Definition calm : world := World (fun _ a b => (a + b)%Z) (fun _ a b => Z.eqb a b) (fun _ => []) (fun _ => TmNone).

(** *** C18: lists behave like sequences *)
(** The empty list has no elements. *)
Theorem empty_list_sequence : forall w m st,
  links m list_defs -> declares m list_records_mir -> fair w m st ->
  exists l st', runs w m st (VGlobal "prelude:EmptyList") [] l st' /\
    s_log st' = s_log st /\ s_cells st' = s_cells st /\ forall st1, sequence w m st1 l [] st1.
Proof.
  intros w m st L D F. destruct (empty_runs w m L D st F) as (n & st' & H & H1 & H2 & _ & K).
  exists (the_list n), st'. split; [exact H|]. split; [exact H1|]. split; [exact H2|]. intros st1. exists n. auto.
Qed.
Print Assumptions empty_list_sequence.

(** [fair] is true at the start, and stays true. *)
Theorem fair_always : forall w m, links m list_defs -> declares m list_records_mir ->
  fair w m initial /\ forall st f vs v st', fair w m st -> runs w m st f vs v st' -> fair w m st'.
Proof.
  intros w m L D. split; [apply fair_initial|]. intros st f vs v st' F H. exact (runs_fair w m L D _ _ _ _ _ H F).
Qed.
Print Assumptions fair_always.

(** Prepending adds an element at the front.  It changes no state, so it evaluates
    neither the element nor the list. *)
Theorem prepend_sequence_law : forall w m st f n,
  links m list_defs -> declares m list_records_mir ->
  exists l', runs w m st (VGlobal "prelude:PrependToList") [f; the_list n] l' st /\
    forall st1 fs st2, sequence w m st1 (the_list n) fs st2 -> sequence w m st1 l' (f :: fs) st2.
Proof.
  intros w m st f n L D. destruct (prepend_sequence w m L D st f n) as (n' & H & K).
  exists (the_list n'). split; [exact H|]. intros st1 fs st2 (n0 & [= <-] & Hn). exists n'. auto.
Qed.
Print Assumptions prepend_sequence_law.

(** Concatenation: the elements of the first list, and then those of the second.
    Nothing runs before the list is gone through, and then the lists are gone
    through one after the other. *)
Theorem concatenate_sequence_law : forall w m st x n,
  links m list_defs -> declares m list_records_mir ->
  exists l', runs w m st (VGlobal "prelude:ConcatenateLists") [x; the_list n] l' st /\
    forall st1 l st2 fs st3 gs st4,
      runs w m st1 x [] l st2 -> sequence w m st2 l fs st3 -> sequence w m st3 (the_list n) gs st4 ->
      sequence w m st1 l' (fs ++ gs) st4.
Proof.
  intros w m st x n L D. destruct (concatenate_sequence w m L D st x n) as (n' & H & K).
  exists (the_list n'). split; [exact H|].
  intros st1 l st2 fs st3 gs st4 Hx (n1 & -> & H1) (n2 & [= <-] & H2). exists n'. split; [reflexivity|]. eapply K; eauto.
Qed.
Print Assumptions concatenate_sequence_law.

Theorem lazy_sequence_law : forall w m st x,
  links m list_defs -> declares m list_records_mir ->
  exists l', runs w m st (VGlobal "prelude:LazyList") [x] l' st /\
    forall st1 l st2 fs st3,
      runs w m st1 x [] l st2 -> sequence w m st2 l fs st3 -> sequence w m st1 l' fs st3.
Proof.
  intros w m st x L D. destruct (lazy_sequence w m L D st x) as (n' & H & K).
  exists (the_list n'). split; [exact H|].
  intros st1 l st2 fs st3 Hx (n1 & -> & H1). exists n'. split; [reflexivity|]. eapply K; eauto.
Qed.
Print Assumptions lazy_sequence_law.

(** Taking a list apart: none if it is empty, and otherwise a pair whose parts are
    the first element and the rest of the list. *)
Theorem first_rest_law : forall w m st l fs st',
  links m list_defs -> declares m list_records_mir -> sequence w m st l fs st' ->
  match fs with
  | [] => runs w m st (VGlobal "prelude:FirstRest") [l] (VVariant TNone VNone) st'
  | f :: fs' => exists pair r st1,
      runs w m st (VGlobal "prelude:FirstRest") [l] (VVariant (TRecord "prelude:FirstRest") pair) st1 /\
      (forall st2, runs w m st2 (VGlobal "prelude:First") [pair] f st2) /\
      (forall st2, runs w m st2 (VGlobal "prelude:Rest") [pair] r st2) /\
      sequence w m st1 r fs' st'
  end.
Proof.
  intros w m st l fs st' L D (n & -> & H). destruct fs as [|f fs].
  - apply first_rest_end; auto. apply nodes_nil_inv, H.
  - apply nodes_cons_inv in H as (r & st1 & H1 & H2).
    exists (VRecord "prelude:FirstRest" [f; the_list r]), (the_list r), st1.
    split; [apply first_rest_more; auto|]. split; [intros; apply first_runs; auto|]. split; [intros; apply rest_runs; auto|].
    exists r. auto.
Qed.
Print Assumptions first_rest_law.

(** The size is the number of elements: 0 plus 1 for each, in the arithmetic of the
    machine; and the number [num k] for [k] elements if that arithmetic counts. *)
Theorem size_law : forall w m st l fs st',
  links m list_defs -> declares m list_records_mir -> sequence w m st l fs st' ->
  exists z, runs w m st (VGlobal "prelude:ListSize") [l] (VNumber z) st' /\
    forall num : nat -> Z, num 0 = 0%Z ->
      (forall k, k < List.length fs -> w_arith w Add (num k) 4607182418800017408 = num (S k)) -> z = num (List.length fs).
Proof.
  intros w m st l fs st' L D (n & -> & H). exists (counted w (List.length fs) 0).
  split; [apply list_size_runs; auto|]. intros num H0 HS. clear H.
  assert (G : forall j i, i + j = List.length fs -> counted w j (num i) = num (List.length fs)).
  { induction j as [|j IH]; intros i Hi; cbn [counted]; [f_equal; lia|]. rewrite HS by lia. apply IH. lia. }
  rewrite <- H0. apply G. reflexivity.
Qed.
Print Assumptions size_law.

(** Equality of two lists whose elements are the same in all states that satisfy
    [Inv]: all pairs of elements are equal, and there are equally many. *)
Theorem equal_lists_law : forall w m Inv A (Q : A -> value -> Prop) (eq : A -> A -> bool) f x y xs ys st,
  links m list_defs -> declares m list_records_mir ->
  stable w m Inv (gives w m Inv Q) x xs -> stable w m Inv (gives w m Inv Q) y ys ->
  (forall a b, In a xs -> In b ys -> compares w m Inv Q VBool eq f a b) -> Inv st ->
  exists st', runs w m st (VGlobal "prelude:EqualLists") [f; x; y] (VBool (equal_with eq xs ys)) st' /\ Inv st'.
Proof. intros w m Inv A Q eq f x y xs ys st L D. apply equal_runs; assumption. Qed.
Print Assumptions equal_lists_law.

Theorem maybe_equal_lists_law : forall w m Inv A (Q : A -> value -> Prop) (eq : A -> A -> option bool) f x y xs ys st,
  links m list_defs -> declares m list_records_mir ->
  stable w m Inv (gives w m Inv Q) x xs -> stable w m Inv (gives w m Inv Q) y ys ->
  (forall a b, In a xs -> In b ys -> compares w m Inv Q maybe eq f a b) -> Inv st ->
  exists st', runs w m st (VGlobal "prelude:MaybeEqualLists") [f; x; y] (maybe (compare_with eq xs ys)) st' /\ Inv st'.
Proof. intros w m Inv A Q eq f x y xs ys st L D. apply maybe_equal_runs; assumption. Qed.
Print Assumptions maybe_equal_lists_law.

(** A list literal evaluates none of its elements and none of its spread lists: it
    makes one thunk for each of them, with the element's code.  Its elements are
    those of the literal, in order. *)
Theorem literal_law : forall n E R C k t es e w m,
  links m list_defs -> declares m list_records_mir -> list_names C -> imports_lists E ->
  compile n E R C k (HList t es) = Ok e ->
  exists cs, Forall2 (coded n E R C t) es cs /\
  forall rho st, sees_globals m rho -> fair w m st ->
  exists l st', evals w m rho st e l st' /\
    s_log st' = s_log st /\ s_cells st' = (s_cells st ++ repeat None (List.length es))%list /\
    forall st1 fs st2, elements w m rho (List.length (s_cells st)) cs st1 fs st2 -> sequence w m st1 l fs st2.
Proof.
  intros n E R C k t es e w m L D N HE H. destruct k as [|k]; [discriminate|].
  destruct (literal_compiled w m L D n E R C N HE t es k e H) as (cs & Hcs & K). exists cs. split; [exact Hcs|].
  intros rho st S F. destruct (K rho st S F) as (nd & st' & H1 & H2 & H3 & _ & H4).
  exists (the_list nd), st'. split; [exact H1|]. split; [exact H2|].
  split; [rewrite H3; do 2 f_equal; symmetry; exact (Forall2_len Hcs)|]. intros st1 fs st2 Hel. exists nd. auto.
Qed.
Print Assumptions literal_law.

(** Two elements, one of which cannot be called at all, after an empty list; the
    same in a concatenation; their number; the first of them. *)
Example two_elements : exists l, forall st,
  runs calm lists (set_global st "prelude:EmptyList" l) (VGlobal "prelude:EmptyList") [] l
    (set_global st "prelude:EmptyList" l) /\ sequence calm lists st l [] st.
Proof.
  destruct (empty_list_sequence calm lists initial lists_links lists_declares
    (proj1 (fair_always calm lists lists_links lists_declares))) as (l & st' & H & _ & _ & K).
  exists l. intros st. split; [|apply K]. exists 1. intros [|n] Hn; [lia|]. cbn [call]. reflexivity.
Qed.

Example size_case : exists n st,
  runs calm lists initial (VGlobal "prelude:EmptyList") [] (the_list n) st /\
  exists l1 l2, runs calm lists st (VGlobal "prelude:PrependToList") [VNone; the_list n] l1 st /\
  runs calm lists st (VGlobal "prelude:PrependToList") [VGlobal "f"; l1] l2 st /\
  sequence calm lists st l2 [VGlobal "f"; VNone] st /\
  exists z, runs calm lists st (VGlobal "prelude:ListSize") [l2] (VNumber z) st.
Proof.
  pose proof lists_links as L. pose proof lists_declares as D.
  destruct (empty_list_sequence calm lists initial L D (proj1 (fair_always calm lists L D))) as (l & st & H & _ & _ & K).
  destruct (K st) as (n & -> & Kn). exists n, st. split; [exact H|].
  destruct (prepend_sequence_law calm lists st VNone n L D) as (l1 & H1 & K1).
  pose proof (K1 _ _ _ (K st)) as S1. destruct S1 as (n1 & -> & S1).
  destruct (prepend_sequence_law calm lists st (VGlobal "f") n1 L D) as (l2 & H2 & K2).
  exists (the_list n1), l2. split; [exact H1|]. split; [exact H2|].
  assert (S2 : sequence calm lists st l2 [VGlobal "f"; VNone] st) by (apply K2; exists n1; auto).
  split; [exact S2|]. destruct (size_law calm lists st l2 _ st L D S2) as (z & Hz & _). eauto.
Qed.

(** The lists 1 and 1, 2 are not equal; the lists 1, 2 and 1, 2 are. *)
Definition number_element (z : Z) : value :=
  VClosure (Fdef "x" [] [] TVariant (Op (OVariant TNumber) [Lit (LNumber z)]) false) [].
Definition number_equal : value :=
  VClosure (Fdef "eq" [] [("a", TVariant); ("b", TVariant)] TBoolean
    (Case (Var "a") [Alt [TNumber] "a"
      (Case (Var "b") [Alt [TNumber] "b" (Op (OCompare Equal) [Var "a"; Var "b"])] None)] None) false) [].
Definition boxed_number (z : Z) (u : value) : Prop := u = VVariant TNumber (VNumber z).

Example equal_case : forall xs ys, exists x y,
  stable calm lists (fair calm lists) (gives calm lists (fair calm lists) boxed_number) x xs /\
  stable calm lists (fair calm lists) (gives calm lists (fair calm lists) boxed_number) y ys /\
  exists st', runs calm lists initial (VGlobal "prelude:EqualLists") [number_equal; x; y] (VBool (equal_with Z.eqb xs ys)) st'.
Proof.
  pose proof lists_links as L. pose proof lists_declares as D.
  set (Inv := fair calm lists). set (P := gives calm lists Inv boxed_number).
  assert (B : forall xs, exists n, stable_nodes calm lists Inv P n xs).
  { induction xs as [|z xs [n IH]].
    - exists empty_node. intros st F. exists st. split; [apply empty_node_runs; assumption|exact F].
    - destruct (prepend_stable calm lists L D Inv P initial z (number_element z) n xs) as (n' & _ & K); [|exact IH|eauto].
      intros st F. exists (VVariant TNumber (VNumber z)), st. split; [|split; [exact F|reflexivity]].
      exists 1. intros [|k] Hk; [lia|]. reflexivity. }
  intros xs ys. destruct (B xs) as [n Hn]. destruct (B ys) as [n' Hn'].
  exists (the_list n), (the_list n'). split; [exists n; auto|]. split; [exists n'; auto|].
  destruct (equal_lists_law calm lists Inv Z boxed_number Z.eqb number_equal (the_list n) (the_list n') xs ys initial L D)
    as (st' & H & _); [exists n; auto|exists n'; auto| |apply fair_always; auto|eauto].
  intros a b _ _ st u v F -> ->. exists st. split; [|exact F]. exists 1. intros [|k] Hk; [lia|]. reflexivity.
Qed.

(** The literal [1, ...l] *)
Example demo_names : list_names demo_config.
Proof. constructor; reflexivity. Qed.
Example literal_case : exists e,
  compile 10 list_env list_records demo_config 10 (HList HirType.TNumber [Single (HNumber 1); Multiple (HVariable "l")]) = Ok e /\
  imports_lists list_env /\ sees_globals lists [("l", the_list empty_node)] /\ fair calm lists initial.
Proof.
  eexists. split; [vm_compute; reflexivity|]. split; [reflexivity|]. split; [|apply fair_initial].
  intros g d H. apply List.find_some in H as [H Eq]. apply String.eqb_eq in Eq. subst g. cbn in H.
  repeat (destruct H as [<-|H]; [reflexivity|]). destruct H.
Qed.

(** *** C47: a lazy value is computed at most once *)
(** [later st st']: [st'] comes after [st] in a run: calls, and evaluations of code,
    whether they end well or not. *)
Inductive later (md : mode) (w : world) (m : mmodule) : state -> state -> Prop :=
| later_same : forall st, later md w m st st
| later_call : forall st n f vs v st1 st2,
    call md w m n st f vs = Done v st1 -> later md w m st1 st2 -> later md w m st st2
| later_eval : forall st n rho e o st1 st2,
    eval md w m (call md w m n) rho st e = o ->
    (exists v, o = Done v st1 \/ o = Return v st1) -> later md w m st1 st2 -> later md w m st st2.

(** Once a call of a thunk has given a value, all later calls give that value at
    once and do nothing else.  Missing: code with an early return, for which the
    claim is false (see C48). *)
Theorem thunk_value_kept_partial : forall md w m n st i d c v st1,
  no_try (f_body d) = true ->
  call md w m n st (VThunk i d c) [] = Done v st1 ->
  forall st2 n', later md w m st1 st2 -> call md w m (S n') st2 (VThunk i d c) [] = Done v st2.
Proof.
  intros md w m n st i d c v st1 NT H st2 n' Hl.
  assert (A : f_args d = []).
  { destruct n; [discriminate|]. cbn in H. destruct (f_args d); [reflexivity|discriminate]. }
  apply thunk_holds in H; [|apply body_no_return, NT].
  apply thunk_again; [exact A|].
  induction Hl as [st2|sta k f vs u stb stc Hc _ IH|sta k rho e o stb stc Ho (u & Hu) _ IH]; [exact H|apply IH..].
  - pose proof (call_holds md w m i v k sta f vs H) as G. rewrite Hc in G. exact G.
  - pose proof (eval_holds md w m i v k rho sta e H) as G. rewrite Ho in G. destruct Hu as [-> | ->]; exact G.
Qed.
Print Assumptions thunk_value_kept_partial.

(** The same for a function without arguments of a module *)
Theorem global_value_kept_partial : forall md w m n st g d v st1,
  find_def (m_defs m) g = Some d -> f_thunk d = true -> no_try (f_body d) = true ->
  call md w m n st (VGlobal g) [] = Done v st1 ->
  forall st2 n', later md w m st1 st2 -> call md w m (S n') st2 (VGlobal g) [] = Done v st2.
Proof.
  intros md w m n st g d v st1 F T NT H st2 n' Hl.
  assert (A : f_args d = []).
  { destruct n; [discriminate|]. cbn in H. rewrite F, T in H. destruct (f_args d); [reflexivity|discriminate]. }
  eapply global_holds in H; [|exact F|exact T|apply body_no_return, NT].
  eapply global_again; eauto.
  induction Hl as [st2|sta k f vs u stb stc Hc _ IH|sta k rho e o stb stc Ho (u & Hu) _ IH]; [exact H|apply IH..].
  - pose proof (call_holds_global md w m g v k sta f vs H) as G. rewrite Hc in G. exact G.
  - pose proof (eval_holds_global md w m g v k rho sta e H) as G. rewrite Ho in G. destruct Hu as [-> | ->]; exact G.
Qed.
Print Assumptions global_value_kept_partial.

(** A thunk that calls the outside, called twice: one call to the outside. *)
Definition answering : world := World (fun _ a b => (a + b)%Z) (fun _ a b => Z.eqb a b) (fun _ => []) (fun seen => TmNumber (Z.of_nat (List.length seen))).
Definition lazy_module : mmodule := MModule [] [("now", TFunction [] TNumber)]
  [Fdef "once" [] [] TNumber (Op (OCall [] TNumber) [Var "now"]) true] [] "".
Example kept_case : exists st,
  call Lexical answering lazy_module 3 initial (VGlobal "once") [] = Done (VNumber 1) st /\ List.length (s_log st) = 1 /\
  call Lexical answering lazy_module 3 st (VGlobal "once") [] = Done (VNumber 1) st.
Proof. eexists. split; [reflexivity|]. split; reflexivity. Qed.
