(** Properties of the lowering of HIR to MIR: C08 (type switches), C46
    (conversions at run time). *)
From Coq Require Import String Ascii List ZArith Bool.
From Verif Require Import Base Mir HirType HirTypeModule HirTypeSpec HirTypeTermination HirTypeEq HirTypeSub HirTypeId
  Hir HirSpec HirTyping HirMir LowerSpec LowerTag LowerSwitch PropsTypes.
Import ListNotations.
Local Open Scope string_scope.

(** *** A configuration for the examples (names: cmd/pen/src/compile_configuration.rs 22-78) *)
(** A hash without collisions and without colons *)
Fixpoint escape (s : string) : string :=
  match s with
  | EmptyString => EmptyString
  | String c s => if Ascii.eqb c ":" then "!;" ++ escape s else if Ascii.eqb c "!" then "!!" ++ escape s else String c (escape s)
  end.

Lemma escape_colon s : has_char ":" (escape s) = false.
Proof.
  induction s as [|c s IH]; [reflexivity|]. cbn [escape]. destruct (Ascii.eqb c ":") eqn:E1; [exact IH|].
  destruct (Ascii.eqb c "!") eqn:E2; [exact IH|]. cbn [has_char]. rewrite Ascii.eqb_sym, E1. exact IH.
Qed.

Lemma escape_inj s : forall t, escape s = escape t -> s = t.
Proof.
  induction s as [|c s IH]; intros [|d t] H; [reflexivity| | |]; cbn [escape] in H.
  - destruct (Ascii.eqb d ":"); [discriminate|]. destruct (Ascii.eqb d "!"); discriminate.
  - destruct (Ascii.eqb c ":"); [discriminate|]. destruct (Ascii.eqb c "!"); discriminate.
  - destruct (Ascii.eqb c ":") eqn:E1; destruct (Ascii.eqb d ":") eqn:E2.
    + apply Ascii.eqb_eq in E1, E2. subst. cbn in H. injection H as H. f_equal. auto.
    + destruct (Ascii.eqb d "!") eqn:E3; [discriminate|]. cbn in H. injection H as <- _. discriminate.
    + destruct (Ascii.eqb c "!") eqn:E3; [discriminate|]. cbn in H. injection H as -> _. discriminate.
    + destruct (Ascii.eqb c "!") eqn:E3; destruct (Ascii.eqb d "!") eqn:E4.
      * apply Ascii.eqb_eq in E3, E4. subst. cbn in H. injection H as H. f_equal. auto.
      * cbn in H. injection H as <- _. discriminate.
      * cbn in H. injection H as -> _. discriminate.
      * injection H as -> H. f_equal. auto.
Qed.

Definition demo_config : config := {|
  list_empty := "prelude:EmptyList"; list_concatenate := "prelude:ConcatenateLists"; list_equal := "prelude:EqualLists";
  list_maybe_equal := "prelude:MaybeEqualLists"; list_prepend := "prelude:PrependToList";
  list_deconstruct := "prelude:FirstRest"; list_lazy := "prelude:LazyList"; list_first := "prelude:First";
  list_rest := "prelude:Rest"; list_type := "prelude:List"; list_first_rest := "prelude:FirstRest";
  list_size := "prelude:ListSize"; list_debug := "prelude:DebugList";
  map_context_function := "prelude:NewMapContext"; map_context := "prelude:MapContext"; map_delete := "prelude:DeleteMap";
  map_empty := "prelude:NewMap"; map_empty_type := "prelude:Empty"; map_equal := "prelude:EqualMaps";
  map_maybe_equal := "prelude:MaybeEqualMaps"; map_get := "prelude:GetMap"; map_type := "prelude:Map";
  map_merge := "prelude:MergeMaps"; map_set := "prelude:SetMap"; map_size := "prelude:MapSize";
  map_debug := "prelude:DebugMap"; hash_combine := "prelude:CombineHashes"; hash_number := "prelude:HashNumber";
  hash_string := "prelude:HashString"; hash_list := "prelude:HashList"; hash_map := "prelude:HashMap";
  iterator_type := "prelude:MapIterator"; iterate_map := "prelude:IterateMap"; iterator_key := "prelude:MapIteratorKey";
  iterator_value := "prelude:MapIteratorValue"; iterator_rest := "prelude:MapIteratorRest";
  number_debug := "prelude:DebugNumber"; string_equal := "prelude:EqualStrings";
  c_hash := escape; c_identity := fun _ => 0%Z; c_format := fun _ => "" |}.

Example demo_tidy : tidy (fun x => x) demo demo_config.
Proof.
  constructor; [exact demo_wf| |exact escape_colon].
  intros z u H. unfold demo, collect_env in H.
  cbn [demo_module tm_defs tm_aliases map rev app lookup td_name td_original] in H.
  repeat match type of H with (if ?b then _ else _) = _ => destruct b end; try discriminate; injection H as <-;
    intros r Hr; cbn in Hr; repeat (destruct Hr as [<-|Hr]; [split; reflexivity|]); destruct Hr.
Qed.

Example demo_collision_free : collision_free demo demo_config (fun _ => True).
Proof. intros s t n m x y _ _ _ _ H. apply escape_inj, H. Qed.

Ltac demo_tidy := split; [clear; demo_ok|let r := fresh "r" in let H := fresh "H" in intros r H; cbn in H; repeat (destruct H as [<-|H]; [split; reflexivity|]); destruct H].

(** *** C08: type switches *)
(** Code compiled from [if x = a as t1 { ... } else if t2 { ... } ...] runs the
    body of the first branch that takes the run-time type [al] of the value,
    with [x] bound to the value at the branch's type, whenever some branch
    takes it. *)
Theorem if_type_runs_first_branch : forall f E R C T n k x a bs els e,
  tidy f E C -> collision_free E C T ->
  (forall bt b, In (bt, b) (all_branches bs els) -> tidy_type f E bt /\ (has_alt E bt TAny \/ uses E T bt)) ->
  compile n E R C (S k) (HIfType x a bs els) = Ok e ->
  exists a', compile n E R C k a = Ok a' /\
  forall al v b rho,
    tidy_type f E al -> tags_among T al -> boxed E C al v b ->
    (exists bt body, In (bt, body) (all_branches bs els) /\ takes E bt al) ->
    exists bt body body' u rho',
      first_taking E al (all_branches bs els) (bt, body) /\ compile n E R C k body = Ok body' /\
      seen E bt al v b u /\ binds rho' rho x u /\
      forall md w m call st st', eval md w m call rho st a' = Done b st' ->
        eval md w m call rho st e = eval md w m call rho' st' body'.
Proof.
  intros f E R C T n k x a bs els e Ht HT K H.
  destruct (switch_runs f E R C T Ht HT n k x a bs els e H) as (a' & Ha & S); [intros [bt' b'] Hb; exact (K bt' b' Hb)|].
  exists a'. split; [exact Ha|]. intros al v b rho Ta Ua B (bt & body & Hin & Q).
  destruct (S al v b rho Ta Ua B) as ([bt' body'] & c & u & rho' & H1 & H2 & H3 & H4 & H5); [eauto|].
  exists bt', body', c, u, rho'. auto.
Qed.

(** If the switch is well-typed, some branch takes every value of the type of
    its argument: the switch never fails. *)
Theorem if_type_never_fails : forall f E R C T n k x a bs els e G t,
  tidy f E C -> collision_free E C T ->
  exact E R G (HIfType x a bs els) t ->
  (forall bt b, In (bt, b) (all_branches bs els) -> tidy_type f E bt /\ (has_alt E bt TAny \/ uses E T bt)) ->
  compile n E R C (S k) (HIfType x a bs els) = Ok e ->
  exists a' u, compile n E R C k a = Ok a' /\ exact E R G a u /\
  forall al v b rho,
    tidy_type f E al -> tags_among T al -> boxed E C al v b -> takes E u al ->
    exists bt body body' y rho',
      first_taking E al (all_branches bs els) (bt, body) /\ compile n E R C k body = Ok body' /\
      seen E bt al v b y /\ binds rho' rho x y /\
      forall md w m call st st', eval md w m call rho st a' = Done b st' ->
        eval md w m call rho st e = eval md w m call rho' st' body'.
Proof.
  intros f E R C T n k x a bs els e G t Ht HT X K H.
  destruct (if_type_runs_first_branch f E R C T n k x a bs els e Ht HT K H) as (a' & Ha & S).
  assert (exists u, exact E R G a u /\
    covers E u (map fst bs) (match els with Some (Some t, _) => Some t | _ => None end)) as (u & Xa & Cov).
  { clear - X. remember (HIfType x a bs els) as s eqn:Hs. revert Hs. induction X; intros Hs; try discriminate; auto; inversion Hs; subst; eauto. }
  exists a', u. split; [exact Ha|]. split; [exact Xa|]. intros al v b rho Ta Ua B Q.
  apply (S al v b rho Ta Ua B).
  assert (Conv : forall al', defined E al' -> has_alt E u al' -> exists bt body, In (bt, body) (all_branches bs els) /\ takes E bt al').
  { intros al' D Hal. unfold all_branches. destruct (Cov al' D Hal) as [(bt & Hbt & Hk)|(bt & Hbt & Hk)].
    - apply in_map_iff in Hbt. destruct Hbt as ([bt' body] & <- & Hin). exists bt', body. split; [apply in_or_app; left; exact Hin|exact Hk].
    - destruct els as [[[et|] d]|]; try discriminate. injection Hbt as <-. exists et, d. split; [apply in_or_app; right; left; reflexivity|exact Hk]. }
  destruct Q as [Q|Q].
  - exact (Conv al (proj1 (proj1 Ta)) Q).
  - destruct (Conv TAny) as (bt & body & Hin & Hk); [intros z []|exact Q|].
    exists bt, body. split; [exact Hin|]. right. destruct Hk; assumption.
Qed.

(** [if z = y as point { z } else if [number] { z } else { z }] *)
Definition demo_switch : hexpr :=
  HIfType "z" (HVariable "y")
    [(TReference "point", HNumber 1); (TUnion (TList TNumber) (TReference "scalar"), HNumber 2)] (Some (Some TAny, HNumber 3)).

Example if_type_case :
  tidy (fun x => x) demo demo_config /\ collision_free demo demo_config (fun _ => True) /\
  exact demo demo_records [("y", TAny)] demo_switch TNumber /\
  (exists e, compile 20 demo demo_records demo_config 20 demo_switch = Ok e) /\
  tidy_type (fun x => x) demo (TList TNumber) /\ tags_among (fun _ => True) (TList TNumber) /\
  (forall v, boxed demo demo_config (TList TNumber) v
     (VVariant (Mir.TRecord "hir:list:number") (VRecord "hir:list:number" [v]))) /\
  takes demo TAny (TList TNumber).
Proof.
  split; [exact demo_tidy|]. split; [exact demo_collision_free|]. split; [|split; [eexists; vm_compute; reflexivity|]].
  - eapply X_if_type_else with (u := TAny).
    + apply X_variable. reflexivity.
    + intros a Sa Q. apply (canon_single demo a TAny Sa). eapply (teq_canon demo TAny); [apply demo_wf|apply demo_wf|exact Q|exists 1; reflexivity].
    + discriminate.
    + intros bt b H. split; [apply sub_top|]. intros A.
      assert (exists c, canon demo bt c /\ c <> TAny) as (c & Hc & N).
      { destruct H as [H|[H|[]]]; injection H as <- <-; (eexists; split; [exists 9; reflexivity|discriminate]). }
      apply (has_alt_any (fun x => x) demo demo_wf bt c) in A; [exact (N A)| |exact Hc].
      destruct H as [H|[H|[]]]; injection H as <- _; clear; intros x H; cbn in H; repeat (destruct H as [<-|H]; [discriminate|]); destruct H.
    + intros bt b [H|[H|[]]]; injection H as <- <-; apply X_number.
    + intros al D _. right. exists TAny. split; [reflexivity|]. right. exists TAny. split; [apply alt_self; discriminate|apply teq_refl].
    + apply X_number.
  - split; [demo_tidy|]. split; [intros s _; exact I|]. split.
    + intros v. exact (boxed_list demo demo_config TNumber "number" v (ex_intro _ 9 (ex_intro _ "number" (conj eq_refl eq_refl)))).
    + right. exists TAny. split; [apply alt_self; discriminate|apply teq_refl].
Qed.

(** *** C46: conversions at run time *)
(** The code of a conversion evaluates its operand once.  It puts a value of a
    single type into the box that type switches open, and leaves values of
    unions, of [any], and lists and maps with wider elements as they are. *)
Theorem conversion_keeps_value : forall f E R C n k s t e c,
  tidy f E C -> tidy_type f E s -> tidy_type f E t -> ~ teq E s t ->
  compile n E R C (S k) (HCoerce s t e) = Ok c ->
  exists e', compile n E R C k e = Ok e' /\
  forall md w m call rho st,
    (forall a v b st', tidy_type f E a -> sub E s t -> teq E s a -> boxed E C a v b -> carried m a b ->
       eval md w m call rho st e' = Done v st' -> eval md w m call rho st c = Done b st') /\
    (has_alt E s TAny \/ (exists a b, has_alt E s a /\ has_alt E s b /\ defined E a /\ defined E b /\ ~ teq E a b) \/ (widens E s t /\ ~ sub E s t) ->
       eval md w m call rho st c = eval md w m call rho st e').
Proof.
  intros f E R C n k s t e c Ht Ts Tt N H.
  assert (exists e', compile n E R C k e = Ok e') as [e' He].
  { cbn [compile] in H. unfold compile_coercion in H. apply bind_ok in H. destruct H as (? & _ & H). apply bind_ok in H. destruct H as (? & _ & H).
    apply bind_ok in H. destruct H as (e' & He & _). eauto. }
  exists e'. split; [exact He|]. intros md w m call rho st.
  destruct (conversion_runs f E R C Ht md w m call n k s t e c Ts Tt N H) as (e2 & He2 & S).
  assert (e2 = e') as -> by congruence. destruct (S rho st) as [S1 S2]. split; [exact S1|].
  intros Q. apply S2. pose proof (tidy_wf _ _ _ Ht) as W. destruct Q as [Q|[Q|Q]]; [left|left|right; exact Q]; intros a Qa P.
  - destruct (canon_ex f E W s (proj1 (proj1 Ts))) as [s' Cs].
    apply (has_alt_any f E W s s' (proj1 (proj1 Ts)) Cs) in Q. subst s'.
    assert (G : canon E a TAny) by (eapply (teq_canon E s); [apply W|apply W|exact Qa|exact Cs]).
    destruct G as [[|q] G]; [discriminate|]. destruct a; cbn [canonicalize] in G; try discriminate; try contradiction;
      repeat (apply bind_ok in G; destruct G as (? & ? & G)); discriminate.
  - destruct Q as (x & y & Ax & Ay & Dx & Dy & Nxy). destruct (canon_ex f E W s (proj1 (proj1 Ts))) as [s' Cs].
    assert (Ca : canon E a s') by (eapply (teq_canon E s); [apply W|apply W|exact Qa|exact Cs]).
    assert (P' : plain_head s').
    { destruct Ca as [[|q] G]; [discriminate|]. destruct a; cbn [canonicalize] in G; try contradiction; try (injection G as <-; exact I);
        repeat (apply bind_ok in G; destruct G as (? & ? & G)); injection G as <-; exact I. }
    assert (Na : s' <> TAny) by (intros ->; contradiction).
    apply (has_alt_canon f E W s s' x (proj1 (proj1 Ts)) Dx Cs Na) in Ax. apply (has_alt_canon f E W s s' y (proj1 (proj1 Ts)) Dy Cs Na) in Ay.
    destruct Ax as (cx & Hx & Ix), Ay as (cy & Hy & Iy).
    assert (M : members_canonical s' = [s']) by (destruct s'; try contradiction; reflexivity). rewrite M in Ix, Iy.
    destruct Ix as [<-|[]], Iy as [<-|[]]. apply Nxy. eapply teq_trans; [apply canon_sound, Hx|apply teq_sym, canon_sound, Hy].
Qed.

Example conversion_case :
  tidy_type (fun x => x) demo (TList TNumber) /\ tidy_type (fun x => x) demo TAny /\ ~ teq demo (TList TNumber) TAny /\
  exists c, compile 20 demo demo_records demo_config 9 (HCoerce (TList TNumber) TAny (HVariable "x")) = Ok c /\
  forall w m call rho st v, lookup rho "x" = Some v -> lookup (m_types m) "hir:list:number" = Some [Mir.TRecord "prelude:List"] ->
    eval Lexical w m call rho st c = Done (VVariant (Mir.TRecord "hir:list:number") (VRecord "hir:list:number" [v])) st.
Proof.
  split; [demo_tidy|]. split; [demo_tidy|]. split.
  - intros Q. assert (TList TNumber = TAny); [|discriminate].
    eapply (teq_canon_eq _ demo demo_wf); [exact Q|exists 9; reflexivity|exists 9; reflexivity].
  - eexists. split; [vm_compute; reflexivity|]. intros w m call rho st v Hv Hm. cbn. unfold eval_var. rewrite Hv. cbn. rewrite Hm. reflexivity.
Qed.

Print Assumptions if_type_runs_first_branch.
Print Assumptions if_type_never_fails.
Print Assumptions conversion_keeps_value.
