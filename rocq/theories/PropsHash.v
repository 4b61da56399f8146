(** Properties of hashes: C10 (equal keys have equal hashes). *)
From Coq Require Import String List ZArith NArith Bool Lia.
From Verif Require Import Base Hash HamtExamples Mir MirTypeCheck HirType HirTypeSpec HirTypeTermination HirTypeEq HirTypeSub HirTypeModule HirTypeModuleProofs Hir HirSpec HirMir LowerSpec RunSpec RunProofs ListSpec
  PreludeList ListProofs EqualSpec EqualProofs HashCodeSpec HashCodeProofs PropsTypes PropsLower PropsEqual.
Import ListNotations.
Local Open Scope string_scope.

(** *** C10: equal keys have equal hashes *)
(** If two numbers are equal as the machine compares them, they have the same hash:
    zeros of both signs do, and NaN is not equal to anything. *)
Theorem equal_numbers_equal_hashes : forall a b, number_eqb a b = true -> Hash.hash_number a = Hash.hash_number b.
Proof. exact number_hash. Qed.
Print Assumptions equal_numbers_equal_hashes.

Example zeros_case : number_eqb 0 9223372036854775808 = true /\ 0%N <> 9223372036854775808%N.
Proof. split; [reflexivity|discriminate]. Qed.

(** The hash functions that the compiler generates return a number for all data
    without lists, and the same number for data that are the same as [==] sees it,
    whatever their types [s] and [t] and whatever happened before.

    Missing: lists and maps.  For lists it is false: see [list_hash_refuted].
    Unions in records have different alternatives: see
    [redundant_union_hash_refuted]. *)
Theorem equal_keys_equal_hashes_partial : forall f n E R C T w m Inv hn hs hc,
  equality_code f n E R C T w m Inv -> hash_code n E R C w m Inv hn hs hc ->
  (forall a b, w_compare w Equal a b = true -> hn a = hn b) ->
  forall s t j k p q c d x y a b st st',
  tidy_type f E s -> uses E T s -> canon E s s -> tidy_type f E t -> uses E T t -> canon E t t ->
  hash_definition n E R C j s = Ok p -> compile_definition n E R C k p = Ok c -> find_def (m_defs m) (fst p) = Some c ->
  hash_definition n E R C j t = Ok q -> compile_definition n E R C k q = Ok d -> find_def (m_defs m) (fst q) = Some d ->
  list_free x -> list_free y ->
  value_as_any E R C w m Inv s x a -> value_as_any E R C w m Inv t y b -> Inv st -> Inv st' ->
  same w x y = true ->
  exists h st1 st2, runs w m st (VGlobal (fst p)) [a] (VNumber h) st1 /\ runs w m st' (VGlobal (fst q)) [b] (VNumber h) st2.
Proof.
  intros f n E R C T w m Inv hn hs hc HC HH N s t j k p q c d x y a b st st' Ts Us Cs Tt Ut Ct Hp Hc Fp Hq Hd Fq Lx Ly Vx Vy I I' S.
  destruct (function_hash f n E R C T w m Inv HC hn hs hc HH s j k p c x a st Ts Us Cs Hp Hc Fp Lx Vx I) as (st1 & R1 & _).
  destruct (function_hash f n E R C T w m Inv HC hn hs hc HH t j k q d y b st' Tt Ut Ct Hq Hd Fq Ly Vy I') as (st2 & R2 & _).
  do 3 eexists. split; [exact R1|]. rewrite (digest_same C w hn hs hc N x y S). exact R2.
Qed.
Print Assumptions equal_keys_equal_hashes_partial.

Example hash_code_case : hash_code 20 equal_env equal_records demo_config equal_world equal_module (fun _ => True)
  (fun z => z) (fun s => Z.of_nat (String.length s)) (fun a b => 31 * a + b)%Z.
Proof.
  constructor.
  - reflexivity.
  - reflexivity.
  - discriminate.
  - intros st z _. eexists. split; [|exact I]. exists 1. intros [|k] Hk; [lia|].
    cbn -[String.eqb]. unfold outside. cbn -[String.eqb]. rewrite map_app. cbn -[String.eqb]. rewrite last_last. cbn -[String.eqb]. reflexivity.
  - discriminate.
  - intros st s _. eexists. split; [|exact I]. exists 1. intros [|k] Hk; [lia|].
    cbn -[String.eqb]. unfold outside. cbn -[String.eqb]. rewrite map_app. cbn -[String.eqb]. rewrite last_last. cbn -[String.eqb]. reflexivity.
  - discriminate.
  - intros st a b _. eexists. split; [|exact I]. exists 1. intros [|k] Hk; [lia|].
    cbn -[String.eqb Z.mul Z.add]. unfold outside. cbn -[String.eqb Z.mul Z.add]. rewrite map_app. cbn -[String.eqb Z.mul Z.add]. rewrite last_last. cbn -[String.eqb Z.mul Z.add]. reflexivity.
  - intros r o fts Hc Hr. cbn -[String.eqb] in Hr.
    do 3 (match type of Hr with (if String.eqb _ ?s then _ else _) = _ => destruct (String.eqb_spec r s) as [->|_]; [vm_compute in Hc; discriminate Hc|] end).
    destruct (String.eqb_spec r "node") as [->|_]; [vm_compute in Hc; discriminate Hc|].
    destruct (String.eqb_spec r "point") as [->|_]; [|discriminate]. injection Hr as <-. split.
    + intros x t [[= <- <-]|[[= <- <-]|[]]] l r Hw.
      * inversion Hw.
      * exists TNone, (TRecord "point" "point"). split; [demo_defined|]. split; [demo_defined|]. split; [|split].
        -- exists TNone. split; [apply alt_right, alt_self; discriminate|apply teq_refl].
        -- exists (TRecord "point" "point"). split; [|apply teq_refl]. apply alt_left. eapply alt_alias; [reflexivity|]. apply alt_self; discriminate.
        -- intros Q. assert (G : TNone = TRecord "point" "point"); [|discriminate G].
           eapply (teq_canon_eq original equal_env equal_wf); [exact Q|exists 9; reflexivity|exists 9; reflexivity].
    + eexists 20, 20, _, point_hash. split; [vm_compute; reflexivity|]. split; vm_compute; reflexivity.
Qed.

(** The record [point { x: 1, next: none }], as a number, a record or a string *)
Definition point_data : data := DRecord "point" "point" [DNumber 1; DNone].
Example point_data_case :
  value_as_any equal_env equal_records demo_config equal_world equal_module (fun _ => True) demo_points point_data
    (VVariant (Mir.TRecord "point") (point_value 1)).
Proof.
  split.
  { split; [|exists 9; reflexivity]. exists (TRecord "point" "point"). split; [|apply teq_refl].
    apply alt_left, alt_right, alt_self; discriminate. }
  exists (point_value 1). split; [|constructor].
  do 2 eexists. split; [reflexivity|]. split; [reflexivity|]. cbn. split; [|split; [|exact I]].
  - split; [split; [exists TNumber; split; [apply alt_self; discriminate|apply teq_refl]|exists 9; reflexivity]|].
    do 2 eexists. split; [reflexivity|]. split; [constructor|]. left. split; [apply teq_refl|reflexivity].
  - split; [split; [exists TNone; split; [apply alt_right, alt_self; discriminate|apply teq_refl]|exists 9; reflexivity]|].
    do 2 eexists. split; [reflexivity|]. split; [constructor|]. right. split; [|reflexivity].
    intros Q. assert (G : TUnion TNone (TRecord "point" "point") = TNone); [|discriminate G].
    eapply (teq_canon_eq original equal_env equal_wf); [exact Q|exists 9; reflexivity|exists 9; reflexivity].
Qed.

Example hash_case : forall st st', exists h st1 st2,
  runs equal_world equal_module st (VGlobal (f_name points_hash)) [VVariant (Mir.TRecord "point") (point_value 1)] (VNumber h) st1 /\
  runs equal_world equal_module st' (VGlobal (f_name points_hash)) [VVariant (Mir.TRecord "point") (point_value 1)] (VNumber h) st2.
Proof.
  intros st st'.
  assert (Tp : tidy_type original equal_env demo_points) by (unfold demo_points; demo_tidy; exact (no_record original "point")).
  assert (Up : uses equal_env demo_lists demo_points).
  { eapply uses_members with (f := original) (c := demo_points);
      [exact equal_wf|demo_defined|exists 9; reflexivity|discriminate|exact demo_lists_teq|].
    intros x [<-|[<-|[<-|[]]]] s []. }
  assert (Cp : canon equal_env demo_points demo_points) by (exists 9; reflexivity).
  destruct (hash_definition 20 equal_env equal_records demo_config 20 demo_points) as [p| | |] eqn:Hp; try (vm_compute in Hp; discriminate Hp).
  assert (Fp : fst p = f_name points_hash) by (vm_compute in Hp; injection Hp as <-; vm_compute; reflexivity).
  assert (Hc : compile_definition 20 equal_env equal_records demo_config 20 p = Ok points_hash) by (unfold points_hash; rewrite Hp; vm_compute in Hp; injection Hp as <-; vm_compute; reflexivity).
  rewrite <- Fp.
  refine (equal_keys_equal_hashes_partial original 20 equal_env equal_records demo_config demo_lists equal_world equal_module (fun _ => True) _ _ _
    equality_code_case hash_code_case _ demo_points demo_points 20 20 p p points_hash points_hash point_data point_data _ _ st st'
    Tp Up Cp Tp Up Cp Hp Hc _ Hp Hc _ _ _ point_data_case point_data_case I I _).
  - intros a b. cbn. apply Z.eqb_eq.
  - rewrite Fp. vm_compute; reflexivity.
  - rewrite Fp. vm_compute; reflexivity.
  - cbn; auto.
  - cbn; auto.
  - reflexivity.
Qed.

(** The hash of a list with an element has no meaning: the prelude's [HashList]
    gives the function that hashes elements a node of the list instead. *)
Definition number_hash_function : fdef :=
  or_nothing (bind (hash_definition 20 equal_env equal_records demo_config 20 TNumber)
    (compile_definition 20 equal_env equal_records demo_config 20)).
Definition numbers_hash_function : fdef :=
  or_nothing (bind (hash_definition 20 equal_env equal_records demo_config 20 (TList TNumber))
    (compile_definition 20 equal_env equal_records demo_config 20)).
Definition list_hash_module : mmodule :=
  MModule (("hir:list:number", [Mir.TRecord "prelude:List"]) :: list_records_mir) ((combine_name, Mir.TFunction [Mir.TNumber; Mir.TNumber] Mir.TNumber) :: m_declared equal_module) (number_hash_function :: numbers_hash_function :: list_defs) [] "".
Definition one_number : value := the_list (held_nodes [VVariant Mir.TNumber (VNumber 1)]).
Definition one_number_any : value := VVariant (Mir.TRecord "hir:list:number") (VRecord "hir:list:number" [one_number]).
Theorem list_hash_refuted : exists def,
  hash_definition 20 equal_env equal_records demo_config 20 (TList TNumber) = Ok def /\
  compile_definition 20 equal_env equal_records demo_config 20 def = Ok numbers_hash_function /\
  find_def (m_defs list_hash_module) (fst def) = Some numbers_hash_function /\
  value_as_any equal_env equal_records demo_config equal_world list_hash_module (fun _ => True)
    (TList TNumber) (DList TNumber [DNumber 1]) one_number_any /\
  forall n, 40 <= n -> call Lexical equal_world list_hash_module n initial (VGlobal (fst def)) [one_number_any] = Wrong.
Proof.
  eexists. split; [vm_compute; reflexivity|]. split; [vm_compute; reflexivity|]. split; [vm_compute; reflexivity|]. split.
  - split; [split; [|exists 9; reflexivity]; exists (TList TNumber); split; [apply alt_self; discriminate|apply teq_refl]|].
    exists one_number. split.
    + eexists. split; [reflexivity|]. cbn [held_nodes stable_nodes].
      intros st _. do 3 eexists. split; [apply holds_runs|]. split; [exact I|]. split.
      { intros st1 _. do 2 eexists. split; [apply holds_runs|]. split; [exact I|]. split.
        { split; [|exists 9; reflexivity]. exists TNumber. split; [apply alt_self; discriminate|apply teq_refl]. }
        exists (VNumber 1). split; [reflexivity|constructor]. }
      intros st1 _. eexists. split; [apply holds_runs|exact I].
    + apply (boxed_list equal_env demo_config TNumber "number"). exists 9, "number". split; vm_compute; reflexivity.
  - intros n Hn. replace n with (40 + (n - 40)) by lia. generalize (n - 40). intros k. vm_compute. reflexivity.
Qed.
Print Assumptions list_hash_refuted.

(** The code that hashes a record with a field of type [number | number] has no
    meaning and is refused by the type checker, unlike the code that compares such
    records. *)
Definition redundant_module : tmodule := {|
  tm_defs := [{| td_name := "r"; td_original := "r"; td_fields := [("x", TUnion TNumber TNumber)] |}]; tm_aliases := [] |}.
Definition redundant_env : tenv := collect_env redundant_module.
Definition redundant_records : renv := collect_records redundant_module.
Example redundant_wf : wf (fun x => x) redundant_env.
Proof.
  constructor.
  - apply types_exist_closed; [|reflexivity]. apply (proj1 (no_duplicates_spec (type_names redundant_module) [])). reflexivity.
  - apply aliases_not_recursive_spec; [|reflexivity]. apply (proj1 (no_duplicates_spec (type_names redundant_module) [])). reflexivity.
  - intros x t H. cbn -[String.eqb] in H.
    repeat match type of H with (if ?b then _ else _) = _ => destruct b end;
      try discriminate; injection H as <-; repeat constructor.
    exact (no_record (fun x => x) "r").
Qed.
Theorem redundant_union_hash_refuted : exists q equal hash,
  wf (fun x => x) redundant_env /\ comparable 20 redundant_env redundant_records (TRecord "r" "r") = Ok true /\
  compile_definition 20 redundant_env redundant_records demo_config 20
    (record_equal_definition "r" "r" [("x", TUnion TNumber TNumber)]) = Ok equal /\
  record_hash_definition 20 redundant_env redundant_records demo_config 20 "r" "r" [("x", TUnion TNumber TNumber)] = Ok q /\
  compile_definition 20 redundant_env redundant_records demo_config 20 q = Ok hash /\
  let code ds := MModule [("r", [Mir.TNumber])] (("debug", Mir.TFunction [TVariant] TByteString) :: m_declared equal_module) ds [] "debug" in
  type_check (code [equal]) = true /\ type_check (code [equal; hash]) = false /\
  value_at redundant_env redundant_records demo_config equal_world (code [equal; hash]) (fun _ => True)
    (TRecord "r" "r") (DRecord "r" "r" [DNumber 1]) (VRecord "r" [VNumber 1]) /\
  forall n, 20 <= n -> call Lexical equal_world (code [equal; hash]) n initial (VGlobal (f_name hash)) [VRecord "r" [VNumber 1]] = Wrong.
Proof.
  do 3 eexists. split; [|split; [vm_compute; reflexivity|]].
  { exact redundant_wf. }
  split; [vm_compute; reflexivity|]. split; [vm_compute; reflexivity|]. split; [vm_compute; reflexivity|].
  cbn zeta. split; [vm_compute; reflexivity|]. split; [vm_compute; reflexivity|]. split.
  - split; [split; [|exists 9; reflexivity]; exists (TRecord "r" "r"); split; [apply alt_self; discriminate|apply teq_refl]|].
    exists (VRecord "r" [VNumber 1]). eexists. split; [|split; [constructor|left; split; [apply teq_refl|reflexivity]]].
    do 2 eexists. split; [reflexivity|]. split; [reflexivity|]. cbn. split; [|exact I].
    split; [split; [|exists 9; reflexivity]; exists TNumber; split; [apply alt_left, alt_self; discriminate|apply teq_refl]|].
    do 2 eexists. split; [reflexivity|]. split; [constructor|]. left. split; [|reflexivity].
    apply canon_sound. exists 9. reflexivity.
  - intros n Hn. replace n with (20 + (n - 20)) by lia. generalize (n - 20). intros k. vm_compute. reflexivity.
Qed.
Print Assumptions redundant_union_hash_refuted.
