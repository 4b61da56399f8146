(** Properties of the equality operations: C09 (equality is structural). *)
From Coq Require Import String List ZArith Bool Lia.
From Verif Require Import Base Mir HirType HirTypeSpec HirTypeTermination HirTypeEq HirTypeSub HirTypeModule HirTypeModuleProofs Hir HirSpec HirMir LowerSpec RunSpec RunProofs ListSpec
  PreludeList ListProofs EqualSpec EqualProofs PropsTypes PropsLower.
Import ListNotations.
Local Open Scope string_scope.

(** *** C09: equality is structural *)
(** [l == r] at the type [t] evaluates its operands from left to right, once each,
    and says whether the data [x] and [y] that they give are the same: numbers as
    the machine compares them, strings with the same bytes, records with the same
    fields, lists with the same elements in the same order, and values of
    different types in a union never.

    Missing: maps; and at the type [none] the operands are not evaluated (see
    [equal_none_drops_operands_refuted]). *)
Theorem equality_structural_partial : forall f n E R C T w m Inv t x y k l r e rho st v st1 st2,
  equality_code f n E R C T w m Inv -> tidy_type f E t -> uses E T t -> ~ teq E t TNone ->
  clear_of_equality n E C m (fun _ => True) True rho -> Inv st2 ->
  operand n E R C w m rho st l v st1 -> value_at E R C w m Inv t x v ->
  (forall rho', same_but "$lhs" rho' rho ->
     exists u, operand n E R C w m rho' st1 r u st2 /\ value_at E R C w m Inv t y u) ->
  (compile n E R C k (HBinary (BinEquality (Some t) HEqual) l r) = Ok e ->
   exists st3, evals w m rho st e (VBool (same w x y)) st3 /\ Inv st3) /\
  (compile n E R C k (HBinary (BinEquality (Some t) HNotEqual) l r) = Ok e ->
   exists st3, evals w m rho st e (VBool (negb (same w x y))) st3 /\ Inv st3).
Proof.
  intros f n E R C T w m Inv t x y k l r e rho st v st1 st2 HC Tt U Nn Cl I Hl Vx Hr.
  pose proof (tidy_wf _ _ _ (rc_tidy _ _ _ _ _ _ _ _ _ _ (ec_records _ _ _ _ _ _ _ _ _ HC))) as W.
  assert (K : forall k e, compile n E R C k (HBinary (BinEquality (Some t) HEqual) l r) = Ok e ->
   exists st3, evals w m rho st e (VBool (same w x y)) st3 /\ Inv st3).
  { intros k' e' H. destruct (canon_ex f E W t (proj1 (proj1 Tt))) as (c & Hc).
    refine (binary_runs f n E R C T w m Inv (fun _ => True) True (ec_records _ _ _ _ _ _ _ _ _ HC) x t c y k' l r e' rho st st2 (equality_compared f n E R C T w m Inv HC x) Tt U Hc H _ Cl I _).
    - exists v, st1. auto.
    - intros ->. exfalso. apply Nn. eapply canon_sound; eassumption. }
  split; [apply K|]. intros H. destruct k as [|k]; [discriminate|]. cbn [compile compile_binary] in H.
  destruct k as [|k]; [discriminate|]. cbn [compile not_equal] in H.
  apply bind_ok in H as (c' & Hc & H). apply bind_ok in H as (a' & Ha & H). apply bind_ok in H as (b' & Hb & H).
  injection H as <-. destruct (K _ _ Hc) as (st3 & H3 & I3). exists st3. split; [|exact I3].
  destruct k as [|k]; [discriminate|]. cbn in Ha, Hb. injection Ha as <-. injection Hb as <-.
  eapply evals_if; [exact H3|]. destruct (same w x y); apply evals_lit.
Qed.
Print Assumptions equality_structural_partial.

(** What [==] computes is an equivalence, if the machine's comparison of numbers is
    (it is not on NaN). *)
Theorem equality_equivalence : forall w,
  (forall a, w_compare w Equal a a = true) ->
  (forall a b, w_compare w Equal a b = w_compare w Equal b a) ->
  (forall a b c, w_compare w Equal a b = true -> w_compare w Equal b c = true -> w_compare w Equal a c = true) ->
  (forall x, same w x x = true) /\ (forall x y, same w x y = same w y x) /\
  (forall x y z, same w x y = true -> same w y z = true -> same w x z = true).
Proof.
  intros w H1 H2 H3. split; [apply same_refl, H1|]. split; [apply same_sym, H2|apply same_trans, H3].
Qed.
Print Assumptions equality_equivalence.

(** The types of [demo] and of the prelude's lists *)
Definition equal_types_module : tmodule :=
  {| tm_defs := tm_defs demo_module ++ tm_defs list_types; tm_aliases := tm_aliases demo_module |}.
Definition equal_env : tenv := collect_env equal_types_module.
Definition equal_records : renv := collect_records equal_types_module.
Definition original (x : string) : string := if prefix "prelude:" x then substring 8 (String.length x) x else x.

Lemma equal_nodup : NoDup (type_names equal_types_module).
Proof. apply (proj1 (no_duplicates_spec (type_names equal_types_module) [])). reflexivity. Qed.
Example equal_wf : wf original equal_env.
Proof.
  constructor.
  - apply types_exist_closed; [apply equal_nodup|reflexivity].
  - apply aliases_not_recursive_spec; [apply equal_nodup|reflexivity].
  - intros x t H. cbn -[String.eqb] in H.
    repeat match type of H with (if ?b then _ else _) = _ => destruct b end;
      try discriminate; injection H as <-; repeat constructor.
    + exact (no_record original "prelude:FirstRest").
    + exact (no_record original "prelude:node").
    + exact (no_record original "prelude:List").
    + exact (no_record original "node").
    + exact (no_record original "point").
Qed.
Example equal_tidy : tidy original equal_env demo_config.
Proof.
  constructor; [exact equal_wf| |exact escape_colon]. intros z u H. cbn -[String.eqb] in H.
  repeat match type of H with (if ?b then _ else _) = _ => destruct b end; try discriminate; injection H as <-;
    intros r Hr; cbn in Hr; repeat (destruct Hr as [<-|Hr]; [split; reflexivity|]); destruct Hr.
Qed.

(** A module with the code for the types of [demo]: points, which are records with
    themselves inside, and lists of points, numbers and strings. *)
Definition demo_points : ty := TUnion (TUnion TNumber (TRecord "point" "point")) TString.
Definition demo_lists (e : ty) : Prop := teq equal_env e demo_points.
Ltac demo_defined := let z := fresh "z" in let H := fresh "H" in intros z H; cbn in H; repeat (destruct H as [<-|H]; [discriminate|]); destruct H.
Lemma demo_lists_teq : forall s s', teq equal_env s s' -> demo_lists s -> demo_lists s'.
Proof. intros s s' H G. eapply teq_trans; [apply teq_sym, H|exact G]. Qed.
Definition or_nothing (r : res fdef) : fdef := match r with Ok d => d | _ => Fdef "" [] [] Mir.TNone (Lit LNone) false end.
Definition point_equal : fdef :=
  or_nothing (compile_definition 20 equal_env equal_records demo_config 20
    (record_equal_definition "point" "point" [("x", TNumber); ("next", TUnion (TReference "point") TNone)])).
Definition points_equal : fdef :=
  or_nothing (bind (equal_definition 20 equal_env equal_records demo_config 20 demo_points)
    (compile_definition 20 equal_env equal_records demo_config 20)).
Definition point_hash : fdef :=
  or_nothing (bind (record_hash_definition 20 equal_env equal_records demo_config 20 "point" "point"
      [("x", TNumber); ("next", TUnion (TReference "point") TNone)])
    (compile_definition 20 equal_env equal_records demo_config 20)).
Definition points_hash : fdef :=
  or_nothing (bind (hash_definition 20 equal_env equal_records demo_config 20 demo_points)
    (compile_definition 20 equal_env equal_records demo_config 20)).
Definition equal_module : mmodule :=
  MModule (("point", [Mir.TNumber; TVariant]) :: list_records_mir)
    [("prelude:EqualStrings", Mir.TFunction [TByteString; TByteString] Mir.TBoolean);
     ("prelude:HashNumber", Mir.TFunction [Mir.TNumber] Mir.TNumber);
     ("prelude:HashString", Mir.TFunction [TByteString] Mir.TNumber);
     ("prelude:CombineHashes", Mir.TFunction [Mir.TNumber; Mir.TNumber] Mir.TNumber)]
    (point_equal :: points_equal :: point_hash :: points_hash :: list_defs) [] "".
(** The outside compares strings and computes hashes. *)
Definition equal_answer (seen : observed_event) : term :=
  match seen with
  | ObCall (FName "prelude:EqualStrings") [ObBytes a; ObBytes b] => TmBool (String.eqb a b)
  | ObCall (FName "prelude:HashNumber") [ObNumber a] => TmNumber a
  | ObCall (FName "prelude:HashString") [ObBytes a] => TmNumber (Z.of_nat (String.length a))
  | ObCall (FName "prelude:CombineHashes") [ObNumber a; ObNumber b] => TmNumber (31 * a + b)%Z
  | _ => TmNone
  end.
Definition equal_world : world :=
  World (fun _ a b => (a + b)%Z) (fun _ a b => Z.eqb a b) (fun _ => []) (fun seen => equal_answer (last seen (ObResult ObNone))).

Example equivalence_case : forall a b c : Z,
  w_compare equal_world Equal a a = true /\ w_compare equal_world Equal a b = w_compare equal_world Equal b a /\
  (w_compare equal_world Equal a b = true -> w_compare equal_world Equal b c = true -> w_compare equal_world Equal a c = true).
Proof.
  intros a b c. cbn. rewrite !Z.eqb_eq. split; [reflexivity|]. split; [apply Z.eqb_sym|congruence].
Qed.

Example equality_code_case :
  equality_code original 20 equal_env equal_records demo_config demo_lists equal_world equal_module (fun _ => True).
Proof.
  constructor; [constructor|constructor].
  - exact equal_tidy.
  - intros s t a b x y _ _. intros _ _ H; apply escape_inj, H.
  - reflexivity.
  - reflexivity.
  - discriminate.
  - intros st a b _. eexists. split; [|exact I]. exists 1. intros [|k] Hk; [lia|].
    cbn -[String.eqb]. unfold outside. cbn -[String.eqb]. rewrite map_app. cbn -[String.eqb]. rewrite last_last. cbn -[String.eqb]. reflexivity.
  - intros r o fts _ _ Hc Hr. cbn -[String.eqb] in Hr.
    do 3 (match type of Hr with (if String.eqb _ ?s then _ else _) = _ => destruct (String.eqb_spec r s) as [->|_]; [vm_compute in Hc; discriminate Hc|] end).
    destruct (String.eqb_spec r "node") as [->|_]; [vm_compute in Hc; discriminate Hc|].
    destruct (String.eqb_spec r "point") as [->|_]; [|discriminate]. injection Hr as <-. clear Hc. split; [|split].
    + repeat constructor; cbn; intuition discriminate.
    + intros x t [[= <- <-]|[[= <- <-]|[]]]; (split; [demo_tidy|]).
      * eapply uses_members with (f := original) (c := TNumber);
          [exact equal_wf|demo_defined|exists 9; reflexivity|discriminate|exact demo_lists_teq|].
        intros x [<-|[]] s [].
      * eapply uses_members with (f := original) (c := TUnion TNone (TRecord "point" "point"));
          [exact equal_wf|demo_defined|exists 9; reflexivity|discriminate|exact demo_lists_teq|].
        intros x [<-|[<-|[]]] s [].
    + exists 20, point_equal. split; vm_compute; reflexivity.
  - repeat split; reflexivity.
  - intros d H. cbn in H. repeat (destruct H as [<-|H]; [reflexivity|]). destruct H.
  - intros r t H. cbn in H. repeat (destruct H as [[= <- <-]|H]; [reflexivity|]). destruct H.
  - intros e He Hc.
    assert (e = demo_points) as ->.
    { eapply (teq_canon_eq original equal_env equal_wf); [exact He|exact Hc|exists 9; reflexivity]. }
    split; [unfold demo_points; demo_tidy; exact (no_record original "point")|]. split.
    + eapply uses_members with (f := original) (c := demo_points);
        [exact equal_wf|demo_defined|exists 9; reflexivity|discriminate|exact demo_lists_teq|].
      intros x [<-|[<-|[<-|[]]]] s [].
    + eexists 20, 20, _, points_equal. split; [vm_compute; reflexivity|]. split; vm_compute; reflexivity.
Qed.

(** A list with the given elements, made of functions that return what they hold *)
Definition holds (v : value) : value := VClosure (Fdef "f" [] [] TVariant (Var "v") false) [("v", v)].
Lemma holds_runs w m st v : runs w m st (holds v) [] v st.
Proof. exists 1. intros [|k] Hk; [lia|]. reflexivity. Qed.
Fixpoint held_nodes (bs : list value) : value :=
  match bs with [] => holds the_end | b :: bs => holds (the_node (holds b) (held_nodes bs)) end.

(** [[point { x: 1, next: none }, "a"]], and the same with "b" *)
Definition point_value (x : Z) : value := VRecord "point" [VNumber x; VVariant Mir.TNone VNone].
Definition held (s : string) : value :=
  the_list (held_nodes [VVariant (Mir.TRecord "point") (point_value 1); VVariant TByteString (VBytes s)]).
Definition held_data (s : string) : data :=
  DList demo_points [DRecord "point" "point" [DNumber 1; DNone]; DString s].

Example held_case s :
  value_at equal_env equal_records demo_config equal_world equal_module (fun _ => True) (TList (TReference "points")) (held_data s) (held s).
Proof.
  assert (Hl : has_alt equal_env (TList (TReference "points")) (TList demo_points)).
  { exists (TList (TReference "points")). split; [apply alt_self; discriminate|]. apply teq_list. apply canon_sound. exists 9. reflexivity. }
  split; [split; [exact Hl|exists 9; reflexivity]|].
  exists (held s). eexists. split; [|split].
  - eexists. split; [reflexivity|]. cbn [held_nodes stable_nodes].
    intros st _. do 3 eexists. split; [apply holds_runs|]. split; [exact I|]. split.
    { intros st1 _. do 2 eexists. split; [apply holds_runs|]. split; [exact I|]. split.
      { split; [|exists 9; reflexivity]. exists (TRecord "point" "point"). split; [|apply teq_refl].
        apply alt_left, alt_right, alt_self; discriminate. }
      exists (point_value 1). split; [|constructor].
      do 2 eexists. split; [reflexivity|]. split; [reflexivity|]. cbn. split; [|split; [|exact I]].
      - split; [split; [exists TNumber; split; [apply alt_self; discriminate|apply teq_refl]|exists 9; reflexivity]|].
        do 2 eexists. split; [reflexivity|]. split; [constructor|]. left. split; [apply teq_refl|reflexivity].
      - split; [split; [exists TNone; split; [apply alt_right, alt_self; discriminate|apply teq_refl]|exists 9; reflexivity]|].
        do 2 eexists. split; [reflexivity|]. split; [constructor|]. right. split; [|reflexivity].
        intros Q. assert (G : TUnion TNone (TRecord "point" "point") = TNone); [|discriminate G].
        eapply (teq_canon_eq original equal_env equal_wf); [exact Q|exists 9; reflexivity|exists 9; reflexivity]. }
    intros st1 _. do 3 eexists. split; [apply holds_runs|]. split; [exact I|]. split.
    { intros st2 _. do 2 eexists. split; [apply holds_runs|]. split; [exact I|]. split.
      { split; [|exists 9; reflexivity]. exists TString. split; [|apply teq_refl].
        apply alt_right, alt_self; discriminate. }
      exists (VBytes s). split; [reflexivity|constructor]. }
    intros st2 _. eexists. split; [apply holds_runs|exact I].
  - apply boxed_list with (i := escape "((number|record(point))|string)").
    exists 9, "((number|record(point))|string)". split; vm_compute; reflexivity.
  - left. split; [|reflexivity]. apply teq_list. apply canon_sound. exists 9. reflexivity.
Qed.

Example equality_case : exists e,
  compile 20 equal_env equal_records demo_config 20
    (HBinary (BinEquality (Some (TList (TReference "points"))) HEqual) (HVariable "x") (HVariable "y")) = Ok e /\
  forall s t st, exists st', evals equal_world equal_module [("x", held s); ("y", held t)] st e (VBool (String.eqb s t)) st'.
Proof.
  eexists. split; [vm_compute; reflexivity|]. intros s t st.
  match goal with |- exists _, evals _ _ _ _ ?e _ _ => destruct (equality_structural_partial original 20 equal_env equal_records demo_config demo_lists equal_world equal_module (fun _ => True)
    (TList (TReference "points")) (held_data s) (held_data t) 20 (HVariable "x") (HVariable "y") e [("x", held s); ("y", held t)] st (held s) st st
    equality_code_case) as [H _] end.
  - demo_tidy.
  - eapply uses_members with (f := original) (c := TList demo_points);
      [exact equal_wf|demo_defined|exists 9; reflexivity|discriminate|exact demo_lists_teq|].
    intros x [<-|[]] u [<-|[]]. apply teq_refl.
  - intros Q. assert (G : TList demo_points = TNone); [|discriminate G].
    eapply (teq_canon_eq original equal_env equal_wf); [exact Q|exists 9; reflexivity|exists 9; reflexivity].
  - intros g _ Hg. cbn. destruct (String.eqb_spec g "x") as [->|_]; [elim Hg; reflexivity|].
    destruct (String.eqb_spec g "y") as [->|_]; [elim Hg; reflexivity|reflexivity].
  - exact I.
  - intros [|k] e' Hk; [discriminate|]. injection Hk as <-. apply evals_var. reflexivity.
  - apply held_case.
  - intros rho' S. exists (held t). split; [|apply held_case].
    intros [|k] e' Hk; [discriminate|]. injection Hk as <-. apply evals_var. rewrite S by discriminate. reflexivity.
  - destruct H as (st' & H1 & _); [vm_compute; reflexivity|]. exists st'. replace (String.eqb s t) with (same equal_world (held_data s) (held_data t)); [exact H1|].
    cbn -[String.eqb]. apply andb_true_r.
Qed.

(** At the type [none], the operands are not evaluated: a call of [log] is lost. *)
Definition none_module : mmodule := MModule [] [("log", Mir.TFunction [] Mir.TNone)] [] [] "".
Theorem equal_none_drops_operands_refuted :
  let l := hcall "log" [] TNone [] in
  exists st1, operand 20 equal_env equal_records demo_config equal_world none_module [] initial l VNone st1 /\
    value_at equal_env equal_records demo_config equal_world none_module (fun _ => True) TNone DNone VNone /\
    s_log st1 <> s_log initial /\
  exists e, compile 20 equal_env equal_records demo_config 20 (HBinary (BinEquality (Some TNone) HEqual) l HNone) = Ok e /\
    evals equal_world none_module [] initial e (VBool true) initial.
Proof.
  eexists. split; [|split; [|split]].
  - intros [|[|k]] e Hk; try discriminate. cbn in Hk. injection Hk as <-. exists 1. intros [|j] Hj; [lia|]. reflexivity.
  - split; [split; [exists TNone; split; [apply alt_self; discriminate|apply teq_refl]|exists 9; reflexivity]|].
    do 2 eexists. split; [reflexivity|]. split; [constructor|]. left. split; [apply teq_refl|reflexivity].
  - discriminate.
  - eexists. split; [vm_compute; reflexivity|]. apply (evals_lit equal_world none_module [] initial (LBool true)).
Qed.
Print Assumptions equal_none_drops_operands_refuted.
