(** The MIR check of the type information: how values of each type are shown
    and compared at run time. *)
From Coq Require Import String Ascii List ZArith Bool Lia.
From Verif Require Import Base Mir MirTypeCheck MirTypeProofs HirType HirTypeOrder HirTypeSpec HirTypeTermination HirTypeEq HirTypeSub
  Hir HirSpec HirParts HirTyping HirTypeModule HirMir HirProgram LowerTag LowerSwitch LowerTypeSpec LowerTypeBase LowerTypeCode LowerTypeMore
  LowerTypeBuiltin.
Import ListNotations.
Local Open Scope string_scope.

Section Information.
  Variable f : string -> string.
  Variable E : tenv.
  Variable R : renv.
  Variable C : config.
  Variable M : mmodule.
  Variable n : nat.
  Hypothesis X : context_ok f E R.
  Hypothesis K : config_ok E R C.

  Let W : wf f E := ctx_types f E R X.

  Notation lowers := (lowers E C).
  Notation provides := (provides E R C M).
  Notation private := (private E R C).
  Notation LT := (Mir.TRecord (list_type C)).
  Notation MT := (Mir.TRecord (map_type C)).
  Notation fn := Mir.TFunction.

  Ltac part H := eapply provides_part; [|exact H]; let z := fresh in let Hz := fresh in intros z Hz;
    cbn [needs flat_map operation_needs f_body f_name a_body]; rewrite ?in_app_iff; cbn [In]; tauto.
  Ltac hidden := eapply private_dollar; [exact K|reflexivity].

  Lemma variant_single c t m : canon E t c -> lowers t m -> (m = TVariant <-> ~ single c).
  Proof.
    intros Hc L. split.
    - intros -> Sc. destruct (lowers_at _ _ _ _ _ L Hc) as [L' _]. clear L. rename L' into L.
      exact (lower_not_variant C c TVariant Sc L eq_refl).
    - intros N. eapply lowers_not_single; eassumption.
  Qed.

  Lemma concrete_cases t c m : canonicalize n E t = Ok c -> compile_concrete n E C t = Ok m ->
    single c /\ ((exists r, concrete_name n E C c = Ok (Some r) /\ m = Mir.TRecord r) \/ (concrete_name n E C c = Ok None /\ lower C c = Ok m)).
  Proof.
    unfold compile_concrete. intros -> H. cbn [bind] in H.
    destruct c; try discriminate; (split; [exact I|]); bok H o Ho; (destruct o as [r|]; [left; exists r; injection H as <-; auto|right; auto]).
  Qed.

  (** A value of a type as a variant *)
  Lemma variant_value_checks res vars e t m v : variant_value n E C e t = Ok v -> lowers t m ->
    provides vars v -> (provides vars e -> check_expr M res vars e = Some m) -> check_expr M res vars v = Some TVariant.
  Proof.
    unfold variant_value. intros H L P He. bok H mt Hmt. assert (mt = m) as -> by (eapply compiles_fun; [exact Hmt|exact L]).
    unfold compile_type in Hmt. bok Hmt c Hc. assert (Cc : canon E t c) by (exists n; exact Hc). pose proof (canon_idem f E W _ _ Cc) as Ci.
    assert (D : m = TVariant \/ m <> TVariant) by (destruct m; auto; right; discriminate). destruct D as [->|Nm].
    - injection H as <-. exact (He P).
    - assert (H' : bind (compile_concrete n E C t) (fun c => bind (concrete_value n E C e t) (fun v => Ok (Op (OVariant c) [v]))) = Ok v)
        by (destruct m; try exact H; contradiction). clear H. rename H' into H.
      bok H mc Hmc. bok H v' Hv'. injection H as <-. unfold concrete_value in Hv'. rewrite Hc in Hv'. cbn [bind] in Hv'.
      assert (Lc : lowers c m) by (destruct (lowers_at _ _ _ _ _ L Cc); exists c; auto).
      assert (G : mc <> TVariant -> check_expr M res vars v' = Some mc -> check_expr M res vars (Op (OVariant mc) [v']) = Some TVariant).
      { intros Nc Hv. assert (Q : operand_types M (OVariant mc) 1 = Some [mc]) by (destruct mc; try reflexivity; contradiction).
        cbn [check_expr length]. rewrite Q. cbn [check_all]. rewrite Hv, same_type_refl. reflexivity. }
      destruct (concrete_cases _ _ _ Hc Hmc) as [_ [(r & Ho & ->)|[Ho Hl]]].
      + assert (v' = Op (ORecord r) [e]) as -> by (destruct c; try discriminate; rewrite Ho in Hv'; injection Hv' as <-; reflexivity).
        apply G; [discriminate|]. cbn [check_expr length operand_types].
        rewrite (proj1 (proj2 P) r [m]); [|cbn; auto|eapply concrete_record; eassumption].
        cbn [check_all operation_type]. rewrite He by (part P). rewrite same_type_refl. reflexivity.
      + assert (mc = m) as -> by congruence.
        assert (v' = e) as -> by (destruct c; try discriminate; rewrite Ho in Hv'; injection Hv' as <-; reflexivity).
        apply G; [exact Nm|]. apply He. part P.
  Qed.

  (** ** Elements of lists and maps *)
  Lemma element_private x : In x ["hir:debug:element"; "hir:equal:element"] -> private x.
  Proof. intros H t. exact (k_locals _ _ _ K x t H). Qed.

  Lemma debug_element_checks res vars : provides vars debug_element -> check_expr M res vars debug_element = Some debug_type.
  Proof.
    intros P. unfold debug_element. eapply local_function; [exact P|apply element_private; cbn; auto| |reflexivity|].
    - intros x m [Q|[]]. injection Q as <- <-. hidden.
    - intros P'. apply (debug_checks E R C M TByteString); [exact P'|reflexivity].
  Qed.
  Lemma equal_element_checks res vars : provides vars equal_element -> check_expr M res vars equal_element = Some equal_type.
  Proof.
    intros P. unfold equal_element. eapply local_function; [exact P|apply element_private; cbn; auto| |reflexivity|].
    - intros x m [Q|[Q|[]]]; injection Q as <- <-; hidden.
    - intros P'. apply (equal_call_checks E R C M TVariant); [exact P'|reflexivity|reflexivity].
  Qed.

  (** A carried value *)
  Lemma unboxed_checks res vars x t m mc v : canon E t t -> lowers t m -> unboxed_value n E C (Var x) t = Ok v ->
    compile_concrete n E C t = Ok mc -> (match t with TList _ | TMap _ _ => True | _ => False end) ->
    lookup vars x = Some mc -> provides vars v -> check_expr M res vars v = Some m.
  Proof.
    intros Ct L H Hmc T Hx P. unfold unboxed_value in H. rewrite Hmc in H. cbn [bind] in H.
    assert (canonicalize n E t = Ok t) as Hc.
    { unfold compile_concrete in Hmc. bok Hmc c Hc. rewrite Hc. f_equal. eapply canon_fun; [exists n; exact Hc|exact Ct]. }
    destruct (concrete_cases _ _ _ Hc Hmc) as [_ [(r & Ho & ->)|[Ho _]]].
    - injection H as <-. cbn [check_expr length operand_types check_all]. rewrite Hx, same_type_refl. cbn [andb operation_type].
      rewrite (proj1 (proj2 P) r [m]); [reflexivity|cbn; auto|eapply concrete_record; eassumption].
    - exfalso. destruct t; try contradiction; cbn in Ho; [|bok Ho i Hi]; bok Ho j Hj; discriminate.
  Qed.

  Lemma error_source_checks res vars x : lookup vars x = Some (Mir.TRecord error_record) -> provides vars (error_source (Var x)) ->
    check_expr M res vars (error_source (Var x)) = Some TVariant.
  Proof.
    intros Hx P. unfold error_source. cbn [check_expr length operand_types check_all]. rewrite Hx, same_type_refl. cbn [andb operation_type].
    rewrite (proj1 (proj2 P) error_record [TVariant]); [reflexivity|cbn; auto|apply cr_error].
  Qed.

  Lemma field_value_checks res vars name fts x i ft m : lookup R name = Some fts -> nth_error fts i = Some ft -> lowers (snd ft) m ->
    lookup vars x = Some (Mir.TRecord name) -> provides vars (Op (OField name i) [Var x]) ->
    check_expr M res vars (Op (OField name i) [Var x]) = Some m.
  Proof.
    intros Hf Hi L Hx P. destruct (fields_lower E R C K name fts Hf) as [ms F].
    cbn [check_expr length operand_types check_all]. rewrite Hx, same_type_refl. cbn [andb operation_type].
    rewrite (proj1 (proj2 P) name ms); [|cbn; auto|eapply cr_user; eassumption].
    clear - F Hi L. revert i Hi. induction F as [|a y l l' Ha _ IH]; intros [|i] Hi; try discriminate; cbn in *.
    - injection Hi as ->. f_equal. eapply lowers_fun; eassumption.
    - apply IH, Hi.
  Qed.

  Lemma provides_in' vars o es e : In e es -> provides vars (Op o es) -> provides vars e.
  Proof. intros H P. eapply provides_part; [|exact P]. intros z Hz. cbn [needs]. apply in_or_app. right. apply in_flat_map. eauto. Qed.

  (** ** Debug output *)
  Lemma debug_fields_check vars name fts : lookup R name = Some fts -> lookup vars "$x" = Some (Mir.TRecord name) ->
    forall l i es, (forall j ft, nth_error l j = Some ft -> nth_error fts (i + j) = Some ft) -> debug_fields n E C name i l = Ok es ->
    forall e, In e (concat es) -> provides vars e -> check_expr M TByteString vars e = Some TByteString.
  Proof.
    intros Hf Hx l. induction l as [|[x t] l IH]; intros i es I H e He P; cbn [debug_fields] in H; [injection H as <-; destruct He|].
    bok H v Hv. bok H es' Hes. injection H as <-. cbn in He. destruct He as [<-|[<-|He]]; [reflexivity| |].
    - assert (Hi : nth_error fts i = Some (x, t)) by (rewrite <- (PeanoNat.Nat.add_0_r i); apply I; reflexivity).
      destruct (fields_lower E R C K name fts Hf) as [ms F].
      assert (exists m, lowers t m) as [m L].
      { clear - F Hi. revert i Hi. induction F as [|a y l l' Ha _ IH]; intros [|i] Hi; try discriminate; cbn in *; [injection Hi as ->; eauto|eauto]. }
      apply (debug_checks E R C M); [exact P|]. eapply variant_value_checks; [exact Hv|exact L|unfold debug_call in P; part P|].
      intros P'. eapply field_value_checks; [exact Hf|exact Hi|exact L|exact Hx|exact P'].
    - eapply IH; [|exact Hes|exact He|exact P]. intros j ft Hj. replace (S i + j) with (i + S j) by lia. apply (I (S j)), Hj.
  Qed.

  Lemma separated_in {A} (s : A) l x : In x (separated s l) -> x = s \/ In x (concat l).
  Proof.
    induction l as [|a l IH]; [intros []|]. cbn [separated concat]. destruct l as [|b l].
    - intros H. right. apply in_or_app. auto.
    - intros H. apply in_app_or in H. destruct H as [H|[H|H]]; [right; apply in_or_app; auto|auto|].
      destruct (IH H) as [G|G]; [auto|right; apply in_or_app; auto].
  Qed.

  Lemma concat_checks res vars es : (forall e, In e es -> check_expr M res vars e = Some TByteString) ->
    check_expr M res vars (Op OConcat es) = Some TByteString.
  Proof.
    intros H. cbn [check_expr operand_types]. rewrite check_all_intro; [reflexivity|].
    induction es as [|e es IH]; cbn; constructor; [apply H; left; reflexivity|apply IH; intros; apply H; right; assumption].
  Qed.

  Lemma canonical_concrete t mc : canon E t t -> compile_concrete n E C t = Ok mc -> canonicalize n E t = Ok t.
  Proof. intros Ct H. unfold compile_concrete in H. bok H c Hc. rewrite Hc. f_equal. eapply canon_fun; [exists n; exact Hc|exact Ct]. Qed.

  Lemma plain_concrete t mc : canon E t t -> compile_concrete n E C t = Ok mc ->
    (match t with TFunction _ _ | TList _ | TMap _ _ => False | _ => True end) -> lower C t = Ok mc.
  Proof.
    intros Ct H T. destruct (concrete_cases _ _ _ (canonical_concrete _ _ Ct H) H) as [_ [(r & Ho & _)|[_ Hl]]]; [|exact Hl].
    destruct t; try contradiction; discriminate.
  Qed.

  Lemma debug_body_checks vars t mc e : proper E t -> canon E t t -> compile_concrete n E C t = Ok mc -> debug_body n E R C t = Ok e ->
    lookup vars "$x" = Some mc -> provides vars e -> check_expr M TByteString vars e = Some TByteString.
  Proof.
    intros Pt Ct Hmc He Hx P. assert (exists m, lowers t m) as [m L].
    { apply proper_lowers, Pt. }
    destruct t; cbn [debug_body] in He; try discriminate.
    - injection He as <-. pose proof (plain_concrete _ _ Ct Hmc I) as Q. injection Q as <-. cbn [check_expr]. rewrite Hx. reflexivity.
    - injection He as <-. pose proof (plain_concrete _ _ Ct Hmc I) as Q. injection Q as <-. apply concat_checks.
      intros e [<-|[<-|[<-|[]]]]; try reflexivity. apply (debug_checks E R C M); [eapply provides_in'; [|exact P]; cbn; auto|].
      apply error_source_checks; [exact Hx|]. unfold debug_call in P. part P.
    - injection He as <-. reflexivity.
    - bok He v Hv. injection He as <-. cbn [check_expr length operand_types check_all operation_type].
      rewrite (proj1 P (list_debug C) _ (or_introl eq_refl) (cn_list_debug E R C)).
      rewrite (unboxed_checks _ _ _ _ _ _ _ Ct L Hv Hmc I Hx) by (eapply provides_in'; [|exact P]; cbn; auto).
      rewrite (debug_element_checks) by (eapply provides_in'; [|exact P]; cbn; auto).
      rewrite (lowers_list _ _ _ _ L). unfold text, list_mtype, debug_type. cbn [check_expr]. rewrite !same_type_refl. reflexivity.
    - bok He v Hv. injection He as <-. cbn [check_expr length operand_types check_all operation_type].
      rewrite (proj1 P (map_debug C) _ (or_introl eq_refl) (cn_map_debug E R C)).
      rewrite (unboxed_checks _ _ _ _ _ _ _ Ct L Hv Hmc I Hx) by (eapply provides_in'; [|exact P]; cbn; auto).
      rewrite (debug_element_checks) by (eapply provides_in'; [|exact P]; cbn; auto 6).
      rewrite (lowers_map _ _ _ _ _ L). unfold text, map_mtype, debug_type. cbn [check_expr]. rewrite !same_type_refl. reflexivity.
    - injection He as <-. reflexivity.
    - injection He as <-. pose proof (plain_concrete _ _ Ct Hmc I) as Q. injection Q as <-. cbn [check_expr length operand_types check_all operation_type].
      rewrite (proj1 P (number_debug C) _ (or_introl eq_refl) (cn_number_debug E R C)), Hx. rewrite !same_type_refl. reflexivity.
    - bok He fts Hf. bok He es Hes. injection He as <-. pose proof (plain_concrete _ _ Ct Hmc I) as Q. injection Q as <-.
      unfold resolve_record in Hf. destruct (lookup R name) as [fts'|] eqn:Hf'; [|discriminate]. injection Hf as ->.
      apply concat_checks. intros e He. assert (Pe : provides vars e) by (eapply provides_in'; [exact He|exact P]).
      destruct He as [<-|He]; [reflexivity|]. apply in_app_or in He. destruct He as [He|[<-|[]]]; [|reflexivity].
      apply separated_in in He. destruct He as [->|He]; [reflexivity|].
      eapply debug_fields_check; [exact Hf'|exact Hx| |exact Hes|exact He|exact Pe]. intros j ft Hj. exact Hj.
    - injection He as <-. pose proof (plain_concrete _ _ Ct Hmc I) as Q. injection Q as <-. apply concat_checks.
      intros e [<-|[<-|[<-|[]]]]; try reflexivity. exact Hx.
  Qed.

  Lemma one_case_checks res vars x y mc body de r : mc <> TVariant -> private y -> lookup vars x = Some TVariant ->
    (provides vars body -> check_expr M res ((y, mc) :: vars) body = Some r) ->
    (forall z d, de = Some (z, d) -> check_expr M res ((z, TVariant) :: vars) d = Some r) ->
    provides vars (Case (Var x) [Alt [mc] y body] de) -> check_expr M res vars (Case (Var x) [Alt [mc] y body] de) = Some r.
  Proof.
    intros N Py Hx Hb Hd P. cbn [check_expr]. rewrite Hx. rewrite same_type_refl. cbn [check_alternatives a_types a_name a_body existsb alt_type].
    assert (mtype_eqb TVariant mc = false) as ->.
    { apply not_true_is_false. intros Q. apply mtype_eqb_eq in Q. congruence. }
    cbn [orb]. rewrite Hb by (part P). destruct de as [[z d]|]; [|reflexivity]. rewrite (Hd z d eq_refl), same_type_refl. reflexivity.
  Qed.

  Lemma debug_definition_checks vars t fd : proper E t -> canon E t t -> debug_definition n E R C t = Ok fd -> provides vars (f_body fd) ->
    check_definition M vars fd = true.
  Proof.
    intros Pt Ct H P. unfold debug_definition in H. bok H name Hn. bok H e He. bok H mc Hmc. injection H as <-. unfold check_definition. cbn [f_result f_env f_args f_body app rev] in *.
    assert (P' : provides (("$x", TVariant) :: vars) (Case (Var "$x") [Alt [mc] "$x" e] None)) by (apply provides_bind; [hidden|exact P]).
    rewrite (one_case_checks TByteString ((("$x", TVariant) :: vars)) "$x" "$x" mc e None TByteString); [apply same_type_refl| |hidden|reflexivity| |discriminate|exact P'].
    - eapply concrete_not_variant, Hmc.
    - intros Pe. eapply debug_body_checks; [exact Pt|exact Ct|exact Hmc|exact He|apply lookup_same|]. apply provides_bind; [hidden|exact Pe].
  Qed.

  (** ** Comparison *)
  Lemma provides_case vars a y mc body de : provides vars (Case a [Alt [mc] y body] de) -> provides vars body.
  Proof. intros P. part P. Qed.

  Lemma merged_checks vars l r : provides vars (merged_result l r) ->
    check_expr M TVariant vars l = Some TVariant -> check_expr M TVariant (("$lhs_result", Mir.TBoolean) :: vars) r = Some TVariant ->
    check_expr M TVariant vars (merged_result l r) = Some TVariant.
  Proof.
    intros P Hl Hr. unfold merged_result. cbn [check_expr]. rewrite Hl. rewrite same_type_refl. cbn [check_alternatives a_types a_name a_body existsb alt_type mtype_eqb orb].
    cbn [check_expr]. rewrite Hr. rewrite same_type_refl. reflexivity.
  Qed.

  Lemma results_needs name l : forall i e e', equal_field_results n E C name i l e = Ok e' -> incl (needs e) (needs e').
  Proof.
    induction l as [|[x t] l IH]; intros i e e' H; cbn [equal_field_results] in H; [injection H as <-; apply incl_refl|].
    bok H a Ha. bok H b Hb. intros z Hz. apply (IH _ _ _ H). unfold merged_result. cbn [needs flat_map operation_needs a_body]. rewrite !in_app_iff. tauto.
  Qed.

  Lemma results_check vars name fts : lookup R name = Some fts ->
    lookup vars "$lhs" = Some (Mir.TRecord name) -> lookup vars "$rhs" = Some (Mir.TRecord name) ->
    forall l i e e', (forall j ft, nth_error l j = Some ft -> nth_error fts (i + j) = Some ft) ->
      equal_field_results n E C name i l e = Ok e' -> provides vars e' ->
      check_expr M TVariant vars e = Some TVariant -> check_expr M TVariant vars e' = Some TVariant.
  Proof.
    intros Hf Hl Hr l. induction l as [|[x t] l IH]; intros i e e' I H P He; cbn [equal_field_results] in H; [injection H as <-; exact He|].
    bok H a Ha. bok H b Hb. pose proof (results_needs _ _ _ _ _ H) as Inc.
    eapply IH; [|exact H|exact P|].
    - intros j ft Hj. replace (S i + j) with (i + S j) by lia. apply (I (S j)), Hj.
    - assert (Hi : nth_error fts i = Some (x, t)) by (rewrite <- (PeanoNat.Nat.add_0_r i); apply I; reflexivity).
      destruct (fields_lower E R C K name fts Hf) as [ms F].
      assert (exists m, lowers t m) as [m L].
      { clear - F Hi. revert i Hi. induction F as [|a y l l' Ha _ IH]; intros [|i] Hi; try discriminate; cbn in *; [injection Hi as ->; eauto|eauto]. }
      assert (Pm : provides vars (merged_result e (equal_call a b))) by (eapply provides_part; [exact Inc|exact P]).
      apply merged_checks; [exact Pm|exact He|]. set (vars' := ("$lhs_result", Mir.TBoolean) :: vars).
      assert (Pe : provides vars' (equal_call a b)) by (apply provides_bind; [hidden|unfold merged_result in Pm; part Pm]).
      apply (equal_call_checks E R C M); [exact Pe| |]; (eapply variant_value_checks; [eassumption|exact L|unfold equal_call in Pe; part Pe|]);
        (intros P'; eapply field_value_checks; [exact Hf|exact Hi|exact L| |exact P']; unfold vars'; rewrite lookup_other by discriminate; assumption).
  Qed.

  Lemma equal_body_checks vars t mc e : proper E t -> canon E t t -> compile_concrete n E C t = Ok mc -> equal_body n E R C t = Ok e ->
    lookup vars "$lhs" = Some mc -> lookup vars "$rhs" = Some mc -> provides vars e -> check_expr M TVariant vars e = Some TVariant.
  Proof.
    intros Pt Ct Hmc He Hl Hr P. assert (exists m, lowers t m) as [m L].
    { apply proper_lowers, Pt. }
    destruct t; cbn [equal_body] in He; try discriminate.
    - injection He as <-. pose proof (plain_concrete _ _ Ct Hmc I) as Q. injection Q as <-. cbn [check_expr boolean_variant length operand_types check_all]. rewrite Hl, Hr. reflexivity.
    - injection He as <-. pose proof (plain_concrete _ _ Ct Hmc I) as Q. injection Q as <-.
      apply (equal_call_checks E R C M); [exact P| |]; (apply error_source_checks; [assumption|unfold equal_call in P; part P]).
    - injection He as <-. reflexivity.
    - bok He v Hv. bok He w Hw. injection He as <-. cbn [check_expr length operand_types check_all operation_type].
      rewrite (proj1 P (list_maybe_equal C) _ (or_introl eq_refl) (cn_list_maybe_equal E R C)).
      rewrite (unboxed_checks _ _ _ _ _ _ _ Ct L Hv Hmc I Hl) by (eapply provides_in'; [|exact P]; cbn; auto).
      rewrite (unboxed_checks _ _ _ _ _ _ _ Ct L Hw Hmc I Hr) by (eapply provides_in'; [|exact P]; cbn; auto).
      rewrite (equal_element_checks) by (eapply provides_in'; [|exact P]; cbn; auto).
      rewrite (lowers_list _ _ _ _ L). unfold list_mtype, equal_type. rewrite !same_type_refl. reflexivity.
    - bok He v Hv. bok He w Hw. injection He as <-. cbn [check_expr length operand_types check_all operation_type].
      rewrite (proj1 P (map_maybe_equal C) _ (or_introl eq_refl) (cn_map_maybe_equal E R C)).
      rewrite (unboxed_checks _ _ _ _ _ _ _ Ct L Hv Hmc I Hl) by (eapply provides_in'; [|exact P]; cbn; auto).
      rewrite (unboxed_checks _ _ _ _ _ _ _ Ct L Hw Hmc I Hr) by (eapply provides_in'; [|exact P]; cbn; auto).
      rewrite (equal_element_checks) by (eapply provides_in'; [|exact P]; cbn; auto).
      rewrite (lowers_map _ _ _ _ _ L). unfold map_mtype, equal_type. rewrite !same_type_refl. reflexivity.
    - injection He as <-. reflexivity.
    - injection He as <-. pose proof (plain_concrete _ _ Ct Hmc I) as Q. injection Q as <-. cbn [check_expr boolean_variant length operand_types check_all operation_type].
      rewrite Hl, Hr. rewrite !same_type_refl. reflexivity.
    - bok He fts Hf. pose proof (plain_concrete _ _ Ct Hmc I) as Q. injection Q as <-.
      unfold resolve_record in Hf. destruct (lookup R name) as [fts'|] eqn:Hf'; [|discriminate]. injection Hf as ->.
      eapply results_check; [exact Hf'|exact Hl|exact Hr| |exact He|exact P|reflexivity]. intros j ft Hj. exact Hj.
    - injection He as <-. pose proof (plain_concrete _ _ Ct Hmc I) as Q. injection Q as <-. cbn [check_expr boolean_variant length operand_types check_all operation_type].
      rewrite (proj1 P (string_equal C) _ (or_introl eq_refl) (cn_string_equal E R C)), Hl, Hr. rewrite !same_type_refl. reflexivity.
  Qed.

  Lemma reflect_equal_definition_checks vars t fd : proper E t -> canon E t t -> reflect_equal_definition n E R C t = Ok fd -> provides vars (f_body fd) ->
    check_definition M vars fd = true.
  Proof.
    intros Pt Ct H P. unfold reflect_equal_definition in H. bok H name Hn. bok H e He. bok H mc Hmc. injection H as <-. unfold check_definition. cbn [f_result f_env f_args f_body app rev] in *.
    set (de := Some ("", boolean_variant (Lit (LBool false)))) in *. set (inner := Case (Var "$rhs") [Alt [mc] "$rhs" e] de) in *.
    set (vars1 := ("$rhs", TVariant) :: ("$lhs", TVariant) :: vars).
    assert (P' : provides vars1 (Case (Var "$lhs") [Alt [mc] "$lhs" inner] de)) by (apply provides_bind; [hidden|apply provides_bind; [hidden|exact P]]).
    assert (Nm : mc <> TVariant) by (eapply concrete_not_variant, Hmc).
    rewrite (one_case_checks TVariant vars1 "$lhs" "$lhs" mc inner de TVariant); [apply same_type_refl|exact Nm|hidden|reflexivity| | |exact P'].
    - intros Pi. assert (Pi' : provides (("$lhs", mc) :: vars1) inner) by (apply provides_bind; [hidden|exact Pi]).
      unfold inner. apply one_case_checks; [exact Nm|hidden|reflexivity| | |exact Pi'].
      + intros Pe. eapply equal_body_checks; [exact Pt|exact Ct|exact Hmc|exact He|reflexivity|reflexivity|]. apply provides_bind; [hidden|exact Pe].
      + intros z d Q. injection Q as <- <-. reflexivity.
    - intros z d Q. injection Q as <- <-. reflexivity.
  Qed.

  Lemma information_thunk_checks vars name x y thunk : lookup vars x = Some debug_type -> lookup vars y = Some equal_type ->
    lookup (m_types M) information_record = Some [debug_type; equal_type] ->
    check_definition M vars (Fdef name [] [] (Mir.TRecord information_record) (Op (ORecord information_record) [Var x; Var y]) thunk) = true.
  Proof.
    intros Hx Hy Hr. unfold check_definition. cbn [f_result f_env f_args f_body app rev check_expr length operand_types]. rewrite Hr.
    cbn [check_all check_expr operation_type]. rewrite Hx, Hy. rewrite !same_type_refl. cbn [andb]. apply same_type_refl.
  Qed.
End Information.
