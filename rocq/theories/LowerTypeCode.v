(** The MIR check of the code the compiler produces for each construct, given
    the checks of its parts. *)
From Coq Require Import String Ascii List ZArith Bool Lia.
From Verif Require Import Base Mir MirTypeCheck MirTypeProofs HirType HirTypeOrder HirTypeSpec HirTypeTermination HirTypeEq HirTypeSub
  Hir HirSpec HirParts HirTyping HirMir LowerTag LowerSwitch LowerTypeSpec LowerTypeBase.
Import ListNotations.
Local Open Scope string_scope.

Lemma check_all_intro check vars es ts :
  Forall2 (fun e t => check vars e = Some t) es ts -> check_all check vars es ts = true.
Proof.
  induction 1 as [|e t es ts He _ IH]; [reflexivity|]. cbn. rewrite He, same_type_refl, IH. reflexivity.
Qed.

Section Code.
  Variable f : string -> string.
  Variable E : tenv.
  Variable R : renv.
  Variable C : config.
  Variable M : mmodule.
  Variable n : nat.
  Hypothesis W : wf f E.
  Hypothesis K : config_ok E R C.

  Notation lowers := (lowers E C).
  Notation provides := (provides E R C M).
  Notation compile := (compile n E R C).
  Notation LT := (Mir.TRecord (list_type C)).
  Notation MT := (Mir.TRecord (map_type C)).
  Notation CT := (Mir.TRecord (map_context C)).
  Notation FT := (Mir.TRecord (list_first_rest C)).
  Notation IT := (Mir.TRecord (iterator_type C)).
  Notation fn := Mir.TFunction.

  Definition yields (res : mtype) (vars : variables) (e : hexpr) (Q : mtype -> Prop) : Prop :=
    forall k e', compile k e = Ok e' -> provides vars e' -> exists m, Q m /\ check_expr M res vars e' = Some m.
  Definition checks (res : mtype) (vars : variables) (e : hexpr) (m : mtype) : Prop := yields res vars e (eq m).
  Definition good (res : mtype) (vars : variables) (e : hexpr) (t : ty) : Prop := yields res vars e (lowers t).

  Lemma checks_at res vars e m k e' :
    checks res vars e m -> compile k e = Ok e' -> provides vars e' -> check_expr M res vars e' = Some m.
  Proof. intros H H1 H2. destruct (H k e' H1 H2) as (? & <- & G). exact G. Qed.

  Lemma good_checks res vars e t m : good res vars e t -> lowers t m -> checks res vars e m.
  Proof. intros H L k e' H1 H2. destruct (H k e' H1 H2) as (m' & L' & G). exists m'. split; [eapply lowers_fun; eassumption|exact G]. Qed.
  Lemma checks_good res vars e t m : checks res vars e m -> lowers t m -> good res vars e t.
  Proof. intros H L k e' H1 H2. destruct (H k e' H1 H2) as (? & <- & G). eauto. Qed.
  Lemma good_teq res vars e s t : good res vars e s -> teq E s t -> good res vars e t.
  Proof. intros H Q k e' H1 H2. destruct (H k e' H1 H2) as (m & L & G). exists m. split; [eapply lowers_teq; eassumption|exact G]. Qed.
  Lemma yields_pre res vars e Q : (forall k e', compile k e = Ok e' -> yields res vars e Q) -> yields res vars e Q.
  Proof. intros H k e' H1. exact (H k e' H1 k e' H1). Qed.
  Lemma yields_alike res vars vars' e Q : alike vars vars' -> yields res vars e Q -> yields res vars' e Q.
  Proof.
    intros A H k e' H1 H2. destruct (H k e' H1) as (m & Hm & G).
    - eapply provides_alike; [|exact H2]. intros x. symmetry. apply A.
    - exists m. split; [exact Hm|]. rewrite <- (check_ext M e' res vars vars' A). exact G.
  Qed.

  (** *** Names *)
  Definition private (x : string) : Prop := forall t, ~ compiler_name E R C x t.
  Lemma private_dollar x : prefix "$" x = true -> private x.
  Proof. intros H t Hx. destruct (k_names _ _ _ K x t Hx) as [_ G]. congruence. Qed.
  Lemma private_empty : private "".
  Proof. intros t Hx. destruct (k_names _ _ _ K _ t Hx) as [G _]. apply G. reflexivity. Qed.
  Lemma private_free x : free_name E R C x -> private x.
  Proof. intros [_ H]. exact H. Qed.

  Lemma type_record x : In x [list_type C; map_type C; map_context C; list_first_rest C; map_empty_type C; iterator_type C] ->
    lowers (TReference x) (Mir.TRecord x) /\ lowers (TUnion (TReference x) TNone) TVariant.
  Proof.
    intros H. destruct (k_types _ _ _ K x H) as [[o Ho] P]. split; [eapply lowers_reference; eassumption|eapply lowers_reference_or_none; eassumption].
  Qed.
  Lemma l_list : lowers (list_reference C) LT. Proof. apply (type_record (list_type C)). cbn. tauto. Qed.
  Lemma l_map : lowers (map_reference C) MT. Proof. apply (type_record (map_type C)). cbn. tauto. Qed.
  Lemma l_context : lowers (context_reference C) CT. Proof. apply (type_record (map_context C)). cbn. tauto. Qed.
  Lemma l_first_rest : lowers (TReference (list_first_rest C)) FT. Proof. apply (type_record (list_first_rest C)). cbn. tauto. Qed.
  Lemma l_first_rest_or_none : lowers (TUnion (TReference (list_first_rest C)) TNone) TVariant. Proof. apply (type_record (list_first_rest C)). cbn. tauto. Qed.
  Lemma l_iterator : lowers (TReference (iterator_type C)) IT. Proof. apply (type_record (iterator_type C)). cbn. tauto. Qed.
  Lemma l_iterator_or_none : lowers (TUnion (TReference (iterator_type C)) TNone) TVariant. Proof. apply (type_record (iterator_type C)). cbn. tauto. Qed.
  Lemma l_empty : lowers (TReference (map_empty_type C)) (Mir.TRecord (map_empty_type C)). Proof. apply (type_record (map_empty_type C)). cbn. tauto. Qed.
  Lemma l_function a r ms m : Forall2 lowers a ms -> lowers r m -> lowers (TFunction a r) (fn ms m).
  Proof. intros H G. apply lowers_function. eauto. Qed.

  Ltac part H := eapply provides_part; [|exact H]; let z := fresh in let Hz := fresh in intros z Hz; cbn [needs flat_map operation_needs f_body f_name]; rewrite ?in_app_iff; cbn [In]; tauto.

  (** *** Simple expressions *)
  Ltac one k H := let k' := fresh in intros k; destruct k as [|k']; [discriminate|]; intros ? H; cbn [HirMir.compile] in H.

  Lemma y_boolean res vars b : checks res vars (HBoolean b) Mir.TBoolean.
  Proof. one k H. injection H as <-. intros _. eexists. split; reflexivity. Qed.
  Lemma y_none res vars : checks res vars HNone Mir.TNone.
  Proof. one k H. injection H as <-. intros _. eexists. split; reflexivity. Qed.
  Lemma y_number res vars z : checks res vars (HNumber z) Mir.TNumber.
  Proof. one k H. injection H as <-. intros _. eexists. split; reflexivity. Qed.
  Lemma y_string res vars s : checks res vars (HString s) TByteString.
  Proof. one k H. injection H as <-. intros _. eexists. split; reflexivity. Qed.
  Lemma y_var res vars x m : lookup vars x = Some m -> checks res vars (HVariable x) m.
  Proof. intros L. one k H. injection H as <-. intros _. exists m. split; [reflexivity|exact L]. Qed.
  Lemma y_name res vars x m : compiler_name E R C x m -> checks res vars (HVariable x) m.
  Proof.
    intros L. one k H. injection H as <-. intros (P & _). exists m. split; [reflexivity|]. apply P; [left; reflexivity|exact L].
  Qed.

  Lemma provides_in vars e es : In e es -> (forall r, incl (flat_map needs es) (needs r) -> provides vars r -> provides vars e).
  Proof. intros H r I P. eapply provides_part; [|exact P]. intros z Hz. apply I. apply in_flat_map. eauto. Qed.

  Lemma compiled_args res vars k args ms es : mapM (compile k) args = Ok es -> Forall2 (checks res vars) args ms ->
    (forall e, In e es -> provides vars e) -> Forall2 (fun e t => check_expr M res vars e = Some t) es ms.
  Proof.
    intros H. apply mapM_ok in H. intros G. revert es H. induction G as [|a m args ms Ha _ IH]; intros es H P; inversion H; subst; constructor.
    - eapply checks_at; [exact Ha|eassumption|]. apply P. left. reflexivity.
    - apply IH; [assumption|]. intros e He. apply P. right. exact He.
  Qed.

  Lemma y_call res vars ft fe args ms m : (forall b, fe <> HBuiltIn b) -> lowers ft (fn ms m) ->
    checks res vars fe (fn ms m) -> Forall2 (checks res vars) args ms -> checks res vars (HCall (Some ft) fe args) m.
  Proof.
    intros Nb L Hf Ha. intros [|k] e' H; [discriminate|].
    assert (H' : bind (compile_signature n E C ft) (fun s =>
            bind (compile k fe) (fun f =>
            bind (mapM (compile k) args) (fun es => Ok (Op (OCall (fst s) (snd s)) (f :: es))))) = Ok e').
    { destruct fe; try exact H. exfalso. eapply Nb. reflexivity. }
    clear H. rename H' into H. bok H s Hs. bok H g Hg. bok H es Hes. injection H as <-. intros P.
    unfold compile_signature in Hs. bok Hs mt Hmt. destruct mt as [| |a r| | | |]; try discriminate. injection Hs as <-. cbn [fst snd] in *.
    assert (fn a r = fn ms m) as Q. { eapply compiles_fun; [exact Hmt|exact L]. } injection Q as -> ->.
    exists m. split; [reflexivity|]. cbn.
    erewrite (checks_at _ _ _ _ _ _ Hf Hg); [|part P]. rewrite !same_type_refl. cbn.
    rewrite check_all_intro; [reflexivity|]. eapply compiled_args; [exact Hes|exact Ha|].
    intros e He. eapply provides_in; [exact He| |exact P]. intros z Hz. cbn. apply in_or_app. auto.
  Qed.

  Lemma y_hcall res vars g a r ms m es : compiler_name E R C g (fn ms m) -> Forall2 lowers a ms -> lowers r m ->
    Forall2 (checks res vars) es ms -> checks res vars (hcall g a r es) m.
  Proof.
    intros Hg Ha Hr He. unfold hcall. eapply y_call; [discriminate|apply l_function; eassumption|apply y_name, Hg|exact He].
  Qed.

  Lemma y_if res vars c a b m : checks res vars c Mir.TBoolean -> checks res vars a m -> checks res vars b m ->
    checks res vars (HIf c a b) m.
  Proof.
    intros Hc Ha Hb. one k H. bok H c' Hc'. bok H a' Ha'. bok H b' Hb'. injection H as <-. intros P.
    exists m. split; [reflexivity|]. cbn.
    rewrite (checks_at _ _ _ _ _ _ Hc Hc') by (part P). rewrite (checks_at _ _ _ _ _ _ Ha Ha') by (part P).
    rewrite (checks_at _ _ _ _ _ _ Hb Hb') by (part P). rewrite !same_type_refl. reflexivity.
  Qed.

  Lemma y_let res vars x t b e m m' : lowers t m -> private (match x with Some x => x | None => "" end) ->
    checks res vars b m -> checks res ((match x with Some x => x | None => "" end, m) :: vars) e m' ->
    checks res vars (HLet x (Some t) b e) m'.
  Proof.
    intros L N Hb He. one k H. bok H t' Ht. injection Ht as <-. bok H mt Hmt. bok H b' Hb'. bok H e'' He'. injection H as <-. intros P.
    assert (mt = m) as -> by (eapply compiles_fun; [exact Hmt|exact L]).
    exists m'. split; [reflexivity|]. cbn [check_expr].
    rewrite (checks_at _ _ _ _ _ _ Hb Hb') by (part P). rewrite !same_type_refl.
    apply (checks_at _ _ _ _ _ _ He He'). apply provides_bind; [exact N|]. part P.
  Qed.

  (** A local function without an environment *)
  Lemma local_function res vars name args r body thunk m (P : provides vars (LetRec (Fdef name [] args r body thunk) (Var name))) :
    private name -> (forall x m, In (x, m) args -> private x) -> m = fn (map snd args) r ->
    (provides (rev args ++ (name, m) :: vars)%list body -> check_expr M r (rev args ++ (name, m) :: vars)%list body = Some r) ->
    check_expr M res vars (LetRec (Fdef name [] args r body thunk) (Var name)) = Some m.
  Proof.
    intros N Na -> H. cbn. unfold f_type. cbn. rewrite H.
    - rewrite !same_type_refl. rewrite String.eqb_refl. reflexivity.
    - apply provides_binds; [intros x m Hx; apply (Na x m), in_rev, Hx|]. apply provides_bind; [exact N|]. part P.
  Qed.

  Lemma y_lambda res vars args r b ms m : Forall2 lowers (map snd args) ms -> lowers r m ->
    (forall x t, In (x, t) args -> private x) ->
    checks m (rev (combine (map fst args) ms) ++ ("$closure", fn ms m) :: vars)%list b m ->
    checks res vars (HLambda args r b) (fn ms m).
  Proof.
    intros La Lr N Hb. one k H. bok H args' Hargs. bok H r' Hr. bok H b' Hb'. injection H as <-. intros P.
    assert (r' = m) as -> by (eapply compiles_fun; [exact Hr|exact Lr]).
    assert (args' = combine (map fst args) ms /\ map snd args' = ms) as [Q1 Q2].
    { clear - La Hargs. apply mapM_ok in Hargs. revert ms La.
      induction Hargs as [|a a' l l' Ha _ IH]; intros ms La; cbn in *; inversion La; subst; [auto|].
      bok Ha t Ht. injection Ha as <-. destruct (IH _ H3) as [-> Q]. cbn.
      match goal with H : lowers (snd a) ?y |- _ => assert (t = y) as -> by (eapply compiles_fun; [exact Ht|exact H]) end.
      rewrite Q. auto. }
    exists (fn ms m). split; [reflexivity|]. eapply local_function; [exact P|apply private_dollar; reflexivity| |rewrite Q2; reflexivity|].
    - intros x mx Hx. rewrite Q1 in Hx. apply in_combine_l in Hx. apply in_map_iff in Hx. destruct Hx as ([y t] & <- & Hy). exact (N y t Hy).
    - rewrite Q1. intros P'. exact (checks_at _ _ _ _ _ _ Hb Hb' P').
  Qed.

  Lemma y_thunk res vars t e m : lowers t m -> checks m (("$thunk", fn [] m) :: vars) e m ->
    checks res vars (HThunk (Some t) e) (fn [] m).
  Proof.
    intros L He. one k H. bok H t' Ht. injection Ht as <-. bok H mt Hmt. bok H e'' He'. injection H as <-. intros P.
    assert (mt = m) as -> by (eapply compiles_fun; [exact Hmt|exact L]).
    exists (fn [] m). split; [reflexivity|]. eapply local_function; [exact P|apply private_dollar; reflexivity|intros ? ? []|reflexivity|].
    intros P'. exact (checks_at _ _ _ _ _ _ He He' P').
  Qed.

  (** *** Type switches *)
  Lemma concrete_record c r m : concrete_name n E C c = Ok (Some r) -> lowers c m -> compiler_record E R C r [m].
  Proof.
    destruct c; cbn [concrete_name]; try discriminate; intros H L; bok H i Hi.
    - injection H as <-. eapply cr_function; [exists n; exact Hi|exact L].
    - injection H as <-. rewrite (lowers_list _ _ _ _ L). eapply cr_list. exists n. exact Hi.
    - bok H j Hj. injection H as <-. rewrite (lowers_map _ _ _ _ _ L). eapply cr_map; eexists; eassumption.
  Qed.

  Lemma concrete_not_variant c m : compile_concrete n E C c = Ok m -> m <> TVariant.
  Proof.
    unfold compile_concrete. intros H. bok H d Hd. destruct d; try discriminate; cbn in H; try (injection H as <-; discriminate).
    - bok H o Ho. bok Ho i Hi. injection Ho as <-. injection H as <-. discriminate.
    - bok H o Ho. bok Ho i Hi. injection Ho as <-. injection H as <-. discriminate.
    - bok H o Ho. bok Ho i Hi. bok Ho j Hj. injection Ho as <-. injection H as <-. discriminate.
  Qed.

  Definition alternative_fits (res : mtype) (vars : variables) (m : mtype) (al : Mir.alt) : Prop :=
    existsb (mtype_eqb TVariant) (a_types al) = false /\ a_types al <> [] /\
    check_expr M res ((a_name al, alt_type (a_types al)) :: vars) (a_body al) = Some m.

  Lemma alternative_checks res vars x t e al m : compile_alternative n E C x t e = Ok al -> private x -> proper E t ->
    provides vars (a_body al) ->
    (forall mb, lowers t mb -> provides ((x, mb) :: vars) e -> check_expr M res ((x, mb) :: vars) e = Some m) ->
    alternative_fits res vars m al.
  Proof.
    unfold compile_alternative. intros H N Pt P He. bok H c Hc. bok H o Ho. pose proof Hc as Hc0.
    assert (Hcc : canon E t c) by (exists n; exact Hc). pose proof (canon_idem f E W _ _ Hcc) as Hi.
    apply (proper_canon E t c Hcc) in Pt. destruct (canon_lowers E C t c Hcc Pt) as (mb & Hmb & Lb).
    assert (Lc : lowers c mb) by (exists c; auto).
    destruct o as [r|].
    - bok H mt Hmt. injection H as <-. cbn [a_types a_name a_body alt_type] in *.
      assert (mt = mb) as -> by (eapply compiles_fun; [exact Hmt|exact Lc]).
      split; [reflexivity|]. split; [discriminate|]. cbn [a_types a_name a_body alt_type check_expr operand_types operation_type length].
      cbn [check_all check_expr lookup]. rewrite String.eqb_refl. rewrite !same_type_refl. cbn [andb].
      assert (Q : lookup (m_types M) r = Some [mb]).
      { destruct P as (_ & P & _). apply P; [left; reflexivity|]. eapply concrete_record; eassumption. }
      rewrite Q. cbn [nth_error]. rewrite !same_type_refl.
      rewrite (check_ext M e res _ ((x, mb) :: vars)).
      + apply He; [exact Lb|]. apply provides_bind; [exact N|]. eapply provides_part; [|exact P].
        intros z Hz. cbn. right. right. exact Hz.
      + intros y. cbn. destruct (String.eqb y x); reflexivity.
    - bok H ms Hms. bok H ts Hts. injection H as <-. cbn [a_types a_name a_body] in *.
      destruct (union_members_spec E n c ms Hi Hms) as (S1 & S2 & S3).
      apply mapM_ok in Hts. unfold alternative_fits. cbn [a_types a_name a_body]. split.
      { apply not_true_is_false. intros Q. apply existsb_mtype in Q. clear - Hts Q.
        induction Hts as [|a b l l' Ha _ IH]; [destruct Q|]. destruct Q as [->|Q]; [|auto]. exact (concrete_not_variant _ _ Ha eq_refl). }
      assert (Nn : ms <> []).
      { intros ->. destruct (canon_cform _ _ _ Hi) as [(_ & _ & _ & Q) _]. destruct (members_canonical c) as [|y l]; [contradiction|].
        destruct (proj2 (S1 y)); left; reflexivity. }
      split; [intros ->; inversion Hts; subst; contradiction|].
      assert (alt_type ts = mb) as ->.
      { destruct Hts as [|a b l l' Ha Hl]; [contradiction|]. destruct Hl as [|a' b' l l' Ha' Hl].
        - specialize (S2 a eq_refl). subst a. cbn. unfold compile_concrete in Ha. bok Ha d Hd.
          assert (d = c) as -> by (eapply canon_fun; [exists n; exact Hd|exact Hi]).
          destruct c; try discriminate; rewrite Ho in Ha; cbn in Ha; cbn in Hmb; congruence.
        - cbn. symmetry. eapply lowers_not_single; [exact Hcc| |exact Lb].
          intros Sc. assert (PH : plain_head c) by (destruct c; try contradiction; exact I). specialize (S3 PH). discriminate. }
      apply He; [exact Lb|]. apply provides_bind; [exact N|]. exact P.
  Qed.

  Lemma alternatives_check res vars m alts : Forall (alternative_fits res vars m) alts ->
    forall sofar, sofar = None \/ sofar = Some m ->
    check_alternatives (check_expr M res) vars alts sofar = Some (match alts with [] => sofar | _ => Some m end).
  Proof.
    induction 1 as [|al alts (H1 & H2 & H3) _ IH]; intros sofar S; [reflexivity|]. cbn [check_alternatives].
    rewrite H1. destruct (a_types al) as [|ty0 tys]; [contradiction|]. rewrite H3.
    assert (Q : check_alternatives (check_expr M res) vars alts (Some m) = Some (Some m)).
    { rewrite IH by auto. destruct alts; reflexivity. }
    destruct S as [->| ->]; [exact Q|]. rewrite !same_type_refl. exact Q.
  Qed.

  Lemma equal_any t b : equal_types n E t TAny = Ok b -> b = true -> lowers t TVariant.
  Proof.
    unfold equal_types. intros H ->. bok H c Hc. bok H d Hd. destruct n as [|n']; [discriminate|]. injection Hd as <-.
    assert (c = TAny) as -> by (destruct c; cbn in H; try discriminate; reflexivity).
    exists TAny. split; [exists (S n'); exact Hc|]. split; [reflexivity|intros z []].
  Qed.

  Lemma y_iftype res vars x a bs els m : private x -> checks res vars a TVariant -> (els = None -> bs <> []) ->
    (forall bt b, In (bt, b) bs -> proper E bt) -> (forall et b, els = Some (Some et, b) -> proper E et) ->
    (forall bt b mb, In (bt, b) bs -> lowers bt mb -> checks res ((x, mb) :: vars) b m) ->
    (forall et b mb, els = Some (Some et, b) -> lowers et mb -> checks res ((x, mb) :: vars) b m) ->
    checks res vars (HIfType x a bs els) m.
  Proof.
    intros N Ha Nn Pbs Pel Hbs Hel. one k H. bok H a' Ha'. bok H alts Halts. bok H de Hde. injection H as <-. intros P.
    exists m. split; [reflexivity|]. cbn [check_expr]. rewrite (checks_at _ _ _ _ _ _ Ha Ha') by (part P). rewrite !same_type_refl.
    assert (B : forall bt b al, compile_branch n E C (compile H0) x (bt, b) = Ok al -> proper E bt -> provides vars (a_body al) ->
      (forall mb, lowers bt mb -> checks res ((x, mb) :: vars) b m) -> alternative_fits res vars m al).
    { intros bt b al Hb Pr Pb Hc. unfold compile_branch in Hb. cbn in Hb. bok Hb e' He'.
      eapply alternative_checks; [exact Hb|exact N|exact Pr|exact Pb|]. intros mb L Pe. eapply checks_at; [apply Hc, L|exact He'|exact Pe]. }
    assert (F : Forall (alternative_fits res vars m) (alts ++ fst de)).
    { apply Forall_app. split.
      - apply mapM_ok in Halts. apply Forall_forall. intros al Hal.
        assert (exists b, In b bs /\ compile_branch n E C (compile H0) x b = Ok al) as ([bt b] & Hb & Hc).
        { clear - Halts Hal. induction Halts as [|b y l l' Hb _ IH]; [destruct Hal|]. destruct Hal as [->|Hal]; [eexists; split; [left; reflexivity|exact Hb]|].
          destruct (IH Hal) as (b' & H1 & H2). exists b'. split; [right; exact H1|exact H2]. }
        eapply B; [exact Hc|eapply Pbs, Hb| |intros mb L; eapply Hbs; eassumption].
        eapply provides_part; [|exact P]. intros z Hz. cbn [needs]. rewrite !in_app_iff. right. left.
        apply in_flat_map. exists al. split; [apply in_or_app; auto|exact Hz].
      - unfold compile_else in Hde. destruct els as [[[et|] b]|]; [|discriminate|injection Hde as <-; constructor].
        bok Hde any Hany. destruct any; [bok Hde e' He'; injection Hde as <-; constructor|].
        bok Hde al Hal. injection Hde as <-. cbn [fst]. constructor; [|constructor].
        eapply B; [exact Hal|eapply Pel; reflexivity| |intros mb L; eapply Hel; [reflexivity|exact L]].
        eapply provides_part; [|exact P]. intros z Hz. cbn [needs]. rewrite !in_app_iff. right. left.
        apply in_flat_map. exists al. split; [apply in_or_app; right; left; reflexivity|exact Hz]. }
    rewrite (alternatives_check _ _ _ _ F None (or_introl eq_refl)).
    unfold compile_else in Hde. destruct els as [[[et|] b]|]; [|discriminate|].
    - bok Hde any Hany. destruct any.
      + bok Hde e' He'. injection Hde as <-. cbn [fst snd] in *.
        assert (Q : check_expr M res ((x, TVariant) :: vars) e' = Some m).
        { eapply checks_at; [eapply Hel; [reflexivity|eapply equal_any; [exact Hany|reflexivity]]|exact He'|].
          apply provides_bind; [exact N|]. part P. }
        rewrite Q. destruct (alts ++ [])%list; [reflexivity|]. rewrite !same_type_refl. reflexivity.
      + bok Hde al Hal. injection Hde as <-. cbn [fst snd]. destruct alts; reflexivity.
    - injection Hde as <-. cbn [fst snd]. specialize (Nn eq_refl). apply mapM_ok in Halts. destruct Halts; [contradiction|reflexivity].
  Qed.

  (** *** Conversions *)
  Lemma lower_not_variant c m : single c -> lower C c = Ok m -> m <> TVariant.
  Proof.
    destruct c; cbn; intros S H; try contradiction; try (injection H as <-; discriminate).
    bok H a' Ha. bok H r' Hr. injection H as <-. discriminate.
  Qed.

  Lemma y_coerce res vars s t e ms mt cs ct : lowers s ms -> lowers t mt -> checks res vars e ms ->
    canon E s cs -> canon E t ct ->
    (single cs -> single ct -> ms = mt /\ ((exists a b, cs = TList a /\ ct = TList b) \/ (exists a b c d, cs = TMap a b /\ ct = TMap c d))) ->
    (~ single cs -> ~ single ct) ->
    checks res vars (HCoerce s t e) mt.
  Proof.
    intros Ls Lt He Cs Ct Both Nots. one k H. unfold compile_coercion in H. bok H c Hc. bok H d Hd. bok H e'' He'. intros P.
    assert (c = cs) as -> by (eapply canon_fun; [exists n; exact Hc|exact Cs]).
    assert (d = ct) as -> by (eapply canon_fun; [exists n; exact Hd|exact Ct]).
    exists mt. split; [reflexivity|].
    pose proof (canon_idem f E W _ _ Cs) as Ics.
    assert (Lcs : lower C cs = Ok ms /\ lowers cs ms).
    { destruct (lowers_at E C _ _ _ Ls Cs) as [G1 G2]. split; [exact G1|]. exists cs. auto. }
    destruct Lcs as [Lcs Lcs'].
    set (wrap := bind (concrete_name n E C cs) (fun o =>
        match o with
        | Some r => bind (concrete_value n E C e'' cs) (fun v => Ok (Op (OVariant (Mir.TRecord r)) [v]))
        | None => Panic
        end)) in *.
    assert (Wr : single cs -> wrap = Ok e' -> ~ single ct -> check_expr M res vars e' = Some mt).
    { clear H. intros Sc H Nt. unfold wrap in H. bok H o Ho. destruct o as [r|]; [|discriminate]. bok H v Hv. injection H as <-.
      unfold concrete_value in Hv. bok Hv c Hc'. assert (c = cs) as -> by (eapply canon_fun; [exists n; exact Hc'|exact Ics]).
      assert (v = Op (ORecord r) [e'']) as ->.
      { destruct cs; try discriminate; rewrite Ho in Hv; injection Hv as <-; reflexivity. }
      rewrite (lowers_not_single E C t ct mt Ct Nt Lt).
      cbn. assert (Q : lookup (m_types M) r = Some [ms]).
      { destruct P as (_ & P & _). apply P; [left; reflexivity|]. eapply concrete_record; eassumption. }
      rewrite Q. rewrite (checks_at _ _ _ _ _ _ He He') by (part P). rewrite !same_type_refl. cbn. rewrite mtype_eqb_refl || rewrite String.eqb_refl. reflexivity. }
    assert (At : single cs -> bind (compile_type n E C cs) (fun t => Ok (Op (OVariant t) [e''])) = Ok e' -> ~ single ct ->
      check_expr M res vars e' = Some mt).
    { clear H. intros Sc H Nt. bok H m Hm. injection H as <-. assert (m = ms) as -> by (eapply compiles_fun; [exact Hm|exact Lcs']).
      rewrite (lowers_not_single E C t ct mt Ct Nt Lt). pose proof (lower_not_variant _ _ Sc Lcs) as Nv. cbn.
      assert (Q : operand_types M (OVariant ms) 1 = Some [ms]) by (destruct ms; try reflexivity; contradiction).
      cbn in Q. rewrite Q. cbn. rewrite (checks_at _ _ _ _ _ _ He He') by (part P). rewrite !same_type_refl. reflexivity. }
    assert (Nt : single cs -> (forall a, cs <> TList a) -> (forall a b, cs <> TMap a b) -> ~ single ct).
    { intros Sc N1 N2 St. destruct (Both Sc St) as [_ [(a & b & Q & _)|(a & b & c & d & Q & _)]]; [exact (N1 _ Q)|exact (N2 _ _ Q)]. }
    destruct cs; try (apply At; [exact I|exact H|apply Nt; [exact I|discriminate|discriminate]]).
    - injection H as <-. rewrite (checks_at _ _ _ _ _ _ He He' P). f_equal. injection Lcs as <-. symmetry.
      eapply lowers_not_single; [exact Ct| |exact Lt]. apply Nots. exact (fun x => x).
    - apply Wr; [exact I|exact H|apply Nt; [exact I|discriminate|discriminate]].
    - assert (D : (exists b, ct = TList b) \/ ~ single ct).
      { destruct ct; try (right; intros St; destruct (Both I St) as [_ [(? & ? & _ & Q)|(? & ? & ? & ? & Q & _)]]; discriminate); eauto. }
      destruct D as [[b ->]|D].
      + injection H as <-. rewrite (checks_at _ _ _ _ _ _ He He' P). f_equal. apply (Both I I).
      + apply Wr; [exact I| |exact D]. destruct ct; try exact H. exfalso. apply D. exact I.
    - assert (D : (exists b c, ct = TMap b c) \/ ~ single ct).
      { destruct ct; try (right; intros St; destruct (Both I St) as [_ [(? & ? & Q & _)|(? & ? & ? & ? & _ & Q)]]; discriminate); eauto. }
      destruct D as [(b & c & ->)|D].
      + injection H as <-. rewrite (checks_at _ _ _ _ _ _ He He' P). f_equal. apply (Both I I).
      + apply Wr; [exact I| |exact D]. destruct ct; try exact H. exfalso. apply D. exact I.
    - discriminate.
    - injection H as <-. rewrite (checks_at _ _ _ _ _ _ He He' P). f_equal. injection Lcs as <-. symmetry.
      eapply lowers_not_single; [exact Ct| |exact Lt]. apply Nots. exact (fun x => x).
  Qed.

  Lemma y_coerce_any res vars s e m : lowers s m -> checks res vars e m -> checks res vars (HCoerce s TAny e) TVariant.
  Proof.
    intros L He. pose proof L as L'. apply lowers_canon in L'. destruct L' as (c & Hc & _).
    eapply y_coerce; [exact L|apply lowers_any|exact He|exact Hc|exists 1; reflexivity| |]; [intros _ []|intros _ H; exact H].
  Qed.
End Code.
