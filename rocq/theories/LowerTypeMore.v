(** The MIR check of the code of list, map, equality and record expressions. *)
From Coq Require Import String Ascii List ZArith Bool Lia.
From Verif Require Import Base Mir MirTypeCheck MirTypeProofs HirType HirTypeOrder HirTypeSpec HirTypeTermination HirTypeEq HirTypeSub
  Hir HirSpec HirParts HirTyping HirMir LowerTag LowerSwitch LowerTypeSpec LowerTypeBase LowerTypeCode.
Import ListNotations.
Local Open Scope string_scope.

(** The names programs see *)
Definition visible (x : string) : bool := negb (String.eqb x "") && negb (prefix "$" x).

Definition over (vars vars' : variables) : Prop := forall x, visible x = true -> lookup vars' x = lookup vars x.

Lemma over_refl vars : over vars vars. Proof. intros x _. reflexivity. Qed.
Lemma over_trans a b c : over a b -> over b c -> over a c.
Proof. intros H G x Hx. rewrite (G x Hx). exact (H x Hx). Qed.
Lemma over_bind x m a b : over a b -> over ((x, m) :: a) ((x, m) :: b).
Proof. intros H y Hy. cbn. destruct (String.eqb y x); [reflexivity|exact (H y Hy)]. Qed.
Lemma over_hide x m a b : visible x = false -> over a b -> over a ((x, m) :: b).
Proof. intros N H y Hy. cbn. destruct (String.eqb_spec y x) as [->|_]; [congruence|exact (H y Hy)]. Qed.
Lemma over_app l a b : over a b -> over (l ++ a)%list (l ++ b)%list.
Proof. intros H. induction l as [|[x m] l IH]; [exact H|]. cbn. apply over_bind, IH. Qed.
Lemma over_hides l a b : (forall x m, In (x, m) l -> visible x = false) -> over a b -> over a (l ++ b)%list.
Proof.
  intros N H. induction l as [|[x m] l IH]; [exact H|]. cbn. apply over_hide; [exact (N x m (or_introl eq_refl))|].
  apply IH. intros y k Hy. apply (N y k). right. exact Hy.
Qed.
Lemma over_alike a b : alike a b -> over a b. Proof. intros H x _. symmetry. apply H. Qed.

Lemma lookup_same (vars : variables) x m : lookup ((x, m) :: vars) x = Some m.
Proof. cbn. rewrite String.eqb_refl. reflexivity. Qed.
Lemma lookup_other (vars : variables) x y m : x <> y -> lookup ((y, m) :: vars) x = lookup vars x.
Proof. intros H. cbn. destruct (String.eqb_spec x y); [contradiction|reflexivity]. Qed.

Section More.
  Variable f : string -> string.
  Variable E : tenv.
  Variable R : renv.
  Variable C : config.
  Variable M : mmodule.
  Variable n : nat.
  Hypothesis X : context_ok f E R.
  Hypothesis K : config_ok E R C.

  Let W : wf f E := ctx_types f E R X.

  Notation lowers := (lowers E C).
  Notation provides := (provides E R C M).
  Notation compile := (compile n E R C).
  Notation private := (private E R C).
  Notation yields := (yields E R C M n).
  Notation checks := (checks E R C M n).
  Notation good := (good E R C M n).
  Notation LT := (Mir.TRecord (list_type C)).
  Notation MT := (Mir.TRecord (map_type C)).
  Notation CT := (Mir.TRecord (map_context C)).
  Notation FT := (Mir.TRecord (list_first_rest C)).
  Notation IT := (Mir.TRecord (iterator_type C)).
  Notation fn := Mir.TFunction.

  Ltac part H := eapply provides_part; [|exact H]; let z := fresh in let Hz := fresh in intros z Hz;
    cbn [needs flat_map operation_needs f_body f_name]; rewrite ?in_app_iff; cbn [In]; tauto.
  Ltac one k H := let k' := fresh in intros k; destruct k as [|k']; [discriminate|]; intros ? H; cbn [HirMir.compile] in H.
  Ltac ll := first [apply l_list with (R := R); exact K | apply l_map with (R := R); exact K | apply l_context with (R := R); exact K
    | apply l_first_rest with (R := R); exact K | apply l_first_rest_or_none with (R := R); exact K
    | apply l_iterator with (R := R); exact K | apply l_iterator_or_none with (R := R); exact K
    | apply l_empty with (R := R); exact K
    | apply lowers_any | apply lowers_boolean | apply lowers_none | apply lowers_number | apply lowers_string
    | apply lowers_error | apply lowers_record; assumption
    | apply l_function; [repeat (constructor; [ll|]); constructor|ll] ].
  Ltac lls := repeat (constructor; [ll|]); constructor.
  Ltac hidden := eapply private_dollar; [exact K|reflexivity].

  (** Calls of the compiler's functions.  The argument is the constructor of
      the name. *)
  Ltac call c := eapply y_hcall; [apply c|lls|ll|].

  Lemma yields_step res vars e Q :
    (forall k e', compile (S k) e = Ok e' -> exists d, compile k d = Ok e' /\ yields res vars d Q) -> yields res vars e Q.
  Proof. intros H [|k] e' He; [discriminate|]. destruct (H k e' He) as (d & Hd & Y). exact (Y k e' Hd). Qed.

  Lemma y_downcast res vars t e d m : downcast_code n E TAny t e = Ok d -> lowers t m -> checks res vars e TVariant ->
    checks res vars d m.
  Proof.
    unfold downcast_code. intros H L He. bok H c Hc.
    assert (c = TAny) as -> by (destruct n; [discriminate|]; injection Hc as <-; reflexivity). cbn in H.
    bok H b Hb. destruct b; [|discriminate]. bok H same Hsame. injection H as <-. destruct same.
    - assert (lowers t TVariant) as L'.
      { unfold equal_types in Hsame. bok Hsame c1 Hc1. assert (c1 = TAny) as -> by (destruct n; [discriminate|]; injection Hc1 as <-; reflexivity).
        bok Hsame c2 Hc2. assert (c2 = TAny) as -> by (destruct c2; cbn in Hsame; try discriminate; reflexivity).
        apply lowers_canon. exists TAny. split; [exists n; exact Hc2|]. split; [reflexivity|intros z []]. }
      rewrite (lowers_fun _ _ _ _ _ L L'). exact He.
    - eapply y_iftype; [exact W|hidden|exact He|discriminate| |discriminate| |discriminate].
      { intros bt b [Q|[]]. injection Q as <- <-. eapply lowers_proper, L. }
      intros bt b mb [Q|[]] Lb. injection Q as <- <-. apply y_var. rewrite (lowers_fun _ _ _ _ _ L Lb). apply lookup_same.
  Qed.

  (** *** Lists *)
  Lemma y_list res vars t es m : lowers t m ->
    (forall e, In (Single e) es -> checks TVariant (("$thunk", fn [] TVariant) :: vars) e m) ->
    (forall e, In (Multiple e) es -> checks LT (("$thunk", fn [] LT) :: vars) e LT) ->
    checks res vars (HList t es) LT.
  Proof.
    intros L H1 H2. apply yields_step. intros k e' H. exists (list_literal C t es). split; [exact H|]. clear k e' H. fold (checks res vars (list_literal C t es) LT).
    induction es as [|el es IH]; [cbn; call cn_list_empty; constructor|].
    assert (IH' : checks res vars (list_literal C t es) LT).
    { apply IH; [intros e He; apply H1; right; exact He|intros e He; apply H2; right; exact He]. }
    destruct el as [e|e].
    - cbn [list_literal]. call cn_list_prepend. constructor; [|constructor; [exact IH'|constructor]].
      eapply y_thunk; [exact K|ll|]. eapply y_coerce_any; [exact W|exact L|]. apply H1. left. reflexivity.
    - assert (T : checks res vars (HThunk (Some (list_reference C)) e) (fn [] LT)).
      { eapply y_thunk; [exact K|ll|]. apply H2. left. reflexivity. }
      destruct es as [|el es].
      + cbn [list_literal]. call cn_list_lazy. constructor; [exact T|constructor].
      + change (checks res vars (hcall (list_concatenate C) [TFunction [] (list_reference C); list_reference C] (list_reference C)
          [HThunk (Some (list_reference C)) e; list_literal C t (el :: es)]) LT).
        call cn_list_concatenate. constructor; [exact T|constructor; [exact IH'|constructor]].
  Qed.

  Lemma y_iflist res vars t l first rest a b et m : lowers t et -> checks res vars l LT ->
    private first -> private rest -> first <> "$firstRest" -> first <> "$closure" ->
    checks res ((rest, LT) :: (first, fn [] et) :: ("$firstRest", FT) :: vars) a m ->
    checks res (("$firstRest", Mir.TNone) :: vars) b m ->
    checks res vars (HIfList (Some t) l first rest a b) m.
  Proof.
    intros L Hl Nf Nr D1 D2 Ha Hb. apply yields_step. intros k e' H. cbn [HirMir.compile] in H. bok H e Htr. exists e. split; [exact H|]. clear k e' H. fold (checks res vars e m).
    unfold if_list in Htr. bok Htr t' Ht. injection Ht as <-. bok Htr same Hsame. bok Htr bd Hbd. injection Htr as <-.
    assert (Fc : forall vars', lookup vars' "$firstRest" = Some FT ->
      checks res vars' (hcall (list_first C) [TReference (list_first_rest C)] any_thunk [HVariable "$firstRest"]) (fn [] TVariant)).
    { intros vars' Q. call cn_list_first. constructor; [apply y_var, Q|constructor]. }
    assert (Bd : checks res (("$firstRest", FT) :: vars) bd (fn [] et)).
    { destruct same.
      - injection Hbd as <-. rewrite (lowers_fun _ _ _ _ _ L (equal_any _ _ _ _ _ Hsame eq_refl)). apply Fc, lookup_same.
      - bok Hbd d Hd. injection Hbd as <-.
        eapply y_let; [ll|exact Nf|apply Fc, lookup_same|].
        eapply y_lambda; [exact K|constructor|exact L|intros ? ? []|]. cbn [rev combine map app].
        eapply y_downcast; [exact Hd|exact L|].
        eapply y_call; [discriminate|ll| |constructor]. apply y_var. rewrite lookup_other by exact D2. apply lookup_same. }
    eapply y_iftype; [exact W|hidden| |discriminate| |discriminate| |discriminate].
    - call cn_list_deconstruct. constructor; [exact Hl|constructor].
    - intros bt bb [Q|[Q|[]]]; injection Q as <- <-; eapply (lowers_proper E C); ll.
    - intros bt bb mb [Q|[Q|[]]] Lb; injection Q as <- <-.
      + rewrite (lowers_fun E C _ mb FT Lb) by ll.
        eapply y_let; [apply l_function; [constructor|exact L]|exact Nf|exact Bd|].
        eapply y_let; [ll|exact Nr| |exact Ha].
        call cn_list_rest. constructor; [|constructor]. apply y_var. rewrite lookup_other by congruence. apply lookup_same.
      + rewrite (lowers_fun E C _ mb Mir.TNone Lb) by ll. exact Hb.
  Qed.

  (** *** Maps *)
  Lemma y_context res vars t ctx : map_context_call n E C t = Ok ctx -> checks res vars ctx CT.
  Proof.
    unfold map_context_call, context_name. intros H. bok H g Hg. injection H as <-.
    destruct (type_id n E C t) as [i| | |] eqn:Hid; try discriminate. injection Hg as <-. eapply y_hcall; [eapply cn_context; exists n; exact Hid|lls|ll|]. constructor.
  Qed.

  Lemma y_map res vars kt vt (es : list map_element) mk mv : lowers kt mk -> lowers vt mv ->
    (forall a b, In (Entry a b) es -> checks res (("$ctx", CT) :: vars) a mk /\ checks res (("$ctx", CT) :: vars) b mv) ->
    (forall m, In (Spread m) es -> checks res (("$ctx", CT) :: vars) m MT) ->
    checks res vars (HMap kt vt es) MT.
  Proof.
    intros Lk Lv H1 H2. apply yields_step. intros k e' H. cbn [HirMir.compile] in H. bok H e Htr. exists e. split; [exact H|]. clear k e' H. fold (checks res vars e MT).
    unfold map_literal in Htr. bok Htr ctx Hctx. injection Htr as <-.
    eapply y_let; [ll|hidden|eapply y_context, Hctx|].
    assert (H1' : forall a b, In (Entry a b) (rev es) -> checks res (("$ctx", CT) :: vars) a mk /\ checks res (("$ctx", CT) :: vars) b mv)
      by (intros a b Hab; apply H1, in_rev, Hab).
    assert (H2' : forall m, In (Spread m) (rev es) -> checks res (("$ctx", CT) :: vars) m MT)
      by (intros m Hm; apply H2, in_rev, Hm).
    clear H1 H2. unfold map_element in *. induction (rev es) as [|el l IH]; [cbn; call cn_map_empty; constructor|].
    assert (IH' : checks res (("$ctx", CT) :: vars) (map_entries C kt vt l) MT).
    { apply IH; [intros a b Hab; apply H1'; right; exact Hab|intros m Hm; apply H2'; right; exact Hm]. }
    assert (Cx : checks res (("$ctx", CT) :: vars) (HVariable "$ctx") CT) by (apply y_var, lookup_same).
    destruct el as [a b|m].
    - destruct (H1' a b (or_introl eq_refl)) as [Ha Hb]. cbn [map_entries]. call cn_map_set.
      constructor; [exact Cx|]. constructor; [exact IH'|].
      constructor; [eapply y_coerce_any; [exact W|exact Lk|exact Ha]|]. constructor; [eapply y_coerce_any; [exact W|exact Lv|exact Hb]|constructor].
    - specialize (H2' m (or_introl eq_refl)). destruct l as [|el l]; [exact H2'|].
      change (checks res (("$ctx", CT) :: vars) (hcall (map_merge C) [context_reference C; map_reference C; map_reference C] (map_reference C)
          [HVariable "$ctx"; m; map_entries C kt vt (el :: l)]) MT).
      call cn_map_merge. constructor; [exact Cx|]. constructor; [exact H2'|]. constructor; [exact IH'|constructor].
  Qed.

  Lemma y_ifmap res vars kt vt x m key a b mk mv r : lowers kt mk -> lowers vt mv -> private x ->
    checks res vars m MT -> checks res vars key mk ->
    checks res ((x, mv) :: vars) a r -> checks res ((x, Mir.TRecord (map_empty_type C)) :: vars) b r ->
    checks res vars (HIfMap (Some kt) (Some vt) x m key a b) r.
  Proof.
    intros Lk Lv Nx Hm Hk Ha Hb. apply yields_step. intros k e' H. cbn [HirMir.compile] in H. bok H e Htr. exists e. split; [exact H|]. clear k e' H. fold (checks res vars e r).
    unfold if_map in Htr. bok Htr kt' Hkt. injection Hkt as <-. bok Htr vt' Hvt. injection Hvt as <-.
    bok Htr ctx Hctx. bok Htr d Hd. injection Htr as <-.
    eapply y_iftype; [exact W|exact Nx| |discriminate| | | |].
    - call cn_map_get. constructor; [eapply y_context, Hctx|]. constructor; [exact Hm|].
      constructor; [eapply y_coerce_any; [exact W|exact Lk|exact Hk]|constructor].
    - intros bt bb [Q|[]]. injection Q as <- <-. eapply (lowers_proper E C); ll.
    - intros bt bb Q. injection Q as <- <-. eapply (lowers_proper E C); ll.
    - intros bt bb mb [Q|[]] Lb. injection Q as <- <-. rewrite (lowers_fun E C _ mb _ Lb (l_empty E R C K)). exact Hb.
    - intros et bb mb Q Lb. injection Q as <- <-. rewrite (lowers_fun E C _ mb _ Lb (lowers_any E C)).
      eapply y_let; [exact Lv|exact Nx|eapply y_downcast; [exact Hd|exact Lv|apply y_var, lookup_same]|].
      eapply yields_alike; [|exact Ha]. intros y. cbn. destruct (String.eqb y x); reflexivity.
  Qed.

  Lemma Forall2_right {A B} (P : A -> B -> Prop) l l' y : Forall2 P l l' -> In y l' -> exists x, In x l /\ P x y.
  Proof.
    induction 1 as [|a b l l' H _ IH]; [intros []|]. intros [->|Hy]; [exists a; split; [left; reflexivity|exact H]|].
    destruct (IH Hy) as (x & Hx & Px). exists x. split; [right; exact Hx|exact Px].
  Qed.

  (** *** Binary operations *)
  Lemma y_both (g : expr -> expr -> expr) res vars l r m o (k : nat) e' :
    (forall a b, check_expr M res vars a = Some m -> check_expr M res vars b = Some m -> provides vars (g a b) -> check_expr M res vars (g a b) = Some o) ->
    (forall a b z, In z (needs a) \/ In z (needs b) -> In z (needs (g a b))) ->
    checks res vars l m -> checks res vars r m ->
    bind (compile k l) (fun l => bind (compile k r) (fun r => Ok (g l r))) = Ok e' -> provides vars e' ->
    check_expr M res vars e' = Some o.
  Proof.
    intros G N Hl Hr H P. bok H l' Hl'. bok H r' Hr'. injection H as <-. apply G; [| |exact P].
    - eapply checks_at; [exact Hl|exact Hl'|]. eapply provides_part; [|exact P]. intros z Hz. apply N. auto.
    - eapply checks_at; [exact Hr|exact Hr'|]. eapply provides_part; [|exact P]. intros z Hz. apply N. auto.
  Qed.

  Lemma op_needs o a b z : In z (needs a) \/ In z (needs b) -> In z (needs (Op o [a; b])).
  Proof. cbn [needs flat_map]. rewrite !in_app_iff. tauto. Qed.

  Lemma y_arithmetic res vars o l r : checks res vars l Mir.TNumber -> checks res vars r Mir.TNumber ->
    checks res vars (HBinary (BinArithmetic o) l r) Mir.TNumber.
  Proof.
    intros Hl Hr. one k H. intros P. eexists. split; [reflexivity|]. cbn in H.
    eapply y_both; [| |exact Hl|exact Hr|exact H|exact P]; [|intros a b z; apply op_needs].
    intros a b Ha Hb _. cbn. rewrite Ha, Hb. reflexivity.
  Qed.
  Lemma y_order res vars o l r : checks res vars l Mir.TNumber -> checks res vars r Mir.TNumber ->
    checks res vars (HBinary (BinOrder o) l r) Mir.TBoolean.
  Proof.
    intros Hl Hr. one k H. intros P. eexists. split; [reflexivity|]. cbn in H.
    eapply y_both; [| |exact Hl|exact Hr|exact H|exact P]; [|intros a b z; apply op_needs].
    intros a b Ha Hb _. cbn. rewrite Ha, Hb. reflexivity.
  Qed.
  Lemma y_add res vars t l r m : t = TNumber /\ m = Mir.TNumber \/ t = TString /\ m = TByteString ->
    checks res vars l m -> checks res vars r m -> checks res vars (HBinary (BinAddition (Some t)) l r) m.
  Proof.
    intros T Hl Hr. one k H. intros P. eexists. split; [reflexivity|]. cbn in H.
    destruct T as [[-> ->]|[-> ->]]; (eapply y_both; [| |exact Hl|exact Hr|exact H|exact P]; [|intros a b z; apply op_needs]);
      intros a b Ha Hb _; cbn; rewrite Ha, Hb; reflexivity.
  Qed.
  Lemma y_and_or res vars o l r : checks res vars l Mir.TBoolean -> checks res vars r Mir.TBoolean ->
    checks res vars (HBinary (BinBoolean o) l r) Mir.TBoolean.
  Proof.
    intros Hl Hr. apply yields_step. intros k e' H. cbn in H. eexists. split; [exact H|].
    destruct o; cbn; apply y_if; try assumption; apply y_boolean.
  Qed.
  Lemma y_not res vars e : checks res vars e Mir.TBoolean -> checks res vars (HNot e) Mir.TBoolean.
  Proof.
    intros He. one k H. bok H e1 He1. injection H as <-. intros P. eexists. split; [reflexivity|]. cbn.
    rewrite (checks_at _ _ _ _ _ _ _ _ _ _ _ He He1) by (part P). reflexivity.
  Qed.

  (** *** Equality *)
  Lemma y_equal_atom res vars t l r m : canon E t TNumber /\ m = Mir.TNumber \/ canon E t TString /\ m = TByteString ->
    checks res vars l m -> checks res vars r m -> checks res vars (HBinary (BinEquality (Some t) HEqual) l r) Mir.TBoolean.
  Proof.
    intros T Hl Hr. one k H. intros P. eexists. split; [reflexivity|]. cbn in H. bok H c Hc.
    assert (Hcc : canon E t c) by (exists n; exact Hc).
    destruct T as [[T ->]|[T ->]]; rewrite (canon_fun _ _ _ _ Hcc T) in H.
    - eapply y_both; [| |exact Hl|exact Hr|exact H|exact P]; [|intros a b z; apply op_needs].
      intros a b Ha Hb _; cbn; rewrite Ha, Hb; reflexivity.
    - eapply y_both; [| |exact Hl|exact Hr|exact H|exact P].
      + intros a b Ha Hb (Pn & _). cbn. rewrite (Pn (string_equal C) (fn [TByteString; TByteString] Mir.TBoolean));
          [|left; reflexivity|constructor]. rewrite Ha, Hb. reflexivity.
      + intros a b z Hz. cbn [needs flat_map operation_needs app In]. right. rewrite !in_app_iff. tauto.
  Qed.

  Lemma comparable_record name o : comparable n E R (TRecord name o) = Ok true -> lookup R name <> None.
  Proof.
    unfold comparable. destruct n as [|n']; [discriminate|]. cbn. intros H. bok H fts Hfts. unfold resolve_record in Hfts.
    destruct (lookup R name); discriminate.
  Qed.

  Lemma other_incl x : forall ts us, other_types n E ts x = Ok us -> forall y, In y us -> In y ts.
  Proof.
    induction ts as [|t ts IH]; intros us H y Hy; cbn in H; [injection H as <-; exact Hy|].
    bok H b Hb. bok H r Hr. injection H as <-. destruct b; [right; eapply IH; eassumption|].
    destruct Hy as [->|Hy]; [left; reflexivity|right; eapply IH; eassumption].
  Qed.

  Lemma y_equal_code k : forall res t l r d vars m, equal_code n E R C k t l r = Ok d -> canon E t t -> lowers t m ->
    checks res vars l m -> checks res vars r m -> (forall ml, checks res (("$lhs", ml) :: vars) r m) ->
    checks res vars d Mir.TBoolean.
  Proof.
    induction k as [|k IH]; [discriminate|]. intros res t l r d vars m H Ct L Hl Hr Hr'.
    destruct t; cbn [equal_code] in H; try discriminate.
    - injection H as <-. rewrite (lowers_fun _ _ _ _ _ L (lowers_boolean E C)) in *.
      apply y_if; [exact Hl|exact Hr|]. apply y_if; [exact Hr|apply y_boolean|apply y_boolean].
    - bok H g Hg. injection H as <-. rewrite (lowers_list _ _ _ _ L) in *.
      unfold equal_name in Hg. destruct (type_id n E C t) as [i| | |] eqn:Hid; try discriminate. injection Hg as <-.
      call cn_list_equal. constructor; [apply y_name; eapply cn_equal; exists n; exact Hid|]. constructor; [exact Hl|]. constructor; [exact Hr|constructor].
    - bok H g Hg. injection H as <-. rewrite (lowers_map _ _ _ _ _ L) in *.
      call cn_map_equal. constructor; [eapply y_context, Hg|]. constructor; [exact Hl|]. constructor; [exact Hr|constructor].
    - injection H as <-. apply y_boolean.
    - injection H as <-. rewrite (lowers_fun _ _ _ _ _ L (lowers_number E C)) in *. eapply y_equal_atom; [left; split; [exact Ct|reflexivity]|exact Hl|exact Hr].
    - bok H b Hb. destruct b; [|discriminate]. injection H as <-. destruct (lowers_record_inv _ _ _ _ _ L) as [-> Pc].
      eapply y_hcall; [apply cn_record_equal; eapply comparable_record, Hb|lls|ll|].
      constructor; [exact Hl|]. constructor; [exact Hr|constructor].
    - pose proof (canon_references _ _ _ Ct). discriminate.
    - injection H as <-. rewrite (lowers_fun _ _ _ _ _ L (lowers_string E C)) in *. eapply y_equal_atom; [right; split; [exact Ct|reflexivity]|exact Hl|exact Hr].
    - bok H ms Hms. bok H bs Hbs. injection H as <-.
      destruct (union_members_spec E n _ ms Ct Hms) as (S1 & S2 & _).
      assert (m = TVariant) as -> by (eapply lowers_not_single; [exact Ct|intros []|exact L]).
      assert (Pm : forall y, In y ms -> proper E y).
      { intros y Hy. apply S1 in Hy. destruct (members_fixed f E W _ _ Ct y Hy) as [Cy _]. exists y. split; [exact Cy|].
        apply (lowers_at _ _ _ _ _ L) in Ct. destruct Ct as [_ Pt]. eapply plain_member; eassumption. }
      eapply y_iftype; [exact W|hidden|exact Hl| | |discriminate| |discriminate].
      { intros _ ->. apply mapM_ok in Hbs. inversion Hbs; subst.
        destruct (canon_cform _ _ _ Ct) as [(_ & _ & _ & N) _]. destruct (members_canonical (TUnion t1 t2)) as [|y ys]; [contradiction|].
        destruct (proj2 (S1 y)); left; reflexivity. }
      { intros bt b Hb. apply mapM_ok in Hbs. destruct (Forall2_right _ _ _ _ Hbs Hb) as (x & Hx & Q).
        bok Q e He. bok Q others Hot. destruct (create_union others); [|discriminate]. injection Q as <- <-. apply Pm, Hx. }
      intros bt b mb Hb Lb. apply mapM_ok in Hbs.
      assert (exists x, In x ms /\
        bind (equal_code n E R C k x (HVariable "$lhs") (HVariable "$rhs")) (fun e =>
                    bind (other_types n E ms x) (fun others =>
                    match create_union others with
                    | None => Panic
                    | Some u => Ok (x, HIfType "$rhs" r [(x, e)] (Some (Some u, HBoolean false)))
                    end)) = Ok (bt, b)) as (x & Hx & Q).
      { exact (Forall2_right _ _ _ _ Hbs Hb). }
      bok Q e He. bok Q others Hot. destruct (create_union others) as [u|] eqn:Hu; [|discriminate]. injection Q as <- <-.
      assert (Cx : canon E x x) by (eapply (members_fixed f E W _ _ Ct); apply S1, Hx).
      eapply y_iftype; [exact W|hidden|apply Hr'|discriminate| | | |].
      + intros bt b [Q|[]]. injection Q as <- <-. apply Pm, Hx.
      + intros et b Q. injection Q as <- <-. eapply (proper_create f E W); [exact Hu|]. intros y Hy. apply Pm. eapply other_incl; eassumption.
      + intros bt b mb' [Q|[]] Lb'. injection Q as <- <-. rewrite (lowers_fun _ _ _ _ _ Lb' Lb).
        eapply IH; [exact He|exact Cx|exact Lb| | |].
        * apply y_var. rewrite lookup_other by discriminate. apply lookup_same.
        * apply y_var. apply lookup_same.
        * intros ml. apply y_var. rewrite lookup_other by discriminate. apply lookup_same.
      + intros et b mb' Q _. injection Q as <- <-. apply y_boolean.
  Qed.

  Lemma y_equal res vars t l r m : lowers t m -> checks res vars l m -> checks res vars r m ->
    (forall ml, checks res (("$lhs", ml) :: vars) r m) -> checks res vars (HBinary (BinEquality (Some t) HEqual) l r) Mir.TBoolean.
  Proof.
    intros L Hl Hr Hr'. apply yields_pre. intros [|k0] e0 H0; [discriminate|].
    cbn in H0. bok H0 c Hc. clear H0. assert (Hcc : canon E t c) by (exists n; exact Hc).
    assert (L' : lower C c = Ok m /\ lowers c m).
    { destruct (lowers_at _ _ _ _ _ L Hcc) as [G Pc]. split; [exact G|].
      exists c. split; [eapply canon_idem; eassumption|auto]. }
    destruct L' as [Lc Lc'].
    assert (G : (forall k, bind (annotated (Some t)) (fun t => bind (canonicalize n E t) (fun c => bind (equal_operation n E R C k t l r) (compile k))) =
       compile (S k) (HBinary (BinEquality (Some t) HEqual) l r)) -> checks res vars (HBinary (BinEquality (Some t) HEqual) l r) Mir.TBoolean).
    { intros Q. apply yields_step. intros k e' H. rewrite <- Q in H. bok H t' Ht. injection Ht as <-. bok H c' Hc'. bok H d Hd. exists d. split; [exact H|].
      unfold equal_operation in Hd. bok Hd c2 Hc2. assert (c2 = c) as -> by congruence.
      eapply y_equal_code; [exact Hd|eapply canon_idem; eassumption|exact Lc'|exact Hl|exact Hr|exact Hr']. }
    destruct c; try (apply G; intros k; cbn [HirMir.compile compile_binary annotated bind]; rewrite Hc; reflexivity).
    - injection Lc as <-. eapply y_equal_atom; [left; split; [exact Hcc|reflexivity]|exact Hl|exact Hr].
    - injection Lc as <-. eapply y_equal_atom; [right; split; [exact Hcc|reflexivity]|exact Hl|exact Hr].
  Qed.

  Lemma y_equality res vars o t l r m : lowers t m -> checks res vars l m -> checks res vars r m ->
    (forall ml, checks res (("$lhs", ml) :: vars) r m) -> checks res vars (HBinary (BinEquality (Some t) o) l r) Mir.TBoolean.
  Proof.
    intros L Hl Hr Hr'. destruct o; [eapply y_equal; eassumption|].
    apply yields_step. intros k e' H. cbn in H. eexists. split; [exact H|]. unfold not_equal.
    apply y_if; [eapply y_equal; eassumption|apply y_boolean|apply y_boolean].
  Qed.

  (** *** Try *)
  Lemma y_try res vars t e m : res = TVariant -> lowers t m -> checks res vars e TVariant -> checks res vars (HTry (Some t) e) m.
  Proof.
    intros -> L He. one k H. bok H e1 He1. bok H t' Ht. injection Ht as <-. bok H al Hal. injection H as <-. intros P.
    exists m. split; [reflexivity|]. cbn [check_expr].
    rewrite (checks_at _ _ _ _ _ _ _ _ _ _ _ He He1) by (part P).
    cbn [check_all operand_types operation_type check_expr lookup length]. rewrite String.eqb_refl. rewrite !same_type_refl.
    assert (F : alternative_fits M TVariant vars m al).
    { eapply alternative_checks; [exact W|exact Hal|hidden|eapply lowers_proper, L| |].
      - eapply provides_part; [|exact P]. intros z Hz. cbn [needs flat_map app]. rewrite !in_app_iff. tauto.
      - intros mb Lb _. cbn. rewrite (lowers_fun _ _ _ _ _ L Lb). reflexivity. }
    rewrite (alternatives_check M TVariant vars m [al]); [reflexivity| |left; reflexivity]. constructor; [exact F|constructor].
  Qed.

  (** *** Records *)
  Lemma fields_lower r fts : lookup R r = Some fts -> exists ms, Forall2 (fun ft m => lowers (snd ft) m) fts ms.
  Proof.
    intros H. destruct (k_records _ _ _ K r fts H) as [_ F].
    assert (G : forall l, incl l fts -> exists ms, Forall2 (fun ft m => lowers (snd ft) m) l ms).
    { induction l as [|[x t] l IH]; intros I; [exists []; constructor|].
      destruct IH as [ms Hms]; [intros z Hz; apply I; right; exact Hz|].
      destruct (proper_lowers E C t) as [m Hm]; [eapply (F x), I; left; reflexivity|].
      exists (m :: ms). constructor; assumption. }
    apply (G fts). intros z Hz. exact Hz.
  Qed.

  Lemma record_provided vars e r fts : provides vars e -> In (NRecord r) (needs e) -> lookup R r = Some fts ->
    exists ms, Forall2 (fun ft m => lowers (snd ft) m) fts ms /\ lookup (m_types M) r = Some ms.
  Proof.
    intros (_ & P & _) I H. destruct (fields_lower r fts H) as [ms Hms]. exists ms. split; [exact Hms|].
    apply P; [exact I|]. eapply cr_user; eassumption.
  Qed.

  Lemma record_lowers r fts o : lookup R r = Some fts -> lowers (TRecord r o) (Mir.TRecord r).
  Proof. intros H. apply lowers_record. apply (k_records _ _ _ K r fts H). Qed.

  Lemma record_type_at t r fts name o : compile_record_type n E C t = Ok r -> record_fields n E R t = Ok fts ->
    teq E t (TRecord name o) -> r = name /\ lookup R name = Some fts /\ lowers t (Mir.TRecord name).
  Proof.
    intros H G Q. destruct (record_fields_canon _ _ _ _ _ G) as (r' & o' & Hr & Hl).
    assert (Ca : canon E (TRecord name o) (TRecord name o)) by (exists 1; reflexivity).
    pose proof (teq_canon_eq f E W _ _ _ _ Q Hr Ca) as Q'. injection Q' as -> ->.
    assert (L : lowers t (Mir.TRecord name)) by (eapply lowers_teq; [exact W|apply teq_sym, Q|eapply record_lowers, Hl]).
    unfold compile_record_type in H. bok H m Hm. assert (m = Mir.TRecord name) as -> by (eapply compiles_fun; [exact Hm|exact L]).
    injection H as <-. auto.
  Qed.

  Lemma field_index_at fts x i ms ft : field_index fts x = Ok i -> lookup fts x = Some ft ->
    Forall2 (fun ft m => lowers (snd ft) m) fts ms -> exists m, nth_error ms i = Some m /\ lowers ft m.
  Proof.
    intros H L F. revert i H. induction F as [|[y u] m fts ms Hm _ IH]; intros i H; [discriminate|]. cbn in H, L.
    destruct (String.eqb x y).
    - injection H as <-. injection L as <-. exists m. split; [reflexivity|exact Hm].
    - destruct (field_index fts x) as [j| | |]; try discriminate. injection H as <-. apply (IH L j eq_refl).
  Qed.

  Lemma y_field res vars t e x name o fts ft : teq E t (TRecord name o) -> lookup R name = Some fts -> lookup fts x = Some ft ->
    checks res vars e (Mir.TRecord name) -> good res vars (HField (Some t) e x) ft.
  Proof.
    intros Q Lr Lf He. one k H. bok H r Hr. bok H fts' Hfts. bok H i Hi. bok H e1 He1. injection H as <-. intros P.
    destruct (record_type_at _ _ _ _ _ Hr Hfts Q) as (-> & Lr' & _). assert (fts' = fts) as -> by congruence.
    destruct (record_provided vars _ name fts P) as (ms & Fm & Lm); [left; reflexivity|exact Lr|].
    destruct (field_index_at _ _ _ _ _ Hi Lf Fm) as (m & Hm & Lm'). exists m. split; [exact Lm'|].
    cbn. rewrite (checks_at _ _ _ _ _ _ _ _ _ _ _ He He1) by (part P). rewrite !same_type_refl. cbn. rewrite Lm. exact Hm.
  Qed.

  Lemma y_update res vars t e fs name o fts : teq E t (TRecord name o) -> lookup R name = Some fts ->
    checks res vars e (Mir.TRecord name) ->
    (forall x a, In (x, a) fs -> exists ft, lookup fts x = Some ft /\ good res vars a ft) ->
    checks res vars (HUpdate t e fs) (Mir.TRecord name).
  Proof.
    intros Q Lr He Hfs. one k H. bok H r Hr. bok H e1 He1. bok H fs' Hfs'. injection H as <-. intros P.
    assert (L : lowers t (Mir.TRecord name)) by (eapply lowers_teq; [exact W|apply teq_sym, Q|eapply record_lowers, Lr]).
    assert (r = name) as ->.
    { unfold compile_record_type in Hr. bok Hr m Hm. assert (m = Mir.TRecord name) as -> by (eapply compiles_fun; [exact Hm|exact L]).
      injection Hr as <-. reflexivity. }
    destruct (record_provided vars _ name fts P) as (ms & Fm & Lm); [left; reflexivity|exact Lr|].
    exists (Mir.TRecord name). split; [reflexivity|]. cbn [check_expr operand_types operation_type length]. rewrite Lm.
    assert (G : exists ts, field_types (map fst fs') ms = Some ts /\ check_all (check_expr M res) vars (map snd fs') ts = true).
    { assert (P' : forall e, In e (map snd fs') -> provides vars e).
      { intros x Hx. eapply provides_in; [exact Hx| |exact P]. intros z Hz. cbn. right. apply in_or_app. right. exact Hz. }
      clear P. apply mapM_ok in Hfs'. induction Hfs' as [|[x a] [i a'] fs fs' Ha _ IH]; [exists []; split; reflexivity|].
      destruct IH as (ts & T1 & T2).
      - intros y b Hy. apply Hfs. right. exact Hy.
      - intros y Hy. apply P'. right. exact Hy.
      - destruct (Hfs x a (or_introl eq_refl)) as (ft & Lf & Ga). cbn in Ha. bok Ha fts' Hfts. bok Ha j Hj. bok Ha a1 Ha1. injection Ha as <- <-.
        destruct (record_fields_canon _ _ _ _ _ Hfts) as (r' & o' & Hr' & Hl).
        assert (Ca : canon E (TRecord name o) (TRecord name o)) by (exists 1; reflexivity).
        pose proof (teq_canon_eq f E W _ _ _ _ Q Hr' Ca) as Q'. injection Q' as -> ->. assert (fts' = fts) as -> by congruence.
        destruct (field_index_at _ _ _ _ _ Hj Lf Fm) as (m & Hm & Lm'). exists (m :: ts). cbn [map fst snd field_types]. rewrite Hm, T1.
        split; [reflexivity|]. cbn [check_all].
        rewrite (checks_at _ _ _ _ _ _ _ _ _ _ _ (good_checks _ _ _ _ _ _ _ _ _ _ Ga Lm') Ha1) by (apply P'; left; reflexivity).
        rewrite same_type_refl. exact T2. }
    destruct G as (ts & T1 & T2). rewrite T1. cbn [option_map check_all].
    rewrite (checks_at _ _ _ _ _ _ _ _ _ _ _ He He1) by (part P). rewrite !same_type_refl, T2. reflexivity.
  Qed.

  Lemma lookup_in (fts : list (string * ty)) x t : NoDup (map fst fts) -> In (x, t) fts -> lookup fts x = Some t.
  Proof.
    induction fts as [|[y u] l IH]; [intros _ []|]. cbn. intros N Q. inversion N; subst.
    destruct Q as [Q|Q]; [injection Q as -> ->; rewrite String.eqb_refl; reflexivity|].
    destruct (String.eqb_spec x y) as [->|_]; [|apply IH; assumption]. exfalso. apply H1. apply (in_map fst) in Q. exact Q.
  Qed.

  Lemma field_name_prefix x : prefix "$" ("$" ++ x) = true.
  Proof. destruct x; reflexivity. Qed.
  Lemma field_name_hidden x : visible ("$" ++ x) = false.
  Proof. unfold visible. rewrite field_name_prefix. apply andb_false_r. Qed.

  Lemma y_field_lets res vars name fts vs names fs k :
    lookup R name = Some fts ->
    (forall x a vars', In (x, a) fs -> over vars vars' -> exists ft, lookup fts x = Some ft /\ good res vars' a ft) ->
    mapM (fun ft => if mem (fst ft) names then Ok (Var ("$" ++ fst ft)) else Panic) fts = Ok vs ->
    forall es e0 vars' done gs, field_lets n E C fts es (Op (ORecord name) vs) = Ok e0 -> provides vars' e0 -> over vars vars' ->
      (forall x, In x done -> forall ft m, lookup fts x = Some ft -> lowers ft m -> lookup vars' ("$" ++ x) = Some m) ->
      Forall2 (fun g y => bind (compile k (snd g)) (fun e => Ok (fst g, e)) = Ok y) gs es ->
      (forall x, In x names -> In x done \/ In x (map fst gs)) -> incl gs fs ->
      check_expr M res vars' e0 = Some (Mir.TRecord name).
  Proof.
    intros Lr Hfs Hvs. pose proof (k_fields _ _ _ K name fts Lr) as ND.
    induction es as [|[x a] es IH]; intros e0 vars' done gs He0 P0 Ov Bd F0 Nm I0.
    - cbn in He0. injection He0 as <-. destruct (record_provided vars' _ name fts P0) as (ms & Fm & Lm); [left; reflexivity|exact Lr|].
      inversion F0; subst. cbn [check_expr operand_types]. rewrite Lm.
      assert (G : check_all (check_expr M res) vars' vs ms = true).
      { apply mapM_ok in Hvs. assert (Lk : forall x t, In (x, t) fts -> lookup fts x = Some t) by (intros x t; apply lookup_in; exact ND).
        clear - Fm Hvs Bd Nm Lk. revert vs Hvs. cut (forall l, (forall x t, In (x, t) l -> lookup fts x = Some t) -> forall ms, Forall2 (fun ft m => lowers (snd ft) m) l ms ->
          forall vs, Forall2 (fun ft v => (if mem (fst ft) names then Ok (Var ("$" ++ fst ft)) else Panic) = Ok v) l vs -> check_all (check_expr M res) vars' vs ms = true).
        { intros G vs Hvs. eapply (G fts Lk); eassumption. }
        clear - Bd Nm. induction l as [|[x t] l IH]; intros Lk ms Fm vs Hvs; inversion Fm; inversion Hvs; subst; [reflexivity|].
        cbn [fst] in H6. destruct (mem x names) eqn:Hm; [|discriminate]. injection H6 as <-. cbn [check_all check_expr fst snd] in *.
        assert (Hx : In x done) by (destruct (Nm x) as [Hx|[]]; [apply mem_In; exact Hm|exact Hx]).
        pose proof (Bd x Hx t y (Lk x t (or_introl eq_refl)) H1) as Q. cbn [append] in Q. rewrite Q. rewrite same_type_refl. cbn. apply IH; [|assumption|assumption].
        intros z u Hz. apply Lk. right. exact Hz. }
      rewrite G. reflexivity.
    - inversion F0 as [|[y b] z gs' es' Hb F1]; subst. cbn [fst snd] in Hb. bok Hb b' Hb'. cbn [fst snd] in Hb. injection Hb as <- <-.
      cbn [field_lets fst snd] in He0. destruct (Hfs y b vars' (I0 _ (or_introl eq_refl)) Ov) as (ft & Lf & Gb). rewrite Lf in He0.
      bok He0 m Hm. bok He0 e1 He1. injection He0 as <-.
      assert (L : lowers ft m) by (eapply compiles; [exact Hm|]; eapply (k_records _ _ _ K name fts Lr), lookup_In, Lf).
      cbn [check_expr].
      rewrite (checks_at _ _ _ _ _ _ _ _ _ _ _ (good_checks _ _ _ _ _ _ _ _ _ _ Gb L) Hb') by (part P0). rewrite same_type_refl.
      eapply (IH e1 _ (y :: done) gs' He1).
      + eapply provides_bind; [eapply private_dollar; [exact K|apply field_name_prefix]|part P0].
      + apply over_hide; [apply field_name_hidden|exact Ov].
      + intros x Hx ft' m' Lf' Lm'. destruct (String.eqb_spec ("$" ++ x) ("$" ++ y)) as [Q|Q].
        * rewrite Q, lookup_same. injection Q as ->. rewrite Lf in Lf'. injection Lf' as <-. rewrite (lowers_fun _ _ _ _ _ L Lm'). reflexivity.
        * rewrite lookup_other by exact Q. destruct Hx as [->|Hx]; [exfalso; apply Q; reflexivity|]. eapply Bd; eassumption.
      + exact F1.
      + intros x Hx. destruct (Nm x Hx) as [D|[D|D]]; [left; right; exact D|left; left; exact D|right; exact D].
      + intros z Hz. apply I0. right. exact Hz.
  Qed.

  Lemma y_record res vars t fs name o fts : teq E t (TRecord name o) -> lookup R name = Some fts ->
    (forall x a vars', In (x, a) fs -> over vars vars' -> exists ft, lookup fts x = Some ft /\ good res vars' a ft) ->
    checks res vars (HRecord t fs) (Mir.TRecord name).
  Proof.
    intros Q Lr Hfs. one k H. bok H fts' Hfts. bok H r Hr. bok H es Hes. bok H vs Hvs. intros P.
    destruct (record_type_at _ _ _ _ _ Hr Hfts Q) as (-> & Lr' & _). assert (fts' = fts) as -> by congruence.
    exists (Mir.TRecord name). split; [reflexivity|].
    apply mapM_ok in Hes. eapply (y_field_lets res vars name fts vs (map fst fs) fs); try eassumption.
    - apply over_refl.
    - instantiate (1 := []). intros x [].
    - intros x Hx. right. exact Hx.
    - intros z Hz. exact Hz.
  Qed.
End More.
