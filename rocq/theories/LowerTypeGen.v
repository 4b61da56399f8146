(** The MIR check of the functions the compiler generates for records, lists
    and maps. *)
From Coq Require Import String Ascii List ZArith Bool Lia.
From Verif Require Import Base Mir MirTypeCheck MirTypeProofs HirType HirTypeOrder HirTypeSpec HirTypeTermination HirTypeEq HirTypeSub
  Hir HirSpec HirParts HirTyping HirMir LowerTag LowerSwitch LowerTypeSpec LowerTypeBase LowerTypeCode LowerTypeMore.
Import ListNotations.
Local Open Scope string_scope.

Section Generated.
  Variable f : string -> string.
  Variable E : tenv.
  Variable R : renv.
  Variable C : config.
  Variable M : mmodule.
  Variable n : nat.
  Hypothesis X : context_ok f E R.
  Hypothesis K : config_ok E R C.

  Let W : wf f E := ctx_types f E R X.

  Notation lowers := (lowers E C).
  Notation provides := (provides E R C M).
  Notation compile := (compile n E R C).
  Notation private := (private E R C).
  Notation yields := (yields E R C M n).
  Notation checks := (checks E R C M n).
  Notation good := (good E R C M n).
  Notation LT := (Mir.TRecord (list_type C)).
  Notation MT := (Mir.TRecord (map_type C)).
  Notation CT := (Mir.TRecord (map_context C)).
  Notation fn := Mir.TFunction.

  Ltac ll := first [apply l_list with (R := R); exact K | apply l_map with (R := R); exact K | apply l_context with (R := R); exact K
    | apply lowers_any | apply lowers_boolean | apply lowers_none | apply lowers_number | apply lowers_string
    | apply lowers_error | apply lowers_record; assumption
    | apply l_function; [repeat (constructor; [ll|]); constructor|ll] ].
  Ltac lls := repeat (constructor; [ll|]); constructor.
  Ltac hidden := eapply private_dollar; [exact K|reflexivity].
  Ltac call c := eapply y_hcall; [apply c|lls|ll|].

  (** ** Equality and hashes of records *)
  Lemma y_equal_fields res vars r name o fts : lookup R name = Some fts -> r = TRecord name o ->
    lookup vars "$lhs" = Some (Mir.TRecord name) -> lookup vars "$rhs" = Some (Mir.TRecord name) ->
    forall l, incl l fts -> checks res vars (equal_fields r l) Mir.TBoolean.
  Proof.
    intros Hf -> Hl Hr l. induction l as [|[x t] l IH]; intros I; [apply y_boolean|]. cbn [equal_fields].
    assert (Hx : lookup fts x = Some t) by (apply lookup_in; [exact (k_fields _ _ _ K _ _ Hf)|apply I; left; reflexivity]).
    destruct (proper_lowers E C t) as [m L]; [eapply (k_records _ _ _ K name fts Hf), lookup_In, Hx|].
    assert (F : forall vars' y, lookup vars' y = Some (Mir.TRecord name) -> checks res vars' (HField (Some (TRecord name o)) (HVariable y) x) m).
    { intros vars' y Hy. eapply good_checks; [|exact L]. eapply y_field; [exact X|exact K|apply teq_refl|exact Hf|exact Hx|apply y_var, Hy]. }
    apply y_if; [|apply IH; intros z Hz; apply I; right; exact Hz|apply y_boolean].
    eapply y_equal; [exact X|exact K|exact L|apply F, Hl|apply F, Hr|].
    intros ml. apply F. rewrite lookup_other by discriminate. exact Hr.
  Qed.

  (** A union whose alternatives are all the same, possibly behind aliases *)
  Lemma y_hash k : forall res t v d vars m, hash_calculation n E R C k v t = Ok d -> ~ collapsed E t -> lowers t m ->
    checks res vars v m -> checks res vars d Mir.TNumber.
  Proof.
    induction k as [|k IH]; [discriminate|]. intros res t v d vars m H N L Hv.
    destruct t; cbn [hash_calculation] in H; try discriminate.
    - injection H as <-. rewrite (lowers_fun _ _ _ _ _ L (lowers_boolean E C)) in *. apply y_if; [exact Hv|apply y_number|apply y_number].
    - bok H g Hg. injection H as <-. rewrite (lowers_list _ _ _ _ L) in *.
      unfold hash_name in Hg. destruct (type_id n E C t) as [i| | |] eqn:Hid; try discriminate. injection Hg as <-.
      call cn_hash_list. constructor; [apply y_name; eapply cn_hash; exists n; exact Hid|]. constructor; [exact Hv|constructor].
    - bok H g Hg. injection H as <-. rewrite (lowers_map _ _ _ _ _ L) in *.
      call cn_hash_map. constructor; [eapply y_context; [exact K|exact Hg]|]. constructor; [exact Hv|constructor].
    - injection H as <-. apply y_number.
    - injection H as <-. rewrite (lowers_fun _ _ _ _ _ L (lowers_number E C)) in *. call cn_hash_number. constructor; [exact Hv|constructor].
    - bok H b Hb. destruct b; [|discriminate]. injection H as <-. destruct (lowers_record_inv _ _ _ _ _ L) as [-> Pc].
      eapply y_hcall; [apply cn_record_hash; eapply comparable_record, Hb|lls|ll|]. constructor; [exact Hv|constructor].
    - bok H u Hu. unfold resolve in Hu. destruct (lookup E name) as [u'|] eqn:Q; [|discriminate]. injection Hu as <-.
      eapply IH; [exact H| | |exact Hv].
      + intros Cl. apply N. eapply collapsed_alias; eassumption.
      + eapply lowers_teq; [exact W| |exact L]. apply teq_alias. exact Q.
    - injection H as <-. rewrite (lowers_fun _ _ _ _ _ L (lowers_string E C)) in *. call cn_hash_string. constructor; [exact Hv|constructor].
    - bok H ms Hms. bok H bs Hbs. injection H as <-.
      unfold union_members in Hms. bok Hms c Hc. injection Hms as <-.
      assert (Cc : canon E (TUnion t1 t2) c) by (exists n; exact Hc).
      assert (m = TVariant) as ->.
      { eapply lowers_not_single; [exact Cc| |exact L]. intros Sc. apply N. apply collapsed_union with (a := c); [exact Sc|apply canon_sound, Cc]. }
      apply mapM_ok in Hbs.
      destruct (sset_of_list (members_canonical c)) as [_ HI].
      assert (Pm : forall y, In y (members_canonical c) -> proper E y).
      { intros y Hy. destruct (members_fixed f E W _ _ Cc y Hy) as [Cy _]. exists y. split; [exact Cy|].
        destruct (lowers_at _ _ _ _ _ L Cc) as [_ Pt]. eapply plain_member; eassumption. }
      eapply y_iftype; [exact W|hidden|exact Hv| | |discriminate| |discriminate].
      { intros _ ->. destruct (canon_cform _ _ _ Cc) as [(_ & _ & _ & Ne) _].
        destruct (members_canonical c) as [|y ys]; [contradiction|].
        assert (Hy : In y (fold_right set_insert [] (y :: ys))) by (apply HI; left; reflexivity).
        remember (fold_right set_insert [] (y :: ys)) as ms eqn:Qm. clear Qm. inversion Hbs; subst. destruct Hy. }
      { intros bt b Hb. destruct (Forall2_right _ _ _ _ Hbs Hb) as (x & Hx & Q). bok Q e He. injection Q as <- <-. apply Pm, HI, Hx. }
      intros bt b mb Hb Lb. destruct (Forall2_right _ _ _ _ Hbs Hb) as (x & Hx & Q). bok Q e He. injection Q as <- <-.
      destruct (members_fixed f E W _ _ Cc x) as [Cx Ux]; [apply HI, Hx|].
      eapply IH; [exact He| |exact Lb|apply y_var, lookup_same].
      intros Cl. destruct Cl; [discriminate|]. pose proof (canon_references _ _ _ Cx). discriminate.
  Qed.

  (** ** Definitions *)
  Definition sound (vars : variables) (d : string * lambda) : Prop := forall k fd,
    compile_definition n E R C k d = Ok fd -> provides vars (f_body fd) -> check_definition M vars fd = true.

  Lemma compiled_definition k x l fd : compile_definition n E R C k (x, l) = Ok fd ->
    (forall y t, In (y, t) (l_arguments l) -> proper E t) -> proper E (l_result l) ->
    exists ms m e, Forall2 (fun a m => lowers (snd a) m) (l_arguments l) ms /\ lowers (l_result l) m /\ compile k (l_body l) = Ok e /\
      fd = Fdef x [] (combine (map fst (l_arguments l)) ms) m e (match l_arguments l with [] => true | _ => false end).
  Proof.
    unfold compile_definition. cbn [fst snd]. intros H Pa Pr. bok H e He. bok H m Hm. destruct l as [args r b]. cbn [l_arguments l_result l_body] in *.
    assert (L : lowers r m) by (eapply compiles; eassumption).
    assert (G : forall (l : list (string * ty)) l', (forall y t, In (y, t) l -> proper E t) -> mapM (fun a => bind (compile_type n E C (snd a)) (fun t => Ok (fst a, t))) l = Ok l' ->
      exists ms, Forall2 (fun a m => lowers (snd a) m) l ms /\ l' = combine (map fst l) ms).
    { intros l l' Pl H'. apply mapM_ok in H'. induction H' as [|a y l l' Ha _ IH]; [exists []; split; [constructor|reflexivity]|].
      destruct IH as (ms & I1 & I2); [intros z t Hz; apply (Pl z); right; exact Hz|].
      bok Ha t Ht. injection Ha as <-. exists (t :: ms). split; [constructor; [eapply compiles; [exact Ht|destruct a as [z u]; eapply (Pl z); left; reflexivity]|exact I1]|]. cbn. rewrite I2. reflexivity. }
    destruct args as [|a args].
    - injection H as <-. exists [], m, e. split; [constructor|]. auto.
    - bok H args' Ha. injection H as <-. destruct (G _ _ Pa Ha) as (ms & I1 & ->). exists ms, m, e. auto.
  Qed.

  Lemma sound_intro vars x l : (forall y t, In (y, t) (l_arguments l) -> private y) ->
    (forall y t, In (y, t) (l_arguments l) -> proper E t) -> proper E (l_result l) ->
    (forall ms m, Forall2 (fun a m => lowers (snd a) m) (l_arguments l) ms -> lowers (l_result l) m ->
      checks m (rev (combine (map fst (l_arguments l)) ms) ++ vars)%list (l_body l) m) -> sound vars (x, l).
  Proof.
    intros N Pa Pr H k fd Hd P. destruct (compiled_definition _ _ _ _ Hd Pa Pr) as (ms & m & e & F & L & He & ->). unfold check_definition. cbn [f_result f_env f_args f_body app] in *.
    rewrite (checks_at E R C M n _ _ _ _ _ _ (H ms m F L) He); [apply same_type_refl|].
    apply provides_binds; [|exact P]. intros y my Hy. apply in_rev in Hy. apply in_combine_l in Hy. apply in_map_iff in Hy. destruct Hy as ([z t] & <- & Hz). exact (N z t Hz).
  Qed.

  Ltac args := let y := fresh in let t := fresh in let H := fresh in intros y t H; cbn in H; repeat (destruct H as [H|H]; [injection H as <- <-; hidden|]); destruct H.
  Ltac fine := eapply (lowers_proper E C); first [ll | eapply record_lowers; eassumption].
  Ltac fines := let y := fresh in let t := fresh in let H := fresh in intros y t H; cbn in H; repeat (destruct H as [H|H]; [injection H as <- <-; fine|]); destruct H.
  Ltac lowered H := repeat match type of H with Forall2 _ (_ :: _) ?ms => let m := fresh "m" in let L := fresh "L" in let F := fresh "F" in
      inversion H as [|? m ? ? L F]; subst; clear H; rename F into H; cbn [snd] in L end; inversion H; subst; clear H.

  Lemma record_equal_sound vars name o fts : lookup R name = Some fts -> sound vars (record_equal_definition name o fts).
  Proof.
    intros Hf. apply sound_intro; [args|fines|fine|]. cbn [l_arguments l_result l_body map fst].
    intros ms m F L. lowered F. rewrite (lowers_fun _ _ _ _ _ L (lowers_boolean E C)).
    rewrite (proj1 (lowers_record_inv _ _ _ _ _ L0)), (proj1 (lowers_record_inv _ _ _ _ _ L1)).
    eapply y_equal_fields; [exact Hf|reflexivity|reflexivity|reflexivity|apply incl_refl].
  Qed.

  Lemma record_hash_sound vars k name o fts d : lookup R name = Some fts -> (forall x t, In (x, t) fts -> ~ collapsed E t) ->
    record_hash_definition n E R C k name o fts = Ok d -> sound vars d.
  Proof.
    intros Hf N H. unfold record_hash_definition in H. bok H e He. injection H as <-. apply sound_intro; [args|fines|fine|]. cbn [l_arguments l_result l_body map fst].
    intros ms m F L. lowered F. rewrite (lowers_fun _ _ _ _ _ L (lowers_number E C)). rewrite (proj1 (lowers_record_inv _ _ _ _ _ L0)).
    cbn [combine rev app]. set (vars' := ("$record", Mir.TRecord name) :: vars).
    assert (G : forall l h e, incl l fts -> checks Mir.TNumber vars' h Mir.TNumber -> hash_fields n E R C k (TRecord name o) l h = Ok e -> checks Mir.TNumber vars' e Mir.TNumber).
    { clear - W X K Hf N. induction l as [|[x t] l IH]; intros h e I Hh H; cbn [hash_fields] in H; [injection H as <-; exact Hh|].
      bok H h' Hh'. bok H e' He'. injection H as <-. call cn_hash_combine. constructor; [eapply IH; [intros z Hz; apply I; right; exact Hz|exact Hh|exact Hh']|].
      constructor; [|constructor]. assert (In (x, t) fts) as Hin by (apply I; left; reflexivity).
      assert (Hx : lookup fts x = Some t) by (apply lookup_in; [exact (k_fields _ _ _ K _ _ Hf)|exact Hin]).
      destruct (proper_lowers E C t) as [m L]; [eapply (k_records _ _ _ K name fts Hf), lookup_In, Hx|].
      eapply y_hash; [exact He'|exact (N x t Hin)|exact L|]. eapply good_checks; [|exact L].
      eapply y_field; [exact X|exact K|apply teq_refl|exact Hf|exact Hx|apply y_var, lookup_same]. }
    eapply G; [apply incl_refl| |exact He]. apply y_number.
  Qed.

  Lemma equal_sound vars k t d : proper E t -> equal_definition n E R C k t = Ok d -> sound vars d.
  Proof.
    intros Pt. unfold equal_definition. intros H. bok H name Hn. bok H e He. injection H as <-. apply sound_intro; [args|fines|fine|]. cbn [l_arguments l_result l_body map fst].
    intros ms m F L. lowered F. rewrite (lowers_fun _ _ _ _ _ L (lowers_boolean E C)).
    rewrite (lowers_fun _ _ _ _ _ L0 (lowers_any E C)), (lowers_fun _ _ _ _ _ L1 (lowers_any E C)). cbn [combine rev app].
    unfold equal_operation in He. bok He c Hc. assert (Cc : canon E t c) by (exists n; exact Hc).
    eapply y_iftype; [exact W|hidden|apply y_var; reflexivity|discriminate|intros bt b [Q|[]]; injection Q as <- <-; exact Pt|discriminate| |discriminate].
    intros bt b mb [Q|[]] Lb. injection Q as <- <-.
    eapply y_iftype; [exact W|hidden|apply y_var; reflexivity|discriminate|intros bt b [Q|[]]; injection Q as <- <-; exact Pt|discriminate| |discriminate].
    intros bt b mb' [Q|[]] Lb'. injection Q as <- <-. rewrite (lowers_fun _ _ _ _ _ Lb' Lb).
    eapply y_equal_code; [exact X|exact K|exact He|eapply (canon_idem f E W), Cc| | | |].
    - eapply lowers_teq; [exact W|apply canon_sound, Cc|exact Lb].
    - apply y_var. reflexivity.
    - apply y_var. reflexivity.
    - intros ml. apply y_var. reflexivity.
  Qed.

  Lemma hash_sound vars k t d : proper E t -> canon E t t -> hash_definition n E R C k t = Ok d -> sound vars d.
  Proof.
    intros Pt Ct. unfold hash_definition. intros H. bok H name Hn. bok H e He. injection H as <-. apply sound_intro; [args|fines|fine|]. cbn [l_arguments l_result l_body map fst].
    intros ms m F L. lowered F. rewrite (lowers_fun _ _ _ _ _ L (lowers_number E C)). rewrite (lowers_fun _ _ _ _ _ L0 (lowers_any E C)). cbn [combine rev app].
    eapply y_iftype; [exact W|hidden|apply y_var; reflexivity|discriminate|intros bt b [Q|[]]; injection Q as <- <-; exact Pt|discriminate| |discriminate].
    intros bt b mb [Q|[]] Lb. injection Q as <- <-. eapply y_hash; [exact He| |exact Lb|apply y_var; reflexivity].
    intros Cl. destruct Cl as [l r a Sa T|x u _ _]; [|pose proof (canon_references _ _ _ Ct); discriminate].
    pose proof (canon_single E a (TUnion l r) Sa) as Q. cut (single (TUnion l r)); [intros []|]. apply Q.
    eapply (teq_canon E (TUnion l r)); [apply W|apply W|exact T|exact Ct].
  Qed.

  Lemma map_context_sound vars kt vt d : map_context_definition n E R C kt vt = Ok d -> sound vars d.
  Proof.
    unfold map_context_definition. intros H. bok H name Hn. bok H ek Hek. bok H hk Hhk. bok H b Hb. bok H vs Hvs. injection H as <-. apply sound_intro; [args|fines|fine|].
    cbn [l_arguments l_result l_body map fst]. intros ms m F L. lowered F. cbn [combine rev app].
    assert (m = CT) as -> by (eapply lowers_fun; [exact L|ll]).
    assert (N1 : forall t x, equal_name n E C t = Ok x -> checks CT vars (HVariable x) (fn [TVariant; TVariant] Mir.TBoolean)).
    { intros t x Hx. unfold equal_name in Hx. destruct (type_id n E C t) as [i| | |] eqn:Hid; try discriminate. injection Hx as <-. eapply y_name, cn_equal. exists n. exact Hid. }
    assert (N2 : forall t x, hash_name n E C t = Ok x -> checks CT vars (HVariable x) (fn [TVariant] Mir.TNumber)).
    { intros t x Hx. unfold hash_name in Hx. destruct (type_id n E C t) as [i| | |] eqn:Hid; try discriminate. injection Hx as <-. eapply y_name, cn_hash. exists n. exact Hid. }
    call cn_map_context_function. constructor; [eapply N1, Hek|]. constructor; [eapply N2, Hhk|]. destruct b.
    - bok Hvs e1 Hev. bok Hvs hv Hhv. injection Hvs as <-. constructor; [eapply N1, Hev|]. constructor; [eapply N2, Hhv|constructor].
    - injection Hvs as <-. constructor; [|constructor; [|constructor]].
      + eapply y_lambda; [exact K|cbn; lls|ll|args|apply y_boolean].
      + eapply y_lambda; [exact K|cbn; lls|ll|args|apply y_number].
  Qed.
End Generated.
