(** The MIR check of the code of list comprehensions and built-in functions. *)
From Coq Require Import String Ascii List ZArith Bool Lia.
From Verif Require Import Base Mir MirTypeCheck MirTypeProofs HirType HirTypeOrder HirTypeSpec HirTypeTermination HirTypeEq HirTypeSub
  Hir HirSpec HirParts HirTyping HirMir LowerTag LowerSwitch LowerTypeSpec LowerTypeBase LowerTypeCode LowerTypeMore.
Import ListNotations.
Local Open Scope string_scope.

Lemma map_fst_combine {A B} (l : list A) (l' : list B) : List.length l = List.length l' -> map fst (combine l l') = l.
Proof. revert l'. induction l as [|a l IH]; intros [|b l'] H; try discriminate; [reflexivity|]. injection H as H. cbn. f_equal. apply IH, H. Qed.
Lemma map_snd_combine {A B} (l : list A) (l' : list B) : List.length l = List.length l' -> map snd (combine l l') = l'.
Proof. revert l'. induction l as [|a l IH]; intros [|b l'] H; try discriminate; [reflexivity|]. injection H as H. cbn. f_equal. apply IH, H. Qed.
Lemma combine_names {A B D} (g : B -> D) (l : list A) (l1 : list A) (l2 : list B) : List.length l = List.length l1 -> List.length l1 = List.length l2 ->
  map (fun p => (fst (fst p), g (snd p))) (combine (combine l l1) l2) = combine l (map g l2).
Proof.
  revert l1 l2. induction l as [|a l IH]; intros [|b l1] [|c l2] H G; try discriminate; [reflexivity|].
  injection H as H. injection G as G. cbn. f_equal. apply IH; assumption.
Qed.
Lemma lookup_app_left {A} (l l' : list (string * A)) x m : lookup l x = Some m -> lookup (l ++ l')%list x = Some m.
Proof. induction l as [|[y k] l IH]; [discriminate|]. cbn. destruct (String.eqb x y); [auto|exact IH]. Qed.
Lemma lookup_app_right {A} (l l' : list (string * A)) x : (forall k, ~ In (x, k) l) -> lookup (l ++ l')%list x = lookup l' x.
Proof.
  induction l as [|[y k] l IH]; intros H; [reflexivity|]. cbn. destruct (String.eqb_spec x y) as [->|_]; [exfalso; exact (H k (or_introl eq_refl))|].
  apply IH. intros k' Hk. apply (H k'). right. exact Hk.
Qed.
Lemma lookup_all {A} (l : list string) (m : A) x : In x l -> lookup (map (fun x => (x, m)) l) x = Some m.
Proof.
  induction l as [|y l IH]; [intros []|]. cbn. intros [->|H]; [rewrite String.eqb_refl; reflexivity|].
  destruct (String.eqb x y); [reflexivity|apply IH, H].
Qed.

Section Loop.
  Variable f : string -> string.
  Variable E : tenv.
  Variable R : renv.
  Variable C : config.
  Variable M : mmodule.
  Variable n : nat.
  Hypothesis X : context_ok f E R.
  Hypothesis K : config_ok E R C.

  Let W : wf f E := ctx_types f E R X.

  Notation lowers := (lowers E C).
  Notation provides := (provides E R C M).
  Notation compile := (compile n E R C).
  Notation private := (private E R C).
  Notation yields := (yields E R C M n).
  Notation checks := (checks E R C M n).
  Notation good := (good E R C M n).
  Notation LT := (Mir.TRecord (list_type C)).
  Notation MT := (Mir.TRecord (map_type C)).
  Notation CT := (Mir.TRecord (map_context C)).
  Notation FT := (Mir.TRecord (list_first_rest C)).
  Notation IT := (Mir.TRecord (iterator_type C)).
  Notation fn := Mir.TFunction.

  Ltac part H := eapply provides_part; [|exact H]; let z := fresh in let Hz := fresh in intros z Hz;
    cbn [needs flat_map operation_needs f_body f_name]; rewrite ?in_app_iff; cbn [In]; tauto.
  Ltac one k H := let k' := fresh in intros k; destruct k as [|k']; [discriminate|]; intros ? H; cbn [HirMir.compile] in H.
  Ltac ll := first [apply l_list with (R := R); exact K | apply l_map with (R := R); exact K | apply l_context with (R := R); exact K
    | apply l_first_rest with (R := R); exact K | apply l_first_rest_or_none with (R := R); exact K
    | apply l_iterator with (R := R); exact K | apply l_iterator_or_none with (R := R); exact K
    | apply l_empty with (R := R); exact K
    | apply lowers_any | apply lowers_boolean | apply lowers_none | apply lowers_number | apply lowers_string
    | apply lowers_error | apply lowers_record; assumption
    | apply l_function; [repeat (constructor; [ll|]); constructor|ll] ].
  Ltac lls := repeat (constructor; [ll|]); constructor.
  Ltac hidden := eapply private_dollar; [exact K|reflexivity].
  Ltac call c := eapply y_hcall; [apply c|lls|ll|].

  (** *** Lazy loops *)
  Lemma lazy_loop_checks res vars args body es :
    provides vars (lazy_loop C (Fdef "$loop" [] args LT body false) (map snd args) es) ->
    (forall x m, In (x, m) args -> private x) ->
    (forall scope, scope = (("$loop", fn (map snd args) LT) :: ("$loop", fn [] LT) :: vars) ->
      (provides (rev args ++ scope)%list body -> check_expr M LT (rev args ++ scope)%list body = Some LT) /\
      Forall2 (fun e m => provides scope e -> check_expr M LT scope e = Some m) es (map snd args)) ->
    check_expr M res vars (lazy_loop C (Fdef "$loop" [] args LT body false) (map snd args) es) = Some LT.
  Proof.
    intros P Na H. destruct (H _ eq_refl) as [Hb He]. clear H. unfold lazy_loop, list_mtype in *.
    assert (Pl : lookup vars (list_lazy C) = Some (fn [fn [] LT] LT)) by (apply (proj1 P); [left; reflexivity|constructor]).
    assert (P1 : provides (("$loop", fn (map snd args) LT) :: ("$loop", fn [] LT) :: vars)
      (LetRec (Fdef "$loop" [] args LT body false) (Op (OCall (map snd args) LT) (Var "$loop" :: es)))).
    { apply provides_bind; [hidden|]. apply provides_bind; [hidden|].
      eapply provides_part; [|exact P]. intros z Hz. cbn [needs flat_map operation_needs f_body] in *.
      rewrite ?in_app_iff in *. cbn [In needs] in *. tauto. }
    assert (Pe : Forall2 (fun e m => check_expr M LT (("$loop", fn (map snd args) LT) :: ("$loop", fn [] LT) :: vars) e = Some m) es (map snd args)).
    { assert (Pi : forall e, In e es -> provides (("$loop", fn (map snd args) LT) :: ("$loop", fn [] LT) :: vars) e).
      { intros e Hin. eapply provides_in; [exact Hin| |exact P1]. intros z Hz. cbn [needs flat_map operation_needs f_body app In]. rewrite in_app_iff. right. right. exact Hz. }
      revert Pi He. generalize (("$loop", fn (map snd args) LT) :: ("$loop", fn [] LT) :: vars). intros scope. clear.
      intros Pi He. induction He as [|e m es ms H _ IH]; [constructor|]. constructor; [apply H, Pi; left; reflexivity|].
      apply IH. intros e' He'. apply Pi. right. exact He'. }
    cbn [check_expr check_all operand_types operation_type f_name f_type f_result f_env f_args f_body app rev].
    rewrite Pl. cbn [check_expr check_all]. rewrite same_type_refl. unfold f_type. cbn [f_args f_result map].
    rewrite Hb.
    - rewrite same_type_refl. cbn [length]. rewrite lookup_same, same_type_refl. cbn [andb].
      rewrite (check_all_intro _ _ _ _ Pe). rewrite same_type_refl. cbn [andb]. rewrite lookup_same. rewrite same_type_refl. reflexivity.
    - apply provides_binds; [intros x m Hx; apply (Na x m), in_rev, Hx|]. part P1.
  Qed.

  (** *** Comprehensions *)
  Fixpoint extend (trs : list (string * string * mtype)) (vars : variables) : variables :=
    match trs with
    | [] => vars
    | (x, l, m) :: trs' => extend trs' ((l, LT) :: (x, fn [] m) :: ("$firstRest", FT) :: vars)
    end.

  Definition plain_name (x : string) : Prop :=
    private x /\ x <> "$firstRest" /\ x <> "$closure" /\ x <> "$loop" /\ x <> "$thunk" /\ forall i, x <> iteratee_name i.

  Lemma y_empty_list res vars t m : lowers t m -> checks res vars (HList t []) LT.
  Proof. intros L. eapply y_list; [exact X|exact K|exact L|intros e []|intros e []]. Qed.

  Lemma iteratee_private i : private (iteratee_name i).
  Proof. eapply private_dollar; [exact K|]. unfold iteratee_name. cbn. destruct (decimal (S i) i); reflexivity. Qed.

  Lemma y_loop_lists res t m body : lowers t m -> forall trs ets vars,
    (forall x l, In (x, l) (map fst trs) -> plain_name x /\ lookup vars l = Some LT /\ exists i, l = iteratee_name i) ->
    Forall2 lowers ets (map snd trs) ->
    checks res (extend trs vars) body LT ->
    checks res vars (loop_lists t (combine (map fst trs) ets) body) LT.
  Proof.
    intros L. induction trs as [|[[x l] me] trs IH]; intros ets vars N F Hb; inversion F as [|et ? ets' ? Le F']; subst; [exact Hb|].
    cbn [map fst snd combine loop_lists]. destruct (N x l (or_introl eq_refl)) as ((N1 & N2 & N3 & _ & _ & N4) & Ll & i & ->).
    eapply y_iflist; [exact X|exact K|exact Le|apply y_var, Ll|exact N1|apply iteratee_private|exact N2|exact N3| |eapply y_empty_list, L].
    apply IH; [|exact F'|exact Hb]. intros y l Hy. destruct (N y l (or_intror Hy)) as (Ny & Ll' & j & ->).
    split; [exact Ny|]. split; [|exists j; reflexivity]. cbn [lookup]. destruct (String.eqb_spec (iteratee_name j) (iteratee_name i)); [reflexivity|].
    destruct (String.eqb_spec (iteratee_name j) x) as [<-|_]; [exfalso; exact (N4 j eq_refl)|]. exact Ll'.
  Qed.

  Lemma extend_sees trs : forall vars vars0 x,
    (forall l, In l (map snd (map fst trs)) -> x <> l) -> x <> "$firstRest" -> lookup vars x = lookup vars0 x ->
    lookup (extend trs vars) x = lookup (rev (map (fun p => (fst (fst p), fn [] (snd p))) trs) ++ vars0)%list x.
  Proof.
    induction trs as [|[[y l] m] trs IH]; intros vars vars0 x N F H; [exact H|]. cbn [extend map rev fst snd].
    rewrite <- app_assoc. apply IH; [intros l' Hl'; apply N; right; exact Hl'|exact F|].
    cbn [lookup app]. destruct (String.eqb_spec x l) as [->|_]; [exfalso; exact (N l (or_introl eq_refl) eq_refl)|].
    destruct (String.eqb x y); [reflexivity|]. destruct (String.eqb_spec x "$firstRest"); [contradiction|exact H].
  Qed.

  Lemma extend_loop trs : forall vars m, (forall x l, In (x, l) (map fst trs) -> plain_name x /\ exists i, l = iteratee_name i) ->
    lookup vars "$loop" = Some m -> lookup (extend trs vars) "$loop" = Some m.
  Proof.
    induction trs as [|[[y l] k] trs IH]; intros vars m N H; [exact H|]. cbn [extend].
    destruct (N y l (or_introl eq_refl)) as ((_ & _ & _ & N1 & _) & i & ->).
    apply IH; [intros x l Hx; apply N; right; exact Hx|]. cbn [lookup].
    destruct (String.eqb_spec "$loop" (iteratee_name i)) as [Q|_]; [discriminate|].
    destruct (String.eqb_spec "$loop" y); [exfalso; apply N1; symmetry; assumption|exact H].
  Qed.

  Lemma extend_lists trs : forall vars l, (forall x l, In (x, l) (map fst trs) -> plain_name x) -> (exists i, l = iteratee_name i) ->
    lookup vars l = Some LT -> lookup (extend trs vars) l = Some LT.
  Proof.
    induction trs as [|[[y l'] k] trs IH]; intros vars l N I H; [exact H|]. cbn [extend].
    apply IH; [intros x l1 Hx; apply (N x l1); right; exact Hx|exact I|]. cbn [lookup]. destruct I as [i ->].
    destruct (N y l' (or_introl eq_refl)) as (_ & _ & _ & _ & _ & N1).
    destruct (String.eqb (iteratee_name i) l'); [reflexivity|].
    destruct (String.eqb_spec (iteratee_name i) y) as [Q|_]; [exfalso; apply (N1 i); symmetry; exact Q|].
    destruct (String.eqb_spec (iteratee_name i) "$firstRest"); [discriminate|exact H].
  Qed.

  (** The scope [vars'] inside a branch: the names of the branch and the
      visible names of [vars] *)
  Definition inside (names : list string) (mes : list mtype) (vars vars' : variables) : Prop :=
    forall x, visible x = true \/ In x names ->
      lookup vars' x = lookup (rev (combine names (map (fn []) mes)) ++ vars)%list x.

  Lemma iteratee_elements_at its : forall ets mes, List.length ets = List.length its ->
    (forall t e et, In ((t, e), et) (combine its ets) -> exists t', t = Some t' /\ teq E t' (TList et)) ->
    Forall2 lowers ets mes -> forall ets', iteratee_elements n E its = Ok ets' -> Forall2 lowers ets' mes.
  Proof.
    induction its as [|[t e] its IH]; intros [|et ets] mes Hl H F ets' Q; try discriminate; inversion F as [|? me ? mes' Le F']; subst;
      [injection Q as <-; constructor|].
    cbn in Q. destruct (H t e et (or_introl eq_refl)) as (t' & -> & T). cbn in Q. bok Q c Hc. bok Q r Hr.
    assert (Hcc : canon E t' c) by (exists n; exact Hc).
    apply lowers_canon in Le. destruct Le as (ce & Hce & Lce & Pce).
    assert (Cl : canon E (TList et) (TList ce)) by (apply canon_list; exists ce; auto).
    rewrite (teq_canon_eq f E W _ _ _ _ T Hcc Cl) in Q. injection Q as <-. constructor.
    - apply lowers_canon. exists ce. split; [eapply canon_idem; eassumption|auto].
    - eapply IH; [|intros t e0 et0 Hin; apply (H t e0 et0); right; exact Hin|exact F'|exact Hr]. injection Hl as Hl. exact Hl.
  Qed.

  Lemma lowered_list t m : lowers t m -> lowers (TList t) LT.
  Proof. intros L. apply list_lowers. eapply lowers_proper, L. Qed.
  Lemma lowered_map k v mk mv : lowers k mk -> lowers v mv -> lowers (TMap k v) MT.
  Proof. intros L L'. apply map_lowers; eapply lowers_proper; eassumption. Qed.

  Lemma y_comp res vars t m el b bs ets mes :
    lowers t m -> Forall (fun x => plain_name x) (b_names b) ->
    List.length (b_names b) = List.length (b_iteratees b) -> List.length ets = List.length (b_iteratees b) ->
    (forall t e et, In ((t, e), et) (combine (b_iteratees b) ets) -> exists t', t = Some t' /\ teq E t' (TList et)) ->
    Forall2 lowers ets mes ->
    (forall t e, In (t, e) (b_iteratees b) -> forall vars', over vars vars' -> checks LT vars' e LT) ->
    (forall c, b_condition b = Some c -> forall vars', inside (b_names b) mes vars vars' -> checks LT vars' c Mir.TBoolean) ->
    (bs = [] -> forall vars', inside (b_names b) mes vars vars' -> checks TVariant vars' el m) ->
    (bs <> [] -> forall vars', inside (b_names b) mes vars vars' -> checks LT vars' (HComprehension t el bs) LT) ->
    checks res vars (HComprehension t el (b :: bs)) LT.
  Proof.
    intros L Nn Hl1 Hl2 Ht F Hi Hc He Hm. one k H. unfold comprehension in H.
    bok H body Hbody. bok H body' Hbody'. bok H its Hits. injection H as <-. intros P. exists LT. split; [reflexivity|].
    unfold loop_body in Hbody. bok Hbody ets' Hets. injection Hbody as <-.
    pose proof (iteratee_elements_at _ _ _ Hl2 Ht F _ Hets) as F'.
    set (lists := map iteratee_name (seq 0 (List.length (b_iteratees b)))) in *.
    assert (Ll : List.length lists = List.length (b_iteratees b)) by (unfold lists; rewrite map_length, seq_length; reflexivity).
    assert (Il : forall l, In l lists -> exists i, l = iteratee_name i).
    { intros l Hin. apply in_map_iff in Hin. destruct Hin as (i & <- & _). exists i. reflexivity. }
    set (args := map (fun x => (x, LT)) lists).
    assert (A1 : map (fun _ : string => list_mtype C) lists = map snd args).
    { unfold args. rewrite map_map. reflexivity. }
    rewrite A1 in *. fold args in P |- *.
    apply lazy_loop_checks; [exact P| |].
    { intros x k Hx. apply in_map_iff in Hx. destruct Hx as (l & Q & Hin). injection Q as <- _. destruct (Il l Hin) as [i ->]. apply iteratee_private. }
    intros scope ->. split.
    - set (scope := (rev args ++ ("$loop", fn (map snd args) LT) :: ("$loop", fn [] LT) :: vars)%list).
      intros Pb. eapply checks_at; [|exact Hbody'|exact Pb].
      set (trs := combine (combine (b_names b) lists) mes).
      assert (Lm : List.length mes = List.length ets) by (symmetry; clear - F; induction F; cbn; congruence).
      assert (T1 : map fst trs = combine (b_names b) lists).
      { unfold trs. apply map_fst_combine. rewrite combine_length. lia. }
      assert (T2 : map snd trs = mes).
      { unfold trs. apply map_snd_combine. rewrite combine_length. lia. }
      assert (Sl : forall l, In l lists -> lookup scope l = Some LT).
      { intros l Hin. unfold scope. apply lookup_app_left. unfold args. rewrite <- map_rev. apply lookup_all. apply in_rev in Hin. exact Hin. }
      assert (So : forall x, (forall i, x <> iteratee_name i) -> lookup scope x = lookup (("$loop", fn (map snd args) LT) :: ("$loop", fn [] LT) :: vars) x).
      { intros x Nx. unfold scope. apply lookup_app_right. intros k Hx. apply in_rev in Hx. apply in_map_iff in Hx. destruct Hx as (l & Q & Hin). injection Q as <- _.
        destruct (Il l Hin) as [i ->]. exact (Nx i eq_refl). }
      assert (Np : forall x l, In (x, l) (combine (b_names b) lists) -> plain_name x /\ exists i, l = iteratee_name i).
      { intros x l Hin. split; [|apply Il; eapply in_combine_r, Hin]. rewrite Forall_forall in Nn. apply Nn. eapply in_combine_l, Hin. }
      rewrite <- T1. eapply (y_loop_lists LT t m); [exact L| | |].
      + rewrite T1. intros x l Hin. destruct (Np x l Hin) as [N1 N2]. split; [exact N1|]. split; [|exact N2]. apply Sl. eapply in_combine_r, Hin.
      + rewrite T2. exact F'.
      + assert (Ins : inside (b_names b) mes vars (extend trs scope)).
        { intros x Hx.
          assert (Nx : (forall i, x <> iteratee_name i) /\ x <> "$firstRest" /\ x <> "$loop").
          { destruct Hx as [Hx|Hx].
            - split; [|split; intros ->; discriminate]. intros i ->. unfold visible, iteratee_name in Hx. cbn in Hx. destruct (decimal (S i) i); discriminate.
            - rewrite Forall_forall in Nn. destruct (Nn x Hx) as (_ & N1 & _ & N2 & _ & N3). auto. }
          destruct Nx as (N1 & N2 & N3). rewrite (extend_sees trs scope vars x).
          - f_equal. f_equal. f_equal. unfold trs. apply combine_names; lia.
          - rewrite T1. intros l Hin. rewrite map_snd_combine in Hin by lia. destruct (Il l Hin) as [i ->]. apply N1.
          - exact N2.
          - rewrite So by exact N1. cbn [lookup]. destruct (String.eqb_spec x "$loop"); [contradiction|reflexivity]. }
        assert (Rest : forall res' v, (forall x, x <> "$thunk" -> lookup v x = lookup (extend trs scope) x) ->
          checks res' v (loop_rest t (map TList ets') lists) LT).
        { intros res' v Hv. unfold loop_rest. eapply y_call with (ms := map snd args).
          - discriminate.
          - apply l_function; [|eapply lowered_list, L].
            assert (Q : map snd args = map (fun _ => LT) mes).
            { unfold args. rewrite map_map. cbn. clear - Ll Hl2 Lm. assert (Q : List.length lists = List.length mes) by lia. clear Ll Hl2 Lm. revert mes Q.
              induction lists as [|l ls IH]; intros [|k ks] Q; try discriminate; [reflexivity|]. cbn. f_equal. apply IH. injection Q as Q. exact Q. }
            rewrite Q. clear - F' W. induction F' as [|et me ets' mes Le _ IH]; [constructor|]. constructor; [eapply lowered_list, Le|exact IH].
          - apply y_var. rewrite Hv by discriminate. apply extend_loop; [rewrite T1; exact Np|]. rewrite So by discriminate. apply lookup_same.
          - assert (G : forall l, In l lists -> checks res' v (HVariable l) LT).
            { intros l Hin. apply y_var. destruct (Il l Hin) as [i ->]. rewrite Hv by discriminate. apply extend_lists; [rewrite T1; intros x l Hx; apply (Np x l Hx)|exists i; reflexivity|].
              apply Sl, Hin. }
            unfold args. rewrite map_map. cbn. clear - G. induction lists as [|l ls IH]; [constructor|]. constructor; [apply G; left; reflexivity|].
            apply IH. intros l' Hl'. apply G. right. exact Hl'. }
        assert (Ins' : forall k, inside (b_names b) mes vars (("$thunk", k) :: extend trs scope)).
        { intros k x Hx. rewrite lookup_other; [apply Ins, Hx|]. destruct Hx as [Hx|Hx]; [intros ->; discriminate|].
          rewrite Forall_forall in Nn. apply (Nn x Hx). }
        assert (Body : checks LT (extend trs scope) (HList t [match bs with [] => Single el | _ => Multiple (HComprehension t el bs) end; Multiple (loop_rest t (map TList ets') lists)]) LT).
        { eapply y_list; [exact X|exact K|exact L| |].
          - intros e [Q|[Q|[]]]; [|discriminate]. destruct bs; [|discriminate]. injection Q as <-. apply He; [reflexivity|apply Ins'].
          - intros e [Q|[Q|[]]].
            + destruct bs; [discriminate|]. injection Q as <-. apply Hm; [discriminate|apply Ins'].
            + injection Q as <-. apply Rest. intros x Hx. apply lookup_other, Hx. }
        destruct (b_condition b) as [c|]; [|exact Body]. apply y_if; [eapply Hc; [reflexivity|exact Ins]|exact Body|]. apply Rest. reflexivity.
    - assert (Ov : over vars (("$loop", fn (map snd args) LT) :: ("$loop", fn [] LT) :: vars)) by (repeat (apply over_hide; [reflexivity|]); apply over_refl).
      apply mapM_ok in Hits. assert (Q : map snd args = map (fun _ => LT) its).
      { unfold args. rewrite map_map. cbn. assert (Q : List.length lists = List.length its) by (rewrite Ll; clear - Hits; induction Hits; cbn; congruence). clear - Q.
        revert its Q. induction lists as [|l ls IH]; intros [|k ks] Q; try discriminate; [reflexivity|]. cbn. f_equal. apply IH. injection Q as Q. exact Q. }
      revert Ov. generalize (("$loop", fn (map snd args) LT) :: ("$loop", fn [] LT) :: vars). intros scope Ov.
      rewrite Q. clear - Hits Hi Ov. revert Hi. induction Hits as [|[t e] e' l l' He _ IH]; intros Hi; [constructor|]. constructor.
      + intros P. eapply checks_at; [eapply Hi; [left; reflexivity|exact Ov]|exact He|exact P].
      + apply IH. intros t0 e0 Hin. apply (Hi t0 e0). right. exact Hin.
  Qed.
End Loop.
