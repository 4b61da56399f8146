(** The MIR check of the code of calls of built-in functions. *)
From Coq Require Import String Ascii List ZArith Bool Lia.
From Verif Require Import Base Mir MirTypeCheck MirTypeProofs HirType HirTypeOrder HirTypeSpec HirTypeTermination HirTypeEq HirTypeSub
  Hir HirSpec HirParts HirTyping HirMir LowerTag LowerSwitch LowerTypeSpec LowerTypeBase LowerTypeCode LowerTypeMore LowerTypeLoop.
Import ListNotations.
Local Open Scope string_scope.

Section Builtin.
  Variable f : string -> string.
  Variable E : tenv.
  Variable R : renv.
  Variable C : config.
  Variable M : mmodule.
  Variable n : nat.
  Hypothesis X : context_ok f E R.
  Hypothesis K : config_ok E R C.

  Let W : wf f E := ctx_types f E R X.

  Notation lowers := (lowers E C).
  Notation provides := (provides E R C M).
  Notation compile := (compile n E R C).
  Notation private := (private E R C).
  Notation yields := (yields E R C M n).
  Notation checks := (checks E R C M n).
  Notation good := (good E R C M n).
  Notation LT := (Mir.TRecord (list_type C)).
  Notation MT := (Mir.TRecord (map_type C)).
  Notation CT := (Mir.TRecord (map_context C)).
  Notation FT := (Mir.TRecord (list_first_rest C)).
  Notation IT := (Mir.TRecord (iterator_type C)).
  Notation fn := Mir.TFunction.

  Ltac part H := eapply provides_part; [|exact H]; let z := fresh in let Hz := fresh in intros z Hz;
    cbn [needs flat_map operation_needs f_body f_name]; rewrite ?in_app_iff; cbn [In]; tauto.
  Ltac ll := first [apply l_list with (R := R); exact K | apply l_map with (R := R); exact K | apply l_context with (R := R); exact K
    | apply l_first_rest with (R := R); exact K | apply l_first_rest_or_none with (R := R); exact K
    | apply l_iterator with (R := R); exact K | apply l_iterator_or_none with (R := R); exact K
    | apply l_empty with (R := R); exact K
    | apply lowers_any | apply lowers_boolean | apply lowers_none | apply lowers_number | apply lowers_string
    | apply lowers_error | apply lowers_record; assumption
    | apply l_function; [repeat (constructor; [ll|]); constructor|ll] ].
  Ltac lls := repeat (constructor; [ll|]); constructor.
  Ltac hidden := eapply private_dollar; [exact K|reflexivity].
  Ltac call c := eapply y_hcall; [apply c|lls|ll|].

  Lemma args1 {A B D} (g : A -> res B) (P : A -> D -> Prop) args es m : mapM g args = Ok es -> Forall2 P args [m] ->
    exists a e, args = [a] /\ es = [e] /\ g a = Ok e /\ P a m.
  Proof.
    intros H F. inversion F as [|a ? args' ? Ha F']; subst. inversion F'; subst. apply mapM_ok in H. inversion H as [|? e ? ? He H']; subst. inversion H'; subst.
    exists a, e. auto.
  Qed.
  Lemma args2 {A B D} (g : A -> res B) (P : A -> D -> Prop) args es m m' : mapM g args = Ok es -> Forall2 P args [m; m'] ->
    exists a e a' e', args = [a; a'] /\ es = [e; e'] /\ g a = Ok e /\ P a m /\ g a' = Ok e' /\ P a' m'.
  Proof.
    intros H F. inversion F as [|a ? args' ? Ha F']; subst. inversion F' as [|a' ? args'' ? Ha' F'']; subst. inversion F''; subst.
    apply mapM_ok in H. inversion H as [|? e ? ? He H']; subst. inversion H' as [|? e' ? ? He' H'']; subst. inversion H''; subst.
    exists a, e, a', e'. auto 8.
  Qed.

  (** *** Type information *)
  Lemma debug_checks res vars e : provides vars (debug_call e) -> check_expr M res vars e = Some TVariant ->
    check_expr M res vars (debug_call e) = Some TByteString.
  Proof.
    intros (_ & Pr & Pf & Pi) He. unfold debug_call, information_function.
    cbn [check_expr check_all operand_types operation_type length]. rewrite He, Pf, Pi.
    rewrite (Pr information_record [fn [TVariant] TByteString; fn [TVariant; TVariant] TVariant]); [|left; reflexivity|apply cr_information].
    cbn [nth_error]. rewrite !same_type_refl. reflexivity.
  Qed.
  Lemma equal_call_checks res vars a b : provides vars (equal_call a b) -> check_expr M res vars a = Some TVariant -> check_expr M res vars b = Some TVariant ->
    check_expr M res vars (equal_call a b) = Some TVariant.
  Proof.
    intros (_ & Pr & Pf & Pi) Ha Hb. unfold equal_call, information_function.
    cbn [check_expr check_all operand_types operation_type length]. rewrite Ha, Hb, Pf, Pi.
    rewrite (Pr information_record [fn [TVariant] TByteString; fn [TVariant; TVariant] TVariant]); [|left; reflexivity|apply cr_information].
    cbn [nth_error]. rewrite !same_type_refl. reflexivity.
  Qed.

  (** *** Iteration over maps *)
  Lemma y_iteration g (t : ty) m mt vars body res :
    compiler_name E R C g (fn [IT] TVariant) -> lowers t mt -> iteration_body n E C g t = Ok body ->
    (forall vars', over vars vars' -> checks LT vars' m MT) ->
    forall k e', map_iteration n E C (compile k) g m t = Ok e' -> provides vars e' -> check_expr M res vars e' = Some LT.
  Proof.
    intros Cg L Hbody Hm k e' H P. unfold map_iteration in H. rewrite Hbody in H. cbn [bind] in H. bok H b' Hb'. bok H m' Hm'. injection H as <-.
    change ([TVariant]) with (map snd [("$iterator", TVariant)]) in P |- *.
    eapply lazy_loop_checks; [exact K|exact P| |].
    { intros x k' [Q|[]]. injection Q as <- <-. hidden. }
    intros scope Qs. assert (Ov : over vars scope) by (rewrite Qs; repeat (apply over_hide; [reflexivity|]); apply over_refl). split.
    - rewrite Qs. clear scope Qs Ov. intros Pb. eapply checks_at; [|exact Hb'|exact Pb]. unfold iteration_body in Hbody. bok Hbody d Hd. injection Hbody as <-.
      set (scope := (rev [("$iterator", TVariant)] ++ ("$loop", fn (map snd [("$iterator", TVariant)]) LT) :: ("$loop", fn [] LT) :: vars)%list).
      eapply y_iftype; [exact W|hidden|apply y_var; reflexivity|discriminate| | | |].
      + intros bt b [Q|[]]. injection Q as <- <-. eapply (lowers_proper E C); ll.
      + intros et b Q. injection Q as <- <-. eapply (lowers_proper E C); ll.
      + intros bt b mb [Q|[]] Lb. injection Q as <- <-. assert (mb = IT) as -> by (eapply lowers_fun; [exact Lb|ll]).
        eapply y_list; [exact X|exact K|exact L| |].
        * intros e [Q|[Q|[]]]; [|discriminate]. injection Q as <-. eapply y_downcast; [exact X|exact K|exact Hd|exact L|].
          eapply y_hcall; [exact Cg|lls|ll|]. constructor; [apply y_var; reflexivity|constructor].
        * intros e [Q|[Q|[]]]; [discriminate|]. injection Q as <-.
          eapply y_call with (ms := [TVariant]).
          -- discriminate.
          -- apply l_function; [lls|eapply lowered_list; [exact L]].
          -- apply y_var. reflexivity.
          -- constructor; [|constructor]. call cn_iterator_rest. constructor; [apply y_var; reflexivity|constructor].
      + intros et b mb Q Lb. injection Q as <- <-. eapply y_empty_list; [exact X|exact K|exact L].
    - constructor; [|constructor]. intros Pe. cbn [check_expr check_all operand_types operation_type length].
      rewrite (proj1 Pe (iterate_map C) (fn [MT] TVariant)); [|left; reflexivity|constructor].
      rewrite (checks_at _ _ _ _ _ _ _ _ _ _ _ (Hm _ Ov) Hm') by (part Pe).
      unfold map_mtype. rewrite !same_type_refl. reflexivity.
  Qed.

  (** Arguments the code of a built-in function evaluates inside a closure *)
  Definition defers (b : builtin) : bool := match b with BKeys | BRace | BValues => true | _ => false end.

  Lemma y_builtin res vars ft b args ts r ms m : signature E b ts r -> teq E ft (TFunction ts r) ->
    Forall2 lowers ts ms -> lowers r m -> List.length args = List.length ts ->
    (forall a ma res' vars', In (a, ma) (combine args ms) -> over vars vars' ->
      res' = res \/ defers b = true \/ b = BSpawn /\ res' = TVariant -> checks res' vars' a ma) ->
    checks res vars (HCall (Some ft) (HBuiltIn b) args) m.
  Proof.
    intros S T Lts Lr Len Ha. intros [|k]; [discriminate|]. intros e' H. cbn [HirMir.compile] in H. unfold compile_built_in in H.
    bok H ft' Hft. injection Hft as <-. bok H ar Har. bok H es Hes. apply canonical_function_canon in Har. intros P. exists m. split; [reflexivity|].
    assert (Lar : Forall2 lowers (fst ar) ms /\ lowers (snd ar) m).
    { assert (L : lowers (TFunction (fst ar) (snd ar)) (fn ms m)).
      { eapply lowers_teq; [exact W| |apply l_function; [exact Lts|exact Lr]].
        eapply teq_trans; [apply teq_sym, T|apply canon_sound, Har]. }
      apply lowers_function in L. destruct L as (ms' & m' & Q & L1 & L2). injection Q as <- <-. auto. }
    assert (Ls : forall s, compile_signature n E C (TFunction (fst ar) (snd ar)) = Ok s -> s = (ms, m)).
    { unfold compile_signature. intros s Q. bok Q x Hx. assert (x = fn ms m) as ->.
      { eapply compiles_fun; [exact Hx|]. apply l_function; apply Lar. } injection Q as <-. reflexivity. }
    destruct Lar as [La Lr'].
    assert (Fc : Forall2 (canon E) ts (fst ar)).
    { assert (D : defined E (TFunction ts r)) by (eapply lowers_defined, l_function; eassumption).
      destruct (canon_ex f E W _ D) as [c Hc]. pose proof (teq_canon_eq f E W _ _ _ _ T Har Hc) as Q0.
      apply canon_function in Hc. destruct Hc as (a' & r' & Q1 & Q2 & Q). rewrite Q in Q0. injection Q0 as Q3 Q4. rewrite Q3. exact Q1. }
    assert (Hes' : forall res' vars', over vars vars' -> res' = res \/ defers b = true \/ b = BSpawn /\ res' = TVariant -> Forall2 (checks res' vars') args ms).
    { intros res' vars' Ov Hr. assert (Q : List.length args = List.length ms) by (rewrite Len; clear - Lts; induction Lts; cbn; congruence).
      assert (G : forall a ma, In (a, ma) (combine args ms) -> checks res' vars' a ma) by (intros a ma Hin; eapply Ha; eassumption).
      clear - Q G. revert ms Q G. induction args as [|a args IH]; intros [|k ms] Q G; try discriminate; constructor.
      - apply G. left. reflexivity.
      - apply IH; [injection Q as Q; exact Q|]. intros a' k' Hin. apply G. right. exact Hin. }
    assert (Hown := Hes' res vars (over_refl vars) (or_introl eq_refl)).
    assert (Ce : (forall e, In e es -> provides vars e) -> Forall2 (fun e t => check_expr M res vars e = Some t) es ms).
    { intros Pe. eapply compiled_args; [exact Hes|exact Hown|exact Pe]. }
    destruct S; inversion Lts as [|t1 m1 ts1 ms1 L1 Lts1]; subst; try (inversion Lts1 as [|t2 m2 ts2 ms2 L2 Lts2]; subst);
      repeat match goal with H : Forall2 lowers [] _ |- _ => inversion H; subst; clear H end.
    - (* debug *)
      destruct (args1 _ _ _ _ _ Hes Hown) as (a1 & e1 & -> & -> & He1 & Hc1). cbn [nth_error bind] in H. injection H as <-. assert (Pe : provides vars (debug_call e1)) by (part P).
      assert (m1 = TVariant) as -> by (eapply lowers_fun; [exact L1|ll]).
      assert (Ck : check_expr M res vars e1 = Some TVariant).
      { eapply checks_at; [exact Hc1|exact He1|]. eapply provides_part; [|exact Pe]. intros z Hz. cbn. right. rewrite !in_app_iff. auto. }
      cbn [check_expr check_all operand_types]. rewrite (proj1 P debug_function (fn [TByteString] Mir.TNone)); [|left; reflexivity|constructor].
      rewrite (debug_checks _ _ _ Pe Ck). rewrite !same_type_refl. rewrite (lowers_fun _ _ _ _ _ Lr (lowers_none E C)). reflexivity.
    - (* delete *)
      destruct (args2 _ _ _ _ _ _ Hes Hown) as (a1 & e1 & a2 & e2 & -> & -> & He1 & Hc1 & He2 & Hc2). cbn [nth_error bind] in H. bok H kv Hkv. bok H ctx Hctx. bok H ctx' Hctx'. bok H kt Hkt. bok H key' Hkey'. injection H as <-.
      rewrite (lowers_map _ _ _ _ _ L1) in *. rewrite (lowers_map _ _ _ _ _ Lr) in *.
      inversion La as [|t1' ? ar' ? La1 La']; subst. inversion La' as [|t2' ? ar'' ? La2 La'']; subst.
      match goal with Q : _ = fst ar |- _ => rewrite <- Q in Hkt end. injection Hkt as <-.
      cbn [check_expr check_all operand_types operation_type length]. rewrite (proj1 P (map_delete C) (fn [CT; MT; TVariant] MT)); [|left; reflexivity|constructor].
      assert (Yx : checks res vars ctx CT) by (eapply y_context; [exact K|exact Hctx]).
      rewrite (checks_at _ _ _ _ _ _ _ _ _ _ _ Yx Hctx') by (part P).
      rewrite (checks_at _ _ _ _ _ _ _ _ _ _ _ Hc1 He1) by (part P).
      assert (Yk : checks res vars (HCoerce t2' TAny a2) TVariant) by (eapply y_coerce_any; [exact W|exact La2|exact Hc2]).
      rewrite (checks_at _ _ _ _ _ _ _ _ _ _ _ Yk Hkey') by (part P).
      unfold map_mtype. rewrite !same_type_refl. reflexivity.
    - (* error *)
      destruct (args1 _ _ _ _ _ Hes Hown) as (a1 & e1 & -> & -> & He1 & Hc1). cbn [nth_error bind] in H. injection H as <-. assert (m1 = TVariant) as -> by (eapply lowers_fun; [exact L1|ll]).
      unfold make_error in *. cbn [check_expr]. rewrite (checks_at _ _ _ _ _ _ _ _ _ _ _ Hc1 He1) by (part P). rewrite !same_type_refl.
      cbn [lookup check_alternatives a_types a_name a_body alt_type check_expr]. rewrite !String.eqb_refl, !same_type_refl. cbn.
      rewrite (proj1 (proj2 P) error_record [TVariant]); [|cbn; rewrite !in_app_iff; cbn; tauto|constructor].
      rewrite (lowers_fun _ _ _ _ _ Lr (lowers_error E C)). reflexivity.
    - (* keys *)
      destruct (args1 _ _ _ _ _ Hes Hown) as (a1 & e1 & -> & -> & He1 & Hc1). cbn [nth_error bind] in H.
      bok H t1' Ht1. bok H kv Hkv. inversion La as [|? ? ar' ? La1 La']; subst. match goal with Q : _ = fst ar |- _ => rewrite <- Q in Ht1 end. injection Ht1 as <-.
      apply canonical_map_canon in Hkv. rewrite (lowers_map _ _ _ _ _ L1) in *. rewrite (lowers_list _ _ _ _ Lr) in *.
      assert (D : proper E (TMap (fst kv) (snd kv))) by (eapply proper_teq; [exact W|apply canon_sound, Hkv|eapply lowers_proper, La1]).
      destruct (proper_lowers E C (fst kv)) as [mt Lt]; [apply (proper_entries _ _ _ D)|].
      unfold map_iteration in H. bok H body Hbody. eapply (y_iteration (iterator_key C) (fst kv) a1 mt vars body res); [constructor|exact Lt|exact Hbody| | |exact P].
      + intros vars' Ov. apply (Ha a1 MT LT vars'); [left; reflexivity|exact Ov|right; left; reflexivity].
      + unfold map_iteration. rewrite Hbody. exact H.
    - (* race *)
      destruct (args1 _ _ _ _ _ Hes Hown) as (a1 & e1 & -> & -> & He1 & Hc1). cbn [nth_error bind] in H.
      bok H et Het. bok H l Hl. bok H s Hs. injection H as <-. rewrite (Ls s Hs) in *. cbn [fst snd] in *.
      rewrite (lowers_list _ _ _ _ L1) in *. rewrite (lowers_list _ _ _ _ Lr) in *.
      apply canonical_list_canon in Het. assert (D : proper E (TList et)) by (eapply proper_teq; [exact W|apply canon_sound, Het|eapply lowers_proper, Lr']).
      destruct (proper_lowers E C et (proper_element _ _ D)) as [mt Lt].
      assert (Ll : lowers (TList et) LT) by (eapply lowered_list; [exact Lt]).
      assert (Y : checks res vars (HComprehension (TList TAny)
                     (HCall (Some (TFunction [] (TList et))) (HVariable "$element") [])
                     [CompBranch ["$element"] [(Some (TList (TList et)), a1)] None]) LT).
      { eapply y_comp with (ets := [TList et]) (mes := [LT]); [exact X|exact K|eapply lowered_list; [ll]| |reflexivity|reflexivity| | | | | |].
        - constructor; [|constructor]. split; [hidden|]. repeat (split; [discriminate|]). intros i. discriminate.
        - intros t0 e0 et0 [Q|[]]. injection Q as <- <- <-. exists (TList (TList et)). split; [reflexivity|apply teq_refl].
        - constructor; [exact Ll|constructor].
        - intros t0 e0 [Q|[]] vars' Ov. injection Q as <- <-. apply (Ha a1 LT LT vars'); [left; reflexivity|exact Ov|right; left; reflexivity].
        - discriminate.
        - intros _ vars' Ins. eapply y_call with (ms := []); [discriminate|apply l_function; [constructor|exact Ll]| |constructor].
          apply y_var. rewrite (Ins "$element") by (right; left; reflexivity). reflexivity.
        - intros Q. contradiction. }
      cbn [check_expr check_all operand_types operation_type length]. rewrite (proj1 P race_function (fn [LT] LT)); [|left; reflexivity|constructor].
      rewrite (checks_at _ _ _ _ _ _ _ _ _ _ _ Y Hl) by (part P). rewrite !same_type_refl. reflexivity.
    - (* reflect debug *)
      destruct (args1 _ _ _ _ _ Hes Hown) as (a1 & e1 & -> & -> & He1 & Hc1). cbn [nth_error bind] in H. injection H as <-.
      assert (m1 = TVariant) as -> by (eapply lowers_fun; [exact L1|ll]).
      rewrite (lowers_fun _ _ _ _ _ Lr (lowers_string E C)). apply debug_checks; [exact P|].
      eapply checks_at; [exact Hc1|exact He1|]. eapply provides_part; [|exact P]. intros z Hz. cbn. right. rewrite !in_app_iff. auto.
    - (* reflect equal *)
      destruct (args2 _ _ _ _ _ _ Hes Hown) as (a1 & e1 & a2 & e2 & -> & -> & He1 & Hc1 & He2 & Hc2). cbn [nth_error bind] in H. injection H as <-.
      assert (m1 = TVariant) as -> by (eapply lowers_fun; [exact L1|ll]). assert (m2 = TVariant) as -> by (eapply lowers_fun; [exact L2|ll]).
      assert (m = TVariant) as ->.
      { eapply lowers_fun; [exact Lr|]. eexists. split; [exists 10; reflexivity|]. split; [reflexivity|intros z []]. }
      apply equal_call_checks; [exact P| |].
      + eapply checks_at; [exact Hc1|exact He1|]. eapply provides_part; [|exact P]. intros z Hz. cbn. right. rewrite !in_app_iff. auto.
      + eapply checks_at; [exact Hc2|exact He2|]. eapply provides_part; [|exact P]. intros z Hz. cbn. right. rewrite !in_app_iff. auto.
    - (* size of a list *)
      destruct (args1 _ _ _ _ _ Hes Hown) as (a1 & e1 & -> & -> & He1 & Hc1). cbn [nth_error bind] in H.
      bok H s Hs. rewrite (Ls s Hs) in *. bok H t1' Ht1. inversion La as [|u1 ? ar' ? La1 La']; subst. match goal with Q : _ = fst ar |- _ => rewrite <- Q in Ht1 end. injection Ht1 as <-.
      bok H g Hg. injection H as <-. cbn [fst snd] in *. rewrite (lowers_fun _ _ _ _ _ Lr (lowers_number E C)) in *.
      match goal with Q : _ = fst ar |- _ => rewrite <- Q in Fc end. inversion Fc as [|? ? ? ? Fc1 _]; subst. apply canon_list in Fc1.
      assert (Q : exists ct, u1 = TList ct) by (destruct Fc1 as (ct & _ & ->); eauto).
      destruct Q as [ct ->]. injection Hg as <-. rewrite (lowers_list _ _ _ _ L1) in *.
      cbn [check_expr check_all operand_types operation_type length]. rewrite (proj1 P (list_size C) (fn [LT] Mir.TNumber)); [|left; reflexivity|constructor].
      rewrite (checks_at _ _ _ _ _ _ _ _ _ _ _ Hc1 He1) by (part P). rewrite !same_type_refl. reflexivity.
    - (* size of a map *)
      destruct (args1 _ _ _ _ _ Hes Hown) as (a1 & e1 & -> & -> & He1 & Hc1). cbn [nth_error bind] in H.
      bok H s Hs. rewrite (Ls s Hs) in *. bok H t1' Ht1. inversion La as [|u1 ? ar' ? La1 La']; subst. match goal with Q : _ = fst ar |- _ => rewrite <- Q in Ht1 end. injection Ht1 as <-.
      bok H g Hg. injection H as <-. cbn [fst snd] in *. rewrite (lowers_fun _ _ _ _ _ Lr (lowers_number E C)) in *.
      match goal with Q : _ = fst ar |- _ => rewrite <- Q in Fc end. inversion Fc as [|? ? ? ? Fc1 _]; subst. apply canon_map in Fc1.
      assert (Q : exists a b, u1 = TMap a b) by (destruct Fc1 as (ca & cb & _ & _ & ->); eauto).
      destruct Q as (ca & cb & ->). injection Hg as <-. rewrite (lowers_map _ _ _ _ _ L1) in *.
      cbn [check_expr check_all operand_types operation_type length]. rewrite (proj1 P (map_size C) (fn [MT] Mir.TNumber)); [|left; reflexivity|constructor].
      rewrite (checks_at _ _ _ _ _ _ _ _ _ _ _ Hc1 He1) by (part P). rewrite !same_type_refl. reflexivity.
    - (* source *)
      destruct (args1 _ _ _ _ _ Hes Hown) as (a1 & e1 & -> & -> & He1 & Hc1). cbn [nth_error bind] in H. injection H as <-.
      assert (m1 = Mir.TRecord error_record) as -> by (eapply lowers_fun; [exact L1|ll]). rewrite (lowers_fun _ _ _ _ _ Lr (lowers_any E C)).
      unfold error_source in *. cbn [check_expr check_all operand_types operation_type length].
      rewrite (checks_at _ _ _ _ _ _ _ _ _ _ _ Hc1 He1) by (part P). rewrite (proj1 (proj2 P) error_record [TVariant]); [|left; reflexivity|constructor].
      rewrite !same_type_refl. reflexivity.
    - (* spawn *)
      destruct (args1 _ _ _ _ _ Hes Hown) as (a1 & e1 & -> & -> & He1 & Hc1). cbn [nth_error bind] in H.
      bok H t1' Ht1. inversion La as [|u1 ? ar' ? La1 La']; subst. match goal with Q : _ = fst ar |- _ => rewrite <- Q in Ht1 end. injection Ht1 as <-.
      bok H ar2 Har2. bok H body Hbody. bok H rm Hrm. bok H d Hd. bok H d' Hd'. injection H as <-.
      apply canonical_function_canon in Har2.
      apply lowers_function in L1. destruct L1 as ([|? ?] & mt & -> & Q & Lt); [|inversion Q]. clear Q.
      assert (m = fn [] mt) as -> by (eapply lowers_fun; [exact Lr|apply l_function; [constructor|exact Lt]]).
      assert (L2 : lowers (TFunction (fst ar2) (snd ar2)) (fn [] mt)) by (eapply lowers_teq; [exact W|apply canon_sound, Har2|exact La1]).
      assert (L3 := L2). apply lowers_function in L3. destruct L3 as (ms3 & mt3 & Q & Q1 & Lt3). injection Q as <- <-. inversion Q1 as [Q2|]; subst.
      rewrite <- Q2 in *.
      assert (rm = mt) as -> by (eapply compiles_fun; [exact Hrm|exact Lt3]).
      assert (Pb : provides (("$any_thunk", fn [] TVariant) :: vars) body) by (apply provides_bind; [hidden|part P]).
      assert (Yb : checks TVariant (("$any_thunk", fn [] TVariant) :: vars) (HCoerce (snd ar2) TAny (HCall (Some (TFunction [] (snd ar2))) a1 [])) TVariant).
      { eapply y_coerce_any; [exact W|exact Lt3|]. eapply y_call with (ms := []); [|exact L2| |constructor].
        - intros b ->. destruct k; discriminate.
        - apply (Ha a1 (fn [] mt)); [left; reflexivity|apply over_hide; [reflexivity|apply over_refl]|right; right; split; reflexivity]. }
      cbn [check_expr check_all operand_types operation_type length f_name f_env f_args f_result f_body app rev map]. unfold f_type. cbn [f_args f_result map].
      rewrite (proj1 P spawn_function (fn [fn [] TVariant] (fn [] TVariant))); [|left; reflexivity|constructor].
      rewrite (checks_at _ _ _ _ _ _ _ _ _ _ _ Yb Hbody Pb). rewrite !lookup_same, !same_type_refl. cbn [andb].
      assert (Yd : checks mt (("$thunk", fn [] mt) :: ("$any_thunk", fn [] TVariant) :: vars) d mt).
      { eapply y_downcast; [exact X|exact K|exact Hd|exact Lt3|]. eapply y_call with (ms := []); [discriminate|apply l_function; [constructor|ll]| |constructor].
        apply y_var. reflexivity. }
      rewrite (checks_at _ _ _ _ _ _ _ _ _ _ _ Yd Hd').
      + cbn [andb]. rewrite !same_type_refl. reflexivity.
      + apply provides_bind; [hidden|]. apply provides_bind; [hidden|]. part P.
    - (* values *)
      destruct (args1 _ _ _ _ _ Hes Hown) as (a1 & e1 & -> & -> & He1 & Hc1). cbn [nth_error bind] in H.
      bok H t1' Ht1. bok H kv Hkv. inversion La as [|? ? ar' ? La1 La']; subst. match goal with Q : _ = fst ar |- _ => rewrite <- Q in Ht1 end. injection Ht1 as <-.
      apply canonical_map_canon in Hkv. rewrite (lowers_map _ _ _ _ _ L1) in *. rewrite (lowers_list _ _ _ _ Lr) in *.
      assert (D : proper E (TMap (fst kv) (snd kv))) by (eapply proper_teq; [exact W|apply canon_sound, Hkv|eapply lowers_proper, La1]).
      destruct (proper_lowers E C (snd kv)) as [mt Lt]; [apply (proper_entries _ _ _ D)|].
      unfold map_iteration in H. bok H body Hbody. eapply (y_iteration (iterator_value C) (snd kv) a1 mt vars body res); [constructor|exact Lt|exact Hbody| | |exact P].
      + intros vars' Ov. apply (Ha a1 MT LT vars'); [left; reflexivity|exact Ov|right; left; reflexivity].
      + unfold map_iteration. rewrite Hbody. exact H.
  Qed.
End Builtin.
