(** Accepted expressions are exactly typed after coercion. *)
From Coq Require Import String List ZArith Bool Lia.
From Verif Require Import Base HirType HirTypeOrder HirTypeSpec HirTypeTermination HirTypeEq HirTypeSub
  Hir HirCheck HirCoerce HirInfer HirValidate HirSpec HirParts HirStrip HirTyping HirExact.
Import ListNotations.

Lemma members_nonempty c : exists x, In x (members_canonical c).
Proof.
  induction c; try (eexists; left; reflexivity).
  destruct IHc1 as [x Hx]. exists x. cbn. apply in_or_app. left. exact Hx.
Qed.

Section Sound.
  Variable f : string -> string.
  Variable E : tenv.
  Variable R : renv.
  Hypothesis C : context_ok f E R.
  Let W := ctx_types f E R C.
  Let ok := HirTypeSpec.ok f E.
  Let env_ok := HirTyping.env_ok f E.

  Lemma check_sub_sound n s t u : check_sub n E s t = Ok u -> ok s -> ok t -> sub E s t.
  Proof.
    unfold check_sub. intros H Hs Ht. apply bind_ok in H. destruct H as (b & Hb & H). destruct b; [|discriminate].
    apply (subsumes_correct f E W n s t true Hs Ht Hb). reflexivity.
  Qed.

  Lemma teq_canonical s t c : teq E s t -> canon E s c -> canon E t c.
  Proof. intros H. apply teq_canon; [apply W|apply W|apply teq_sym, H]. Qed.

  Lemma sub_atom s t d : sub E s t -> ok s -> ok t -> canon E t d -> is_union d = false -> d <> TAny -> teq E s t.
  Proof.
    intros H [Ds _] [Dt _] Hd Hu Ha. destruct (canon_ex f E W s Ds) as [c Hc].
    destruct (sub_msub f E W s t H Ds Dt c d Hc Hd) as [X|X]; rewrite (members_nonunion _ Hu) in X.
    - destruct X as [X|[]]. congruence.
    - assert (c = d) as ->.
      { apply cform_inj; [eapply canon_cform, Hc|eapply canon_cform, Hd|]. rewrite (members_nonunion _ Hu). intros x. split; [apply X|].
        intros [<-|[]]. destruct (members_nonempty c) as [y Hy]. destruct (X y Hy) as [->|[]]. exact Hy. }
      eapply teq_trans; [apply canon_sound, Hc|apply teq_sym, canon_sound, Hd].
  Qed.

  Lemma canon_boolean : canon E TBoolean TBoolean. Proof. exists 1. reflexivity. Qed.
  Lemma canon_number : canon E TNumber TNumber. Proof. exists 1. reflexivity. Qed.
  Lemma canon_string : canon E TString TString. Proof. exists 1. reflexivity. Qed.
  Lemma canon_error : canon E TError TError. Proof. exists 1. reflexivity. Qed.

  Lemma check_sub_atom n s t u d : check_sub n E s t = Ok u -> ok s -> ok t -> canon E t d -> is_union d = false -> d <> TAny -> teq E s t.
  Proof. intros H Hs Ht. eapply sub_atom; [eapply check_sub_sound; eassumption|exact Hs|exact Ht]. Qed.

  (** ** The type of an exactly typed expression *)
  Definition env_rel (G G' : venv) : Prop := forall x t t', lookup G x = Some t -> lookup G' x = Some t' -> teq E t t'.

  Lemma env_rel_refl G : env_rel G G.
  Proof. intros x t t' H H'. rewrite H in H'. injection H' as <-. apply teq_refl. Qed.

  Lemma env_rel_cons x s s' G G' : teq E s s' -> env_rel G G' -> env_rel ((x, s) :: G) ((x, s') :: G').
  Proof.
    intros H HG y t t'. cbn. destruct (String.eqb _ _); [|apply HG]. intros A B. injection A as <-. injection B as <-. exact H.
  Qed.

  Lemma teq_list_inv a b : teq E (TList a) (TList b) -> ok a -> teq E a b.
  Proof.
    intros H Ha. destruct (canon_ex f E W (TList a)) as [c Hc]; [apply (ok_list f E a), Ha|].
    pose proof (teq_canonical _ _ _ H Hc) as Hc'. apply canon_list in Hc. apply canon_list in Hc'.
    destruct Hc as (x & Hx & ->). destruct Hc' as (y & Hy & Z). injection Z as <-.
    eapply teq_trans; [apply canon_sound, Hx|apply teq_sym, canon_sound, Hy].
  Qed.

  Lemma teq_list_canon t a et : teq E (TList a) t -> canon E t (TList et) -> teq E a et.
  Proof.
    intros H Hc. pose proof (teq_canonical _ _ _ (teq_sym _ _ _ H) Hc) as X. apply canon_list in X. destruct X as (x & Hx & Z).
    injection Z as <-. apply canon_sound, Hx.
  Qed.

  Lemma teq_map_canon t k v k' v' : teq E (TMap k v) t -> canon E t (TMap k' v') -> teq E k k' /\ teq E v v'.
  Proof.
    intros H Hc. pose proof (teq_canonical _ _ _ (teq_sym _ _ _ H) Hc) as X. apply canon_map in X. destruct X as (x & y & Hx & Hy & Z).
    injection Z as <- <-. split; apply canon_sound; assumption.
  Qed.

  Lemma teq_function_canon t a r a' r' : teq E (TFunction a r) t -> canon E t (TFunction a' r') -> teq E r r'.
  Proof.
    intros H Hc. pose proof (teq_canonical _ _ _ (teq_sym _ _ _ H) Hc) as X. apply canon_function in X. destruct X as (x & y & Hx & Hy & Z).
    injection Z as <- <-. apply canon_sound. exact Hy.
  Qed.

  Lemma canon_record r o c : canon E (TRecord r o) c -> c = TRecord r o.
  Proof. intros [[|m] H]; [discriminate|]. cbn in H. congruence. Qed.

  Lemma mapM_teq {A} (g : A -> res ty) l ts t : mapM g l = Ok ts -> (forall x y, In x l -> g x = Ok y -> teq E t y) -> Forall (teq E t) ts.
  Proof.
    intros H X. apply mapM_ok in H. induction H as [|x y l l' H _ IH]; constructor.
    - eapply X; [left; reflexivity|exact H].
    - apply IH. intros x' y' Hx. apply X. right. exact Hx.
  Qed.

  Theorem exact_extract n : forall G e t, exact E R G e t -> forall G' t', env_rel G G' -> extract n E R G' e = Ok t' -> teq E t t'.
  Proof.
    apply (exact_min E R (fun G e t => forall G' t', env_rel G G' -> extract n E R G' e = Ok t' -> teq E t t') (fun _ _ _ => True));
      try (intros; exact I); cbn [extract annotated bind]; intros;
      try match goal with X : Ok _ = Ok _ |- _ => apply ok_inj in X; subst; apply teq_refl end.
    - eapply teq_trans; [apply teq_sym; eassumption|]. eauto.
    - destruct (lookup G' x) as [u|] eqn:L; [|discriminate]. inv_ok. eauto.
    - inv_ok. apply canonical_function_canon in Hy. eapply teq_function_canon; [apply teq_sym; eassumption|exact Hy].
    - inv_ok. apply canonical_function_canon in Hy. eapply teq_function_canon; [apply teq_sym; eassumption|exact Hy].
    - inv_ok. apply teq_union_same; eauto.
    - inv_ok. apply canonical_list_canon in Hy0.
      assert (X : teq E et y0) by (eapply teq_list_canon; [|exact Hy0]; eauto).
      apply teq_union_same; [|eauto]. match goal with X : forall G' t', env_rel _ _ -> extract n E R G' a = _ -> _ |- _ => eapply X; [|exact Hy1] end.
      apply env_rel_cons; [apply teq_list, X|]. apply env_rel_cons; [apply teq_function; [constructor|exact X]|assumption].
    - inv_ok. apply canonical_map_canon in Hy0.
      assert (X : teq E kt (fst y0) /\ teq E vt (snd y0)) by (eapply teq_map_canon; [|exact Hy0]; eauto).
      apply teq_union_same; [|eauto]. match goal with X : forall G' t', env_rel _ _ -> extract n E R G' a = _ -> _ |- _ => eapply X; [|exact Hy1] end.
      apply env_rel_cons; [apply X|assumption].
    - inv_ok. rewrite app_nil_r in *. destruct (create_union y) as [v|] eqn:Hv; [|discriminate]. inv_ok.
      eapply create_union_same; [|exact Hv]. eapply mapM_teq; [exact Hy|]. intros [bt b] u_ Hb Hu. cbn [fst snd] in Hu.
      match goal with X : forall bt b, In (bt, b) branches -> forall G' t', _ |- _ => eapply X; [exact Hb| |exact Hu] end.
      apply env_rel_cons; [apply teq_refl|assumption].
    - inv_ok. destruct (create_union (y ++ [y1])) as [v|] eqn:Hv; [|discriminate]. inv_ok.
      eapply create_union_same; [|exact Hv]. apply Forall_app. split.
      + eapply mapM_teq; [exact Hy|]. intros [bt b] u_ Hb Hu. cbn [fst snd] in Hu.
        match goal with X : forall bt b, In (bt, b) branches -> forall G' t', _ |- _ => eapply X; [exact Hb| |exact Hu] end.
        apply env_rel_cons; [apply teq_refl|assumption].
      + constructor; [|constructor]. match goal with X : forall G' t', env_rel _ _ -> extract n E R G' b' = _ -> _ |- _ => eapply X; [|eassumption] end.
        apply env_rel_cons; [apply teq_refl|assumption].
    - eauto.
    - inv_ok. match goal with X : forall G' t', env_rel ((_, _) :: _) _ -> _ |- _ => eapply X; [|eassumption] end.
      apply env_rel_cons; [apply teq_refl|assumption].
    - inv_ok. apply record_fields_canon in Hy. destruct Hy as (r' & o' & Hc & L). apply field_type_lookup in H5.
      pose proof (teq_canonical _ _ _ H Hc) as X. apply canon_record in X. injection X as -> ->. rewrite H0 in L. injection L as <-.
      rewrite H1 in H5. injection H5 as <-. apply teq_refl.
  Qed.

  (** ** Coerced positions *)
  Lemma widens_left s s' t : ok s -> teq E s s' -> widens E s t -> widens E s' t.
  Proof.
    intros [Ds _] H X. destruct X as [s t X|s t a b A B X|s t a b a' b' A B X Y].
    - apply widens_sub. eapply sub_trans; [exact Ds|apply sub_eq, teq_sym, H|exact X].
    - eapply widens_list; [|exact B|exact X]. eapply teq_trans; [apply teq_sym, H|exact A].
    - eapply widens_map; [|exact B|exact X|exact Y]. eapply teq_trans; [apply teq_sym, H|exact A].
  Qed.

  Lemma coerce_to_exact n G e s t e' : env_ok G -> types_known f E (written e) -> ok s -> ok t ->
    exact E R G e s -> widens E s t -> coerce_to n E R G e t = Ok e' -> exact E R G e' t.
  Proof.
    intros HG K Hs Ht X Wd H. unfold coerce_to in H. inv_ok.
    assert (T : teq E s y) by (eapply exact_extract; [exact X|apply env_rel_refl|exact Hy]).
    assert (Oy : ok y) by (eapply extract_ok; eassumption).
    destruct y0.
    - eapply X_same; [exact X|]. eapply teq_trans; [exact T|].
      apply (equal_types_correct f E W n y t true); [apply Oy|apply Ht|exact Hy0|reflexivity].
    - apply X_coerce; [eapply X_same; [exact X|exact T]|eapply widens_left; [exact Hs|exact T|exact Wd]|].
      intros Q. apply (equal_types_correct f E W n y t false) in Q; [discriminate|apply Oy|apply Ht|exact Hy0].
  Qed.

  (** ** Type switches *)
  Lemma covers_all u ts v : ok u -> ok v -> create_union ts = Some v -> sub E u v -> covers E u ts None.
  Proof.
    intros [Du _] [Dv _] Hv H a Da A. left.
    apply (sub_alts f E W u v Du Dv) in H. destruct H as [H|H].
    - destruct (create_union_alt E ts v TAny Hv H) as (b & Hb & X). exists b. split; [exact Hb|right; exact X].
    - destruct (create_union_alt E ts v a Hv (H a Da A)) as (b & Hb & X). exists b. split; [exact Hb|left; exact X].
  Qed.

  Lemma has_alt_dec v a : defined E v -> defined E a -> has_alt E v a \/ has_alt E v TAny \/ ~ has_alt E v a.
  Proof.
    intros Dv Da. destruct (canon_ex f E W v Dv) as [d Hd]. destruct (is_any d) eqn:Ed.
    - right. left. apply (has_alt_any f E W v d Dv Hd). apply is_any_true, Ed.
    - assert (Hn : d <> TAny) by (intros ->; discriminate).
      destruct (canon_ex f E W a Da) as [x Hx]. destruct (set_mem x (members_canonical d)) eqn:M.
      + left. apply (has_alt_canon f E W v d a Dv Da Hd Hn). exists x. split; [exact Hx|]. apply set_mem_In, M.
      + right. right. intros X. apply (has_alt_canon f E W v d a Dv Da Hd Hn) in X. destruct X as (y & Hy & Hin).
        rewrite (canon_fun _ _ _ _ Hy Hx) in Hin. apply set_mem_In in Hin. congruence.
  Qed.

  Lemma covers_rest n u ts v t : ok u -> ok v -> create_union ts = Some v -> type_difference n E u v = Ok (Some t) ->
    covers E u ts (Some t).
  Proof.
    intros Hu Hv Hc H a Da A. destruct (canon_ex f E W u (proj1 Hu)) as [c Hcu]. destruct (is_any c) eqn:Ec.
    - apply is_any_true in Ec. apply (has_alt_any f E W u c (proj1 Hu) Hcu) in Ec.
      destruct (difference_any f E W n u v t Hu Hv Ec H) as [-> _]. right. exists TAny. split; [reflexivity|]. right.
      exists TAny. split; [apply alt_self; congruence|apply teq_refl].
    - assert (Hn : ~ has_alt E u TAny). { intros X. apply (has_alt_any f E W u c (proj1 Hu) Hcu) in X. subst. discriminate. }
      destruct (has_alt_dec v a (proj1 Hv) Da) as [X|[X|X]].
      + left. destruct (create_union_alt E ts v a Hc X) as (b & Hb & Y). exists b. split; [exact Hb|left; exact Y].
      + left. destruct (create_union_alt E ts v TAny Hc X) as (b & Hb & Y). exists b. split; [exact Hb|right; exact Y].
      + right. exists t. split; [reflexivity|]. left. apply (difference_alts f E W n u v t a Hu Hv Da Hn H). auto.
  Qed.

  Lemma covers_teq u u' ts els : ok u -> ok u' -> teq E u' u -> covers E u ts els -> covers E u' ts els.
  Proof.
    intros [Du _] [Du' _] T H a Da A.
    assert (S : sub E u' u) by apply sub_eq, T. apply (sub_alts f E W u' u Du' Du) in S. destruct S as [S|S]; [|apply H; [exact Da|apply S; assumption]].
    assert (X : has_alt E u a \/ has_alt E u TAny) by (right; exact S).
    destruct (H TAny) as [(b & Hb & Y)|(b & Hb & Y)]; [intros x []|exact S| |]; [left|right]; exists b; (split; [exact Hb|]); right; destruct Y; assumption.
  Qed.

  (** ** Built-in functions *)
  Lemma canon_any : canon E TAny TAny. Proof. exists 1. reflexivity. Qed.
  Lemma canon_none : canon E TNone TNone. Proof. exists 1. reflexivity. Qed.

  Lemma builtin_signature n b ts0 t ar :
    Forall ok ts0 -> builtin_type n E b ts0 = Ok t -> canonical_function n E t = Ok ar ->
    check_builtin n E b (fst ar) (snd ar) = Ok tt ->
    exists ts r, signature E b ts r /\ Forall2 (teq E) (fst ar) ts /\ teq E (snd ar) r.
  Proof.
    intros O0 HT HC HB.
    assert (Ot : ok t) by (eapply builtin_type_ok; eassumption).
    apply canonical_function_canon in HC.
    assert (Oar := ok_canon f E R C _ _ Ot HC). apply ok_function in Oar. destruct Oar as [Oa Or].
    destruct ar as [a r]. cbn [fst snd] in *.
    assert (S1 : forall x y c, canon E (TFunction [x] y) c -> c = TFunction a r -> exists x', a = [x'] /\ canon E x x' /\ canon E y r).
    { intros x y c X ->. apply canon_function in X. destruct X as (a' & r' & Ha & Hr & Z). injection Z as -> ->.
      inversion Ha as [|? x' ? ? Hx Hn]; subst. inversion Hn; subst. eauto. }
    assert (Any : forall c, canon E TAny c -> c = TAny) by (intros c X; eapply canon_fun; [exact X|apply canon_any]).
    destruct b; cbn [builtin_type] in HT.
    - apply ok_inj in HT. subst. destruct (S1 _ _ _ HC eq_refl) as (x & -> & Hx & Hr). apply Any in Hx. subst.
      exists [TAny], TNone. split; [constructor|]. split; [repeat constructor|apply teq_sym, canon_sound, Hr].
    - destruct ts0 as [|t0 ts0]; [discriminate|]. apply ok_inj in HT. subst. apply canon_function in HC.
      destruct HC as (a' & r' & Ha & Hr & Z). injection Z as <- <-. inversion Ha as [|? m ? rest Hm Hrest]; subst.
      cbn [check_builtin] in HB. destruct rest as [|k [|]]; try discriminate. inv_ok. apply canonical_map_canon in Hy0. inversion Oa as [|? ? Om Ok']; subst. inversion Ok' as [|? ? Ok'' _]; subst.
      assert (Okv := ok_canon f E R C _ _ Om Hy0). apply ok_map in Okv. destruct Okv as [O1 O2].
      apply check_sub_sound in HB; [|assumption|assumption].
      pose proof (canon_fun _ _ _ _ Hm Hr). subst r.
      exists [TMap (fst y0) (snd y0); k], (TMap (fst y0) (snd y0)). split; [apply sig_delete, HB|].
      split; [|apply canon_sound, Hy0]. constructor; [apply canon_sound, Hy0|]. constructor; [apply teq_refl|constructor].
    - apply ok_inj in HT. subst. destruct (S1 _ _ _ HC eq_refl) as (x & -> & Hx & Hr). apply Any in Hx. subst.
      exists [TAny], TError. split; [constructor|]. split; [repeat constructor|apply teq_sym, canon_sound, Hr].
    - destruct ts0 as [|t0 [|]]; try discriminate. inv_ok. apply canonical_map_canon in Hy.
      destruct (S1 _ _ _ HC eq_refl) as (x & -> & Hx & Hr). rewrite (canon_fun _ _ _ _ Hx Hy).
      exists [TMap (fst y) (snd y)], (TList (fst y)). split; [constructor|]. split; [repeat constructor|apply teq_sym, canon_sound, Hr].
    - destruct ts0 as [|t0 [|]]; try discriminate. inv_ok. apply canonical_list_canon in Hy.
      destruct (S1 _ _ _ HC eq_refl) as (x & -> & Hx & Hr). rewrite (canon_fun _ _ _ _ Hx Hy) in *.
      cbn [check_builtin] in HB. inv_ok. apply canonical_list_canon in Hy0. apply canonical_list_canon in Hy1.
      apply canon_list in Hy0. destruct Hy0 as (e' & He & Z). injection Z as <-.
      assert (T : teq E y (TList y1)) by (eapply teq_trans; [apply canon_sound, He|apply canon_sound, Hy1]).
      exists [TList (TList y1)], (TList y1). split; [constructor|]. split; [constructor; [apply teq_list, T|constructor]|].
      eapply teq_trans; [apply teq_sym, canon_sound, Hr|exact T].
    - apply ok_inj in HT. subst. destruct (S1 _ _ _ HC eq_refl) as (x & -> & Hx & Hr). apply Any in Hx. subst.
      exists [TAny], TString. split; [constructor|]. split; [repeat constructor|apply teq_sym, canon_sound, Hr].
    - apply ok_inj in HT. subst. apply canon_function in HC. destruct HC as (a' & r' & Ha & Hr & Z). injection Z as <- <-.
      inversion Ha as [|? x ? ? Hx Hn]; subst. inversion Hn as [|? x' ? ? Hx' Hn']; subst. inversion Hn'; subst.
      apply Any in Hx. apply Any in Hx'. subst.
      exists [TAny; TAny], (TUnion TBoolean TNone). split; [constructor|]. split; [repeat constructor|apply teq_sym, canon_sound, Hr].
    - cbn [check_builtin] in HB. destruct a as [|x [|]]; try discriminate. apply ok_inj in HT. subst.
      apply canon_function in HC. destruct HC as (a' & r' & Ha & Hr & Z). injection Z as <- <-.
      destruct x; try discriminate; [exists [TList x], TNumber|exists [TMap x1 x2], TNumber];
        (split; [constructor|]; split; [repeat constructor|apply teq_sym, canon_sound, Hr]).
    - apply ok_inj in HT. subst. destruct (S1 _ _ _ HC eq_refl) as (x & -> & Hx & Hr).
      pose proof (canon_fun _ _ _ _ Hx canon_error). subst.
      exists [TError], TAny. split; [constructor|]. split; [repeat constructor|apply teq_sym, canon_sound, Hr].
    - destruct ts0 as [|t0 ts0]; [discriminate|]. apply ok_inj in HT. subst. cbn [check_builtin] in HB.
      apply canon_function in HC. destruct HC as (a' & r' & Ha & Hr & Z). injection Z as <- <-.
      destruct a as [|x [|]]; try discriminate. inv_ok. apply canonical_function_canon in Hy. destruct (fst y) eqn:Ey; [|discriminate].
      inversion Ha as [|? ? ? ? Hx _]; subst. rewrite (canon_fun _ _ _ _ Hr Hx).
      exists [TFunction [] (snd y)], (TFunction [] (snd y)). split; [constructor|]. split; [constructor; [apply canon_sound, Hy|constructor]|apply canon_sound, Hy].
    - destruct ts0 as [|t0 [|]]; try discriminate. inv_ok. apply canonical_map_canon in Hy.
      destruct (S1 _ _ _ HC eq_refl) as (x & -> & Hx & Hr). rewrite (canon_fun _ _ _ _ Hx Hy).
      exists [TMap (fst y) (snd y)], (TList (snd y)). split; [constructor|]. split; [repeat constructor|apply teq_sym, canon_sound, Hr].
  Qed.
End Sound.
