(** Facts about the type extractor, the checker and the inferrer. *)
From Coq Require Import String List ZArith Bool Lia.
From Verif Require Import Base HirType HirTypeSpec HirTypeTermination HirTypeEq HirTypeSub
  Hir HirCheck HirCoerce HirInfer HirValidate HirSpec HirParts HirStrip.
Import ListNotations.

(** ** Canonical shapes *)
Lemma canonical_function_canon n E t ar : canonical_function n E t = Ok ar -> canon E t (TFunction (fst ar) (snd ar)).
Proof. unfold canonical_function. intros H. inv_ok. destruct y; try discriminate. inv_ok. exists n. exact Hy. Qed.
Lemma canonical_list_canon n E t e : canonical_list n E t = Ok e -> canon E t (TList e).
Proof. unfold canonical_list. intros H. inv_ok. destruct y; try discriminate. inv_ok. exists n. exact Hy. Qed.
Lemma canonical_map_canon n E t kv : canonical_map n E t = Ok kv -> canon E t (TMap (fst kv) (snd kv)).
Proof. unfold canonical_map. intros H. inv_ok. destruct y; try discriminate. inv_ok. exists n. exact Hy. Qed.
Lemma canonical_record_canon n E t r : canonical_record n E t = Ok r -> exists o, canon E t (TRecord r o).
Proof. unfold canonical_record. intros H. inv_ok. destruct y; try discriminate. inv_ok. eexists. exists n. exact Hy. Qed.
Lemma record_fields_canon n E R t fts : record_fields n E R t = Ok fts ->
  exists r o, canon E t (TRecord r o) /\ lookup R r = Some fts.
Proof.
  unfold record_fields. intros H. inv_ok. apply canonical_record_canon in Hy. destruct Hy as [o Hy].
  unfold resolve_record in H. destruct (lookup R y) as [x|] eqn:L; [|discriminate]. inv_ok. eauto.
Qed.
Lemma field_type_lookup fts x t : field_type fts x = Ok t -> lookup fts x = Some t.
Proof. unfold field_type. destruct (lookup fts x); intros H; [|discriminate]. inv_ok. reflexivity. Qed.

Lemma infer_call n E R G ft fn args e : infer n E R G (HCall ft fn args) = Ok e ->
  (exists b args' ts t, fn = HBuiltIn b /\ mapM (infer n E R G) args = Ok args' /\
     mapM (extract n E R G) args' = Ok ts /\ builtin_type n E b ts = Ok t /\ e = HCall (Some t) (HBuiltIn b) args') \/
  ((forall b, fn <> HBuiltIn b) /\ exists fn' t args', infer n E R G fn = Ok fn' /\ extract n E R G fn' = Ok t /\
     mapM (infer n E R G) args = Ok args' /\ e = HCall (Some t) fn' args').
Proof.
  intros H.
  assert (D : (exists b, fn = HBuiltIn b) \/ forall b, fn <> HBuiltIn b) by (destruct fn; first [left; eexists; reflexivity | right; discriminate]).
  destruct D as [[b ->]|D].
  - left. cbn [infer] in H. inv_ok. exists b, y, y0, y1. auto.
  - right. split; [exact D|].
    assert (X : infer n E R G (HCall ft fn args) =
      bind (infer n E R G fn) (fun f' => bind (extract n E R G f') (fun t =>
      bind (mapM (infer n E R G) args) (fun args' => Ok (HCall (Some t) f' args'))))).
    { destruct fn; try reflexivity. exfalso. eapply D. reflexivity. }
    rewrite X in H. inv_ok. exists y, y0, y1. auto.
Qed.

Section Ok.
  Variable f : string -> string.
  Variable E : tenv.
  Variable R : renv.
  Hypothesis C : context_ok f E R.
  Let W : wf f E := ctx_types f E R C.
  Notation ok := (ok f E).

  Lemma ok_canon t c : ok t -> canon E t c -> ok c.
  Proof. intros [D N] H. split; [eapply canon_defined, H|]. eapply names_canon; [apply W|exact N|exact H]. Qed.

  Lemma ok_noref t : references t = [] -> names_ok f t -> ok t.
  Proof. intros H N. split; [intros x Hx; rewrite H in Hx; destruct Hx|exact N]. Qed.

  Lemma ok_any : ok TAny. Proof. apply ok_noref; [reflexivity|constructor]. Qed.
  Lemma ok_boolean : ok TBoolean. Proof. apply ok_noref; [reflexivity|constructor]. Qed.
  Lemma ok_error : ok TError. Proof. apply ok_noref; [reflexivity|constructor]. Qed.
  Lemma ok_none : ok TNone. Proof. apply ok_noref; [reflexivity|constructor]. Qed.
  Lemma ok_number : ok TNumber. Proof. apply ok_noref; [reflexivity|constructor]. Qed.
  Lemma ok_string : ok TString. Proof. apply ok_noref; [reflexivity|constructor]. Qed.

  Lemma ok_list e : ok (TList e) <-> ok e.
  Proof.
    unfold HirTypeSpec.ok, defined. cbn [references]. split; intros [D N]; (split; [exact D|]).
    - inversion N; assumption.
    - constructor; exact N.
  Qed.
  Lemma ok_map k v : ok (TMap k v) <-> ok k /\ ok v.
  Proof.
    unfold HirTypeSpec.ok, defined. cbn [references]. split.
    - intros [D N]. inversion N; subst. repeat split; try assumption; intros x Hx; apply D, in_or_app; auto.
    - intros [[D1 N1] [D2 N2]]. split; [intros x Hx; apply in_app_or in Hx; destruct Hx; auto|constructor; assumption].
  Qed.
  Lemma ok_union k v : ok (TUnion k v) <-> ok k /\ ok v.
  Proof.
    unfold HirTypeSpec.ok, defined. cbn [references]. split.
    - intros [D N]. inversion N; subst. repeat split; try assumption; intros x Hx; apply D, in_or_app; auto.
    - intros [[D1 N1] [D2 N2]]. split; [intros x Hx; apply in_app_or in Hx; destruct Hx; auto|constructor; assumption].
  Qed.
  Lemma ok_function a r : ok (TFunction a r) <-> Forall ok a /\ ok r.
  Proof.
    unfold HirTypeSpec.ok, defined. cbn [references]. split.
    - intros [D N]. inversion N as [| | |a' r' Na Nr| | | | | | | |]; subst. split; [|split; [intros x Hx; apply D, in_or_app; auto|exact Nr]].
      rewrite Forall_forall in *. intros t Ht. split; [|apply Na, Ht]. intros x Hx. apply D, in_or_app. left. apply in_flat_map. eauto.
    - intros [Ha [D N]]. rewrite Forall_forall in Ha. split.
      + intros x Hx. apply in_app_or in Hx. destruct Hx as [Hx|Hx]; [|auto]. apply in_flat_map in Hx. destruct Hx as (t & Ht & Hx).
        apply (proj1 (Ha t Ht)), Hx.
      + constructor; [|exact N]. apply Forall_forall. intros t Ht. apply (Ha t Ht).
  Qed.

  Lemma ok_create ts u : Forall ok ts -> create_union ts = Some u -> ok u.
  Proof.
    destruct ts as [|t ts]; [discriminate|]. cbn. intros H X. injection X as <-. inversion H as [|? ? Ht Hts]; subst. clear H.
    revert t Ht. induction Hts as [|s ss Hs _ IH]; intros t Ht; [exact Ht|]. cbn. apply IH. apply ok_union. auto.
  Qed.

  Lemma ok_members c : ok c -> references c = [] -> Forall ok (members_canonical c).
  Proof.
    intros [_ N] Hr. rewrite Forall_forall. intros x Hx. apply ok_noref.
    - apply (proj1 (members_references c) Hr x Hx).
    - pose proof (names_members f c N) as X. rewrite Forall_forall in X. apply X, Hx.
  Qed.

  Lemma ok_difference n s t u : ok s -> type_difference n E s t = Ok (Some u) -> ok u.
  Proof.
    intros Hs H. assert (H0 := H). unfold type_difference in H. inv_ok.
    assert (Cs : canon E s y) by (exists n; exact Hy). assert (Ct : canon E t y0) by (exists n; exact Hy0).
    destruct (difference_members f E W n s t y y0 (Some u) Cs Ct H0) as [[_ X]|[(_ & _ & X)|(_ & _ & ms & Hms & _ & X)]]; [discriminate| |].
    - injection X as ->. apply ok_any.
    - symmetry in X. eapply ok_create; [|exact X]. apply Forall_forall. intros x Hx. apply Hms in Hx.
      pose proof (ok_members y (ok_canon s y Hs Cs) (canon_references E s y Cs)) as Y. rewrite Forall_forall in Y. apply Y, Hx.
  Qed.

  (** ** Types of variables *)
  Definition env_ok (G : venv) : Prop := Forall (fun b => ok (snd b)) G.

  Lemma canon_single a c : single a -> canon E a c -> single c.
  Proof.
    intros Sa [[|q] G]; [discriminate|]. destruct a; try contradiction; cbn [canonicalize] in G;
      repeat (apply bind_ok in G; destruct G as (? & ? & G)); injection G as <-; exact I.
  Qed.

  Lemma varies_canon u c : canon E u c -> ~ single c -> varies E u.
  Proof. intros H N a Sa Q. apply N. eapply canon_single; [exact Sa|]. eapply (teq_canon E u); [apply W|apply W|exact Q|exact H]. Qed.

  Lemma alt_ex t : defined E t -> exists a, defined E a /\ has_alt E t a.
  Proof.
    intros D. destruct (canon_ex f E W t D) as [c Hc]. destruct (is_any c) eqn:Ec.
    - apply is_any_true in Ec. subst c. exists TAny. split; [intros x []|]. apply (has_alt_any f E W t TAny D Hc). reflexivity.
    - assert (exists x, In x (members_canonical c)) as [x Hx].
      { assert (M : members_canonical c <> []); [|destruct (members_canonical c) as [|x xs]; [contradiction|exists x; left; reflexivity]].
        clear. induction c; cbn; try discriminate. destruct (members_canonical c1); [contradiction|discriminate]. }
      destruct (members_fixed f E W t c Hc x Hx) as [Fx _]. exists x. split; [eapply canon_defined, Fx|].
      apply (has_alt_canon f E W t c x D (canon_defined _ _ _ Fx) Hc); [intros ->; discriminate|]. eauto.
  Qed.

  Lemma varies_difference n s v : ok s -> type_difference n E s TError = Ok (Some v) -> ok v -> v <> TAny -> varies E (TUnion v TError).
  Proof.
    intros Os H [Dv Nv] Na a Sa Q. destruct (alt_ex v Dv) as (b & Db & Ab).
    assert (Ns : ~ has_alt E s TAny) by (intros Z; apply (difference_any f E W n s TError v Os ok_error) in Z; [tauto|exact H]).
    assert (Nb := proj1 (difference_alts f E W n s TError v b Os ok_error Db Ns H) Ab). destruct Nb as [_ Nb]. apply Nb. clear Nb.
    assert (Du : defined E (TUnion v TError)) by (apply (ok_union v TError); split; [split; assumption|apply ok_error]).
    destruct (canon_ex f E W _ Du) as [c Hc].
    assert (Sc : single c) by (eapply canon_single; [exact Sa|eapply (teq_canon E (TUnion v TError)); [apply W|apply W|exact Q|exact Hc]]).
    assert (Nc : c <> TAny) by (intros ->; contradiction).
    assert (M : members_canonical c = [c]) by (destruct c; try contradiction; reflexivity).
    assert (Ae : has_alt E (TUnion v TError) TError) by (exists TError; split; [apply alt_right, alt_self; discriminate|apply teq_refl]).
    assert (Ab' : has_alt E (TUnion v TError) b) by (destruct Ab as (b' & A & T); exists b'; split; [apply alt_left, A|exact T]).
    apply (has_alt_canon f E W _ c TError Du (proj1 ok_error) Hc Nc) in Ae. apply (has_alt_canon f E W _ c b Du Db Hc Nc) in Ab'.
    rewrite M in Ae, Ab'. destruct Ae as (x & Hx & [<-|[]]), Ab' as (y & Hy & [<-|[]]).
    exists TError. split; [apply alt_self; discriminate|]. eapply teq_trans; [apply canon_sound, Hx|apply teq_sym, canon_sound, Hy].
  Qed.

  Lemma env_lookup G x t : env_ok G -> lookup G x = Some t -> ok t.
  Proof. unfold env_ok. rewrite Forall_forall. intros H L. apply lookup_In in L. apply (H _ L). Qed.

  Lemma env_list first rest t G : ok t -> env_ok G -> env_ok (list_env first rest t G).
  Proof.
    intros Ht HG. unfold list_env. constructor; [apply ok_list, Ht|]. constructor; [|exact HG]. apply ok_function. split; [constructor|exact Ht].
  Qed.

  Lemma env_args args G : Forall ok (map snd args) -> env_ok G -> env_ok (args_env args G).
  Proof.
    intros Ha HG. unfold args_env, env_ok. apply Forall_app. split; [|exact HG]. apply Forall_rev.
    rewrite Forall_forall in *. intros b Hb. apply Ha, in_map, Hb.
  Qed.

  Lemma env_let x t G : ok t -> env_ok G -> env_ok (let_env x t G).
  Proof. intros Ht HG. destruct x; cbn; [constructor; assumption|exact HG]. Qed.

  Lemma known_part e p : types_known f E (written e) -> In p (parts e) -> types_known f E (written p).
  Proof. unfold types_known. rewrite !Forall_forall. intros H Hp t Ht. apply H. eapply part_written; eassumption. Qed.

  Ltac split_known := repeat match goal with
    | H : types_known _ _ _ |- _ => unfold types_known in H
    | H : Forall _ (written _) |- _ => progress cbn [written] in H
    | H : Forall _ (_ ++ _) |- _ => apply Forall_app in H; destruct H
    | H : Forall _ (_ :: _) |- _ => inversion H; clear H; subst
    | H : Forall _ (opt_types (Some _)) |- _ => cbn [opt_types] in H
    end.

  Lemma iteratee_types_ok n its : forall names ns,
    Forall ok (flat_map (fun it : option ty * hexpr => opt_types (fst it)) its) ->
    iteratee_types n E names its = Ok ns -> Forall ok (map snd ns).
  Proof.
    induction its as [|[t e] its IH]; intros names ns K H; destruct names as [|x names]; cbn [iteratee_types] in H; inv_ok; try constructor.
    - cbn [flat_map fst opt_types app] in K. inversion K; subst. apply ok_function. split; [constructor|]. apply ok_list.
      eapply ok_canon; [eassumption|]. eapply canonical_list_canon; eassumption.
    - eapply IH; [|eassumption]. cbn [flat_map fst opt_types app] in K. inversion K; assumption.
  Qed.

  Lemma mapM_forall {A B} (F : A -> res B) (P : B -> Prop) l l' :
    mapM F l = Ok l' -> (forall x y, In x l -> F x = Ok y -> P y) -> Forall P l'.
  Proof.
    intros H G. apply mapM_ok in H. induction H as [|x y l l' H _ IH]; constructor.
    - eapply G; [left; reflexivity|exact H].
    - apply IH. intros x' y' Hx. apply G. right. exact Hx.
  Qed.

  Theorem extract_ok n e : forall G t,
    env_ok G -> types_known f E (written e) -> extract n E R G e = Ok t -> ok t.
  Proof.
    induction e as [e IH] using parts_ind. intros G t HG K H.
    assert (IH' : forall G' p u, In p (parts e) -> env_ok G' -> extract n E R G' p = Ok u -> ok u).
    { intros G' p u Hp HG'. apply (IH p Hp); [exact HG'|]. eapply known_part; eassumption. }
    clear IH. destruct e; cbn [extract] in H; inv_ok; split_known;
      try apply ok_boolean; try apply ok_none; try apply ok_number; try apply ok_string; try assumption.
    - match goal with X : canonical_function _ _ _ = Ok _ |- _ => apply canonical_function_canon in X end.
      eapply ok_canon in Hy0; [|eassumption]. apply ok_function in Hy0. apply Hy0.
    - apply ok_union. split; (eapply IH'; [| |eassumption]; [spart|assumption]).
    - assert (O : ok y0).
      { apply canonical_list_canon in Hy0. eapply ok_canon in Hy0; [apply ok_list, Hy0|]. eapply IH'; [| |eassumption]; [spart|assumption]. }
      apply ok_union. split; (eapply IH'; [| |eassumption]; [spart|try apply env_list; assumption]).
    - assert (O : ok (snd y0)).
      { apply canonical_map_canon in Hy0. eapply ok_canon in Hy0; [apply ok_map in Hy0; apply Hy0|]. eapply IH'; [| |eassumption]; [spart|assumption]. }
      apply ok_union. split; (eapply IH'; [| |eassumption]; [spart|try constructor; assumption]).
    - destruct (create_union (y ++ y0)) as [u|] eqn:Hu; [|discriminate]. inv_ok. eapply ok_create; [|exact Hu].
      apply Forall_app. split.
      + eapply mapM_forall; [exact Hy|]. intros b v Hb Hv. cbv beta in Hv. eapply IH'; [| |exact Hv]; [apply if_type_branch_part, Hb|].
        constructor; [|exact HG]. cbn [snd]. rewrite Forall_forall in H1. apply H1. apply in_flat_map. exists b. split; [exact Hb|left; reflexivity].
      + destruct else_ as [[o b]|]; inv_ok; [|constructor]. constructor; [|constructor]. split_known.
        eapply IH'; [| |eassumption]; [apply if_type_else_part|]. constructor; assumption.
    - apply ok_function. auto.
    - destruct name as [x|]; inv_ok; split_known; (eapply IH'; [| |eassumption]; [spart|]); [constructor; assumption|assumption].
    - apply ok_list. assumption.
    - apply ok_list. assumption.
    - apply ok_map. auto.
    - destruct o; inv_ok; split_known; try apply ok_boolean; try apply ok_number; assumption.
    - apply record_fields_canon in Hy0. destruct Hy0 as (r & o & _ & L). apply field_type_lookup in H. eapply (ctx_fields f E R C); eassumption.
    - apply ok_function. split; [constructor|assumption].
    - destruct (lookup G x) as [u|] eqn:L; [|discriminate]. inv_ok. eapply env_lookup; eassumption.
  Qed.

  (** ** Inferred annotations are known types *)
  Definition infer_known n (p : hexpr) : Prop := forall G e, env_ok G ->
    infer n E R G p = Ok e -> types_known f E (written e).

  Lemma builtin_type_ok n b ts t : Forall ok ts -> builtin_type n E b ts = Ok t -> ok t.
  Proof.
    intros Hts H. destruct b; cbn [builtin_type] in H; inv_ok;
      repeat match goal with X : Ok _ = Ok _ |- _ => apply ok_inj in X; subst end;
      try (apply ok_function; split; [repeat constructor; first [apply ok_any | apply ok_error]|];
           first [apply ok_none | apply ok_error | apply ok_string | apply ok_any | apply ok_union; split; [apply ok_boolean|apply ok_none]]; fail).
    - destruct ts as [|t0 ts]; [discriminate|]. inv_ok. apply ok_function. split; [exact Hts|inversion Hts; assumption].
    - destruct ts as [|t0 [|]]; try discriminate. inv_ok. apply ok_function. split; [exact Hts|]. inversion Hts; subst.
      apply canonical_map_canon in Hy. eapply ok_canon in Hy; [|eassumption]. apply ok_map in Hy. apply ok_list, Hy.
    - destruct ts as [|t0 [|]]; try discriminate. inv_ok. apply ok_function. split; [exact Hts|]. inversion Hts; subst.
      apply canonical_list_canon in Hy. eapply ok_canon in Hy; [|eassumption]. apply ok_list, Hy.
    - apply ok_function. split; [exact Hts|apply ok_number].
    - destruct ts as [|t0 ts]; [discriminate|]. inv_ok. apply ok_function. split; [exact Hts|inversion Hts; assumption].
    - destruct ts as [|t0 [|]]; try discriminate. inv_ok. apply ok_function. split; [exact Hts|]. inversion Hts; subst.
      apply canonical_map_canon in Hy. eapply ok_canon in Hy; [|eassumption]. apply ok_map in Hy. apply ok_list, Hy.
  Qed.

  Lemma known_flat {A B} (F : A -> res B) (g : B -> list ty) l l' :
    mapM F l = Ok l' -> (forall x y, In x l -> F x = Ok y -> Forall ok (g y)) -> Forall ok (flat_map g l').
  Proof.
    intros H G. apply mapM_ok in H. induction H as [|x y l l' H _ IH]; [constructor|]. cbn. apply Forall_app. split.
    - eapply G; [left; reflexivity|exact H].
    - apply IH. intros x' y' Hx. apply G. right. exact Hx.
  Qed.

  Definition branch_written (b : comp_branch) : list ty :=
    match b with
    | CompBranch _ its cond =>
        (flat_map (fun it => opt_types (fst it) ++ written (snd it)) its ++
         match cond with None => [] | Some c => written c end)%list
    end.

  Lemma infer_branches_known n bs : (forall p, In p (flat_map branch_parts bs) -> infer_known n p) ->
    forall G r, env_ok G -> infer_branches n E R (infer n E R) G bs = Ok r ->
    env_ok (fst r) /\ Forall ok (flat_map branch_written (snd r)).
  Proof.
    induction bs as [|[names its cond] bs IH]; intros HP G r HG H; cbn [infer_branches] in H; inv_ok; [split; [exact HG|constructor]|].
    assert (K : Forall ok (flat_map (fun it : option ty * hexpr => opt_types (fst it) ++ written (snd it)) y)).
    { eapply known_flat; [exact Hy|]. intros it it' Hi X. unfold infer_iteratee in X. inv_ok. cbn [fst snd opt_types app].
      assert (Kw : types_known f E (written y3)).
      { eapply HP; [|exact HG|eassumption]. cbn [flat_map]. apply in_or_app. left. unfold branch_parts. apply in_or_app. left. apply in_map, Hi. }
      constructor; [|exact Kw]. eapply extract_ok; eassumption. }
    assert (HG' : env_ok (args_env y0 G)).
    { apply env_args; [|exact HG]. eapply iteratee_types_ok; [|exact Hy0]. rewrite Forall_forall in *. intros t Ht. apply K.
      apply in_flat_map in Ht. destruct Ht as (it & Hi & Ht). apply in_flat_map. exists it. split; [exact Hi|apply in_or_app; left; exact Ht]. }
    assert (IHr : env_ok (fst y2) /\ Forall ok (flat_map branch_written (snd y2))).
    { eapply IH; [|exact HG'|exact Hy2]. intros p Hp. apply HP. cbn [flat_map]. apply in_or_app. right. exact Hp. }
    destruct IHr as [I1 I2]. split; [exact I1|]. cbn [snd flat_map branch_written]. apply Forall_app. split; [|exact I2].
    apply Forall_app. split; [exact K|]. destruct cond as [c|]; inv_ok; [|constructor].
    eapply HP; [|exact HG'|eassumption]. cbn [flat_map]. apply in_or_app. left. unfold branch_parts. apply in_or_app. right. left. reflexivity.
  Qed.

  Theorem infer_ok n e0 : types_known f E (written e0) -> infer_known n e0.
  Proof.
    induction e0 as [e0 IH] using parts_ind. intros K G e HG H.
    assert (IH' : forall p, In p (parts e0) -> infer_known n p).
    { intros p Hp. apply (IH p Hp). eapply known_part; eassumption. }
    assert (IHe : forall p G' p' t, In p (parts e0) -> env_ok G' -> infer n E R G' p = Ok p' -> extract n E R G' p' = Ok t -> ok t).
    { intros p G' p' t Hp HG' X Y. eapply extract_ok; [exact HG'| |exact Y]. eapply IH'; eassumption. }
    clear IH. unfold types_known in *.
    destruct e0; try (cbn [infer] in H; inv_ok; split_known; cbn [written opt_types app]);
      repeat (apply Forall_app; split); try (constructor; fail); try assumption;
      try (eapply IH'; [| |eassumption]; [spart|assumption]; fail).
    - assert (X : forall args', mapM (infer n E R G) arguments = Ok args' -> Forall ok (flat_map written args')).
      { intros args' Ha. eapply known_flat; [exact Ha|]. intros x y Hx Hxy. eapply IH'; [| |eassumption]; [apply argument_part, Hx|exact HG]. }
      apply (infer_call n E R G function_type e0 arguments) in H. destruct H as [(b & args' & ts & t & -> & Ha & Ht & Hb & ->)|(_ & fn' & t & args' & Hf & Ht & Ha & ->)].
      + cbn [written opt_types app]. constructor; [|exact (X _ Ha)]. eapply builtin_type_ok; [|exact Hb].
        eapply mapM_forall; [exact Ht|]. intros x y Hx Hxy. eapply extract_ok; [exact HG| |exact Hxy].
        pose proof (X _ Ha) as K'. unfold types_known. rewrite Forall_forall in *. intros u Hu. apply K'. apply in_flat_map. eauto.
      + cbn [written opt_types app]. constructor; [exact (IHe e0 G fn' t (function_part function_type e0 arguments) HG Hf Ht)|].
        apply Forall_app. split; [exact (IH' e0 (function_part function_type e0 arguments) G fn' HG Hf)|exact (X _ Ha)].
    - assert (O : ok y1).
      { apply canonical_list_canon in Hy1. eapply ok_canon in Hy1; [apply ok_list, Hy1|]. eapply IHe; [|exact HG| |eassumption]; [|eassumption]; spart. }
      constructor; [exact O|]. repeat (apply Forall_app; split); (eapply IH'; [| |eassumption]; [spart|try apply env_list; assumption]).
    - assert (O : ok (fst y2) /\ ok (snd y2)).
      { apply canonical_map_canon in Hy2. eapply ok_canon in Hy2; [apply ok_map in Hy2; exact Hy2|]. eapply IHe; [|exact HG| |eassumption]; [|eassumption]; spart. }
      destruct O. constructor; [assumption|]. constructor; [assumption|].
      repeat (apply Forall_app; split); (eapply IH'; [| |eassumption]; [spart|try constructor; assumption]).
    - eapply known_flat; [exact Hy0|]. intros b b' Hb X. inv_ok. cbn [fst snd].
      assert (O : ok (fst b)). { match goal with X : Forall _ (flat_map _ branches) |- _ => rewrite Forall_forall in X; apply X end. apply in_flat_map. exists b. split; [exact Hb|left; reflexivity]. }
      constructor; [exact O|]. eapply IH'; [| |eassumption]; [apply if_type_branch_part, Hb|]. constructor; assumption.
    - destruct else_ as [[o b]|]; inv_ok; [|constructor]. destruct (create_union _) as [v|]; [|discriminate]. inv_ok.
      match goal with X : match ?d with Some _ => _ | None => _ end = Ok _ |- _ => destruct d as [u|]; [|discriminate X] end. inv_ok.
      assert (O : ok u). { eapply ok_difference; [|eassumption]. eapply IHe; [|exact HG| |eassumption]; [|eassumption]; spart. }
      cbn [opt_types app]. constructor; [exact O|]. eapply IH'; [| |eassumption]; [apply if_type_else_part|]. constructor; assumption.
    - constructor; [assumption|]. eapply IH'; [| |eassumption]; [spart|]. apply env_args; assumption.
    - assert (O : ok y0) by (eapply IHe; [|exact HG| |eassumption]; [|eassumption]; spart).
      constructor; [exact O|]. apply Forall_app. split; (eapply IH'; [| |eassumption]; [spart|try apply env_let; assumption]).
    - constructor; [assumption|]. eapply known_flat; [eassumption|]. intros el el' Hel X. unfold infer_element in X.
      destruct el; inv_ok; (eapply IH'; [| |eassumption]; [first [apply single_part; exact Hel | apply multiple_part; exact Hel]|exact HG]).
    - destruct (infer_branches_known n branches) with (G := G) (r := y) as [I1 I2]; [|exact HG|exact Hy|].
      { intros p Hp. apply IH'. apply lazy_part. cbn [lazy_parts]. apply in_or_app. left. exact Hp. }
      constructor; [assumption|]. apply Forall_app. split; [|exact I2]. eapply IH'; [| |eassumption]; [spart|exact I1].
    - constructor; [assumption|]. constructor; [assumption|]. eapply known_flat; [eassumption|]. intros el el' Hel X. unfold infer_map_element in X.
      destruct el as [a b|m]; inv_ok.
      + destruct (entry_parts key_type value_type _ _ _ Hel). apply Forall_app. split; (eapply IH'; [| |eassumption]; assumption).
      + eapply IH'; [| |eassumption]; [apply spread_part, Hel|exact HG].
    - destruct o; inv_ok; cbn [written opt_types app];
        try (apply Forall_app; split; (eapply IH'; [| |eassumption]; [spart|assumption]); fail).
      + constructor; [|apply Forall_app; split; (eapply IH'; [| |eassumption]; [spart|assumption])].
        eapply ok_canon; [eapply IHe; [|exact HG| |eassumption]; [|eassumption]; spart|exists n; eassumption].
      + constructor; [|apply Forall_app; split; (eapply IH'; [| |eassumption]; [spart|assumption])].
        apply ok_union. split; (eapply IHe; [|exact HG| |eassumption]; [|eassumption]; spart).
    - match goal with X : match ?d with Some _ => _ | None => _ end = Ok _ |- _ => destruct d as [u|]; [|discriminate X] end.
      destruct (is_any u); [discriminate|]. inv_ok. cbn [written opt_types app].
      constructor; [|eapply IH'; [| |eassumption]; [spart|assumption]]. eapply ok_difference; [|eassumption]. eapply IHe; [|exact HG| |eassumption]; [|eassumption]; spart.
    - constructor; [assumption|]. eapply known_flat; [eassumption|]. intros x x' Hx X. unfold infer_field in X. inv_ok. cbn [snd].
      eapply IH'; [| |eassumption]; [apply record_part, Hx|exact HG].
    - constructor; [|eapply IH'; [| |eassumption]; [spart|assumption]]. eapply IHe; [|exact HG| |eassumption]; [|eassumption]; spart.
    - constructor; [assumption|]. apply Forall_app. split; [eapply IH'; [| |eassumption]; [spart|assumption]|].
      eapply known_flat; [eassumption|]. intros x x' Hx X. unfold infer_field in X. inv_ok. cbn [snd].
      eapply IH'; [| |eassumption]; [apply update_part, Hx|exact HG].
    - constructor; [|eapply IH'; [| |eassumption]; [spart|assumption]]. eapply extract_ok; [exact HG| |eassumption]. assumption.
    - constructor; [assumption|]. constructor; [assumption|]. eapply IH'; [| |eassumption]; [spart|assumption].
  Qed.
End Ok.

(** ** The checker returns the extracted type *)
Theorem check_extract n E R e : forall G s, check n E R G e = Ok s -> extract n E R G e = Ok s.
Proof.
  induction e as [e IH] using parts_ind. intros G s H.
  destruct e; cbn [check] in H; inv_ok; try reflexivity; try assumption.
  - cbn [extract annotated bind]. destruct (Nat.eqb _ _); [|discriminate]. inv_ok. rewrite Hy0. reflexivity.
  - destruct (is_variant y0); [|discriminate]. inv_ok. assumption.
  - cbn [extract]. destruct name as [x|]; cbn [let_env annotated bind] in *; (eapply IH; [spart|eassumption]).
  - destruct o; inv_ok; try reflexivity.
    + cbn [extract annotated]. destruct y2; inv_ok; [reflexivity|]. destruct y2; inv_ok; reflexivity.
    + destruct y6; inv_ok; [reflexivity|]. destruct y6; inv_ok; reflexivity.
  - cbn [extract annotated bind]. rewrite Hy2. exact H.
  - destruct y1; inv_ok; reflexivity.
Qed.
