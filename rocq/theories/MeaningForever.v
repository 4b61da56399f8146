(** Programs that never end never end at run time, and make the same calls. *)
From Coq Require Import String Ascii List ZArith Bool Lia.
From Verif Require Import Base Mir MirSim MirFuel RunInvariant HirType HirTypeSpec HirTypeTermination HirTypeEq HirTypeSub HirTypeId Hir HirSpec HirMain HirTyping HirMir
  LowerSpec LowerTag LowerSwitch LowerTypeSpec RunSpec RunProofs EqualSpec EqualProofs HirMeaning HirForever MeaningSpec MeaningRun LowerMeaning.
Import ListNotations.
Local Open Scope string_scope.

Section Bound.
  Variable w : world.
  Variable m : mmodule.
  Notation evalo := (evalo w m).
  Notation evalos := (evalos w m).
  Notation at_depth n := (eval Lexical w m (call Lexical w m n)).

  (** Code that ends, ends in the same way whenever the bound is not reached. *)
  Lemma settle rho st es vs st1 : evalos rho st es (inl vs) st1 ->
    exists n0, forall n, n < n0 /\ (exists st', eval_list (at_depth n) rho st es = Timeout st' /\ later st' st1) \/ eval_list (at_depth n) rho st es = Done vs st1.
  Proof.
    intros (n0 & H). exists n0. intros n. destruct (PeanoNat.Nat.le_gt_cases n0 n) as [L|L]; [right; apply H, L|].
    destruct (list_depth_below Lexical w m n n0 rho es st ltac:(lia)) as [(st' & T & G)|Q].
    - left. split; [exact L|]. exists st'. split; [exact T|]. unfold grows in G. pose proof (H n0 (le_n _)) as H1. cbn in H1. rewrite H1 in G. exact G.
    - right. rewrite Q. apply H, le_n.
  Qed.
  Lemma evalos_later rho st es vs st1 : evalos rho st es (inl vs) st1 -> later st st1.
  Proof.
    intros (n0 & H). specialize (H n0 (le_n _)). cbn in H.
    pose proof (grow_list Lexical w m _ (grow_calls Lexical w m n0) rho es st) as G. rewrite H in G. exact G.
  Qed.

  (** [leads d c st e c1 st1 e1]: [e1] is evaluated, within [d] calls, after what has
      ended from [st] to [st1], while [e] is.  If the bound is reached in [e1] it is
      reached in [e]. *)
  Definition leads (d : nat) (c : env) (st : state) (e : expr) (c1 : env) (st1 : state) (e1 : expr) : Prop :=
    later st st1 /\
    exists n0, forall n, n < n0 /\ (exists st', at_depth n c st e = Timeout st' /\ later st' st1) \/
      exists n', n = d + n' /\ forall st', at_depth n' c1 st1 e1 = Timeout st' -> at_depth n c st e = Timeout st'.

  (** the evaluation of [e] begins with that of [es] *)
  Definition starts (c : env) (st : state) (e : expr) (es : list expr) : Prop :=
    forall cl st', eval_list (eval Lexical w m cl) c st es = Timeout st' -> eval Lexical w m cl c st e = Timeout st'.

  Lemma leads_after c st e es vs st1 c1 e1 : starts c st e es -> evalos c st es (inl vs) st1 ->
    (forall cl st', eval_list (eval Lexical w m cl) c st es = Done vs st1 -> eval Lexical w m cl c1 st1 e1 = Timeout st' -> eval Lexical w m cl c st e = Timeout st') ->
    leads 0 c st e c1 st1 e1.
  Proof.
    intros S H K. split; [eapply evalos_later, H|]. destruct (settle _ _ _ _ _ H) as (n0 & N). exists n0. intros n. destruct (N n) as [(L & st' & T & G)|D].
    - left. split; [exact L|]. exists st'. split; [apply S, T|exact G].
    - right. exists n. split; [reflexivity|]. intros st' T. eapply K; eassumption.
  Qed.
  Lemma list_app cl c es es' : forall st vs st1, eval_list (eval Lexical w m cl) c st es = Done vs st1 -> forall st', eval_list (eval Lexical w m cl) c st1 es' = Timeout st' ->
    eval_list (eval Lexical w m cl) c st (es ++ es') = Timeout st'.
  Proof.
    induction es as [|e es IH]; intros st vs st1 H st' H'; cbn in *; [injection H as <- <-; exact H'|].
    destruct (eval Lexical w m cl c st e) as [v st2|v st2|st2|st2|]; cbn in *; try discriminate.
    destruct (eval_list (eval Lexical w m cl) c st2 es) as [us st3|v' st3|st3|st3|] eqn:Q; cbn in *; try discriminate. injection H as <- <-.
    rewrite (IH st2 us st3 Q st' H'). reflexivity.
  Qed.
  Lemma list_app_first cl c es es' : forall st st', eval_list (eval Lexical w m cl) c st es = Timeout st' ->
    eval_list (eval Lexical w m cl) c st (es ++ es') = Timeout st'.
  Proof.
    induction es as [|e es IH]; intros st st' H; cbn in *; [discriminate|].
    destruct (eval Lexical w m cl c st e) as [v st2|v st2|st2|st2|]; cbn in *; try discriminate; [|exact H].
    destruct (eval_list (eval Lexical w m cl) c st2 es) as [us st3|v' st3|st3|st3|] eqn:Q; cbn in *; try discriminate. injection H as <-.
    rewrite (IH st2 st3 Q). reflexivity.
  Qed.
  Lemma leads_operand c st e before e1 after vs st1 : starts c st e (before ++ e1 :: after) -> evalos c st before (inl vs) st1 ->
    leads 0 c st e c st1 e1.
  Proof.
    intros S H. eapply leads_after; [|exact H|].
    - intros cl st' T. apply S. apply list_app_first, T.
    - intros cl st' D T. apply S. eapply list_app; [exact D|]. cbn. rewrite T. reflexivity.
  Qed.
  Lemma leads_trans c st e c1 st1 e1 c2 st2 e2 : leads 0 c st e c1 st1 e1 -> leads 0 c1 st1 e1 c2 st2 e2 -> leads 0 c st e c2 st2 e2.
  Proof.
    intros (L1 & n0 & H) (L2 & n1 & H1). split; [eapply later_trans; eassumption|]. exists (Nat.max n0 n1). intros n.
    destruct (H n) as [(L & st' & T & G)|(n' & -> & K)]; [left; split; [lia|]; exists st'; split; [exact T|eapply later_trans; eassumption]|]. cbn.
    destruct (H1 n') as [(L & st' & T & G)|(n2 & -> & K2)]; [left; split; [lia|]; exists st'; split; [apply K, T|exact G]|]. right. exists n2. split; [reflexivity|]. cbn. intros st' T. apply K, K2, T.
  Qed.

  Lemma starts_op c st o es : starts c st (Op o es) es.
  Proof. intros cl st' T. cbn. rewrite T. reflexivity. Qed.
  Lemma starts_one c st e a : (forall cl st', eval Lexical w m cl c st a = Timeout st' -> eval Lexical w m cl c st e = Timeout st') -> starts c st e [a].
  Proof.
    intros H cl st' T. apply H. cbn in T. destruct (eval Lexical w m cl c st a); cbn in T; try discriminate; injection T as <-; reflexivity.
  Qed.
  Lemma evalos_one c st e v st1 : evalo c st e (MGives v) st1 -> evalos c st [e] (inl [v]) st1.
  Proof. intros H. eapply evalos_cons; [exact H|apply evalos_nil]. Qed.
  Lemma done_one cl c st e v st1 : eval_list (eval Lexical w m cl) c st [e] = Done [v] st1 -> eval Lexical w m cl c st e = Done v st1.
  Proof. cbn. destruct (eval Lexical w m cl c st e); cbn; try discriminate. intros H. injection H as <- <-. reflexivity. Qed.
  (** one operand, then other code *)
  Lemma leads_then c st e a v st1 c1 e1 :
    (forall cl st', eval Lexical w m cl c st a = Timeout st' -> eval Lexical w m cl c st e = Timeout st') -> evalo c st a (MGives v) st1 ->
    (forall cl st', eval Lexical w m cl c st a = Done v st1 -> eval Lexical w m cl c1 st1 e1 = Timeout st' -> eval Lexical w m cl c st e = Timeout st') ->
    leads 0 c st e c1 st1 e1.
  Proof.
    intros H1 H2 H3. eapply leads_after; [apply starts_one, H1|apply evalos_one, H2|]. intros cl st' D. apply H3. apply done_one in D. exact D.
  Qed.
  Lemma leads_in c st e c1 e1 : (forall cl st', eval Lexical w m cl c1 st e1 = Timeout st' -> eval Lexical w m cl c st e = Timeout st') -> leads 0 c st e c1 st e1.
  Proof. intros H. split; [apply later_refl|]. exists 0. intros n. right. exists n. split; [reflexivity|]. intros st'. apply H. Qed.
End Bound.

Section Forever.
  Variable f : string -> string.
  Variable n : nat.
  Variable E : tenv.
  Variable R : renv.
  Variable C : config.
  Variable T : ty -> Prop.
  Variable p : hmodule.
  Variable m : mmodule.
  Variable w : world.
  Variable outer : list (string * list hvalue) -> string -> list hvalue -> hvalue -> Prop.
  Variable own : renv.
  Hypothesis HC : compiled_from f n E R C T p m own w outer.

  Notation rep := (rep f n E R C T m).
  Notation env_rep := (env_rep f n E R C T m).
  Notation state_rep := (state_rep f n E R C T m).
  Notation fine := (fine f E R C T m).
  Notation own_name := (own_name R C).
  Notation compile := (compile n E R C).
  Notation evalo := (evalo w m).
  Notation evalos := (evalos w m).
  Notation evs := (evs E own p w outer).
  Notation enters := (enters p).
  Notation goes_on := (goes_on E own p w outer).
  Notation leads := (leads w m).
  Notation starts := (starts w m).
  Let Ht := cf_tidy _ _ _ _ _ _ _ _ _ _ _ HC.
  Let HT := cf_hashes _ _ _ _ _ _ _ _ _ _ _ HC.
  Let W : wf f E := tidy_wf _ _ _ Ht.

  (** Code of an expression under evaluation *)
  Definition coded (q : pending) (k : nat) (c : env) (st : state) (me : expr) : Prop :=
    let '(s, rho, e) := q in compile k e = Ok me /\ fine e /\ env_rep rho c /\ state_rep s st.

  (** The code of operands *)
  Lemma operands_parts e a : In a (operands e) -> In a (parts e).
  Proof.
    destruct e as [| |ft g args|c0 a0 b| | |x a0 bs els| |x t b e| | | | | |op l r|a0|t a0|t fs|t a0 x|t a0 fs| | |t t' a0|]; cbn [operands]; try contradiction; intros H.
    - destruct g; try (apply in_or_app; left; exact H).
      destruct f0; try contradiction; destruct args as [|a0 [|a1 l]]; try contradiction; destruct H as [<-|[]]; right; left; reflexivity.
    - destruct H as [<-|[]]. left. reflexivity.
    - destruct H as [<-|[]]. left. reflexivity.
    - destruct H as [<-|[]]. left. reflexivity.
    - destruct op; try contradiction; try (destruct H as [<-|[<-|[]]]; [left; reflexivity|right; left; reflexivity]). destruct H as [<-|[]]. left. reflexivity.
    - destruct H as [<-|[]]. left. reflexivity.
    - destruct H as [<-|[]]. left. reflexivity.
    - apply in_or_app. left. exact H.
    - destruct H as [<-|[]]. left. reflexivity.
    - apply in_or_app. left. exact H.
    - destruct H as [<-|[]]. left. reflexivity.
  Qed.

  Lemma code_starts k e me : compile (S k) e = Ok me -> (forall t fs, e <> HRecord t fs) -> operands e <> [] ->
    exists k1 mes, k1 <= k /\ Forall2 (fun e me => compile k1 e = Ok me) (operands e) mes /\ forall c st, starts c st me mes.
  Proof.
    assert (One : forall a a' me, compile k a = Ok a' ->
      (forall c st cl st', eval Lexical w m cl c st a' = Timeout st' -> eval Lexical w m cl c st me = Timeout st') ->
      exists k1 mes, k1 <= k /\ Forall2 (fun e me => compile k1 e = Ok me) [a] mes /\ forall c st, starts c st me mes).
    { intros a a' me' Ha K. exists k, [a']. split; [lia|]. split; [constructor; [exact Ha|constructor]|]. intros c st. apply starts_one. intros cl st'. apply K. }
    intros H N Z. destruct e as [| |ft g args|c0 a b| | |x a bs els| |x t b e| | | | | |op l r|a|t a|t fs|t a x|t a fs| | |t t' a|]; cbn [operands] in *; try contradiction.
    - assert (D : (forall b, g <> HBuiltIn b) \/ exists b, g = HBuiltIn b) by (destruct g; eauto; left; discriminate). destruct D as [D|(b & ->)].
      + rewrite (compile_call n E R C k ft g args D) in H. apply bind_ok in H as (t & _ & H). apply bind_ok in H as (sg & _ & H). apply bind_ok in H as (mg & Hg & H). apply bind_ok in H as (mes & Hes & H).
        injection H as <-. exists k, (mg :: mes). split; [lia|]. split; [|intros c st; apply starts_op].
        replace (match g with HBuiltIn _ => _ | _ => _ end) with (g :: args) by (destruct g; try reflexivity; destruct (D _ eq_refl)). apply code_list; assumption.
      + destruct b; try contradiction; destruct args as [|a [|a1 l]]; try contradiction.
        * apply compile_error in H as (a' & Ha & ->). apply (One _ a'); [exact Ha|]. intros c st cl st' Q. cbn. rewrite Q. reflexivity.
        * apply compile_source in H as (a' & Ha & ->). apply (One _ a'); [exact Ha|]. intros c st cl st' Q. cbn. rewrite Q. reflexivity.
    - cbn [HirMir.compile] in H. apply bind_ok in H as (mc & Hc & H). apply bind_ok in H as (ma & Ha & H). apply bind_ok in H as (mb & Hb & H). injection H as <-.
      apply (One _ mc); [exact Hc|]. intros c st cl st' Q. cbn. rewrite Q. reflexivity.
    - cbn [HirMir.compile] in H. apply bind_ok in H as (a' & Ha & H). apply bind_ok in H as (alts & _ & H). apply bind_ok in H as (de & _ & H). injection H as <-.
      apply (One _ a'); [exact Ha|]. intros c st cl st' Q. cbn. rewrite Q. reflexivity.
    - cbn [HirMir.compile] in H. apply bind_ok in H as (t' & _ & H). apply bind_ok in H as (mt & _ & H). apply bind_ok in H as (b' & Hb & H). apply bind_ok in H as (e' & He & H). injection H as <-.
      apply (One _ b'); [exact Hb|]. intros c st cl st' Q. cbn. rewrite Q. reflexivity.
    - assert (D : (exists o, op = BinBoolean o) \/ (exists t o, op = BinEquality t o) \/ operands (HBinary op l r) = [l; r] /\ (forall o, op <> BinBoolean o) /\ forall t o, op <> BinEquality t o).
      { destruct op; eauto; right; right; split; try reflexivity; split; discriminate. }
      destruct D as [(o & ->)|[(t & o & ->)|(D & N1 & N2)]]; [|contradiction|].
      + cbn [HirMir.compile compile_binary] in H. destruct k as [|k]; [discriminate|].
        assert (G : exists ml, compile k l = Ok ml /\ forall c st cl st', eval Lexical w m cl c st ml = Timeout st' -> eval Lexical w m cl c st me = Timeout st').
        { destruct o; cbn [boolean_operation HirMir.compile] in H; apply bind_ok in H as (mc & Hc & H); apply bind_ok in H as (ma & Ha & H); apply bind_ok in H as (mb & Hb & H); injection H as <-;
            (exists mc; split; [exact Hc|intros c st cl st' Q; cbn; rewrite Q; reflexivity]). }
        destruct G as (ml & Hl & G). exists k, [ml]. split; [lia|]. split; [constructor; [exact Hl|constructor]|]. intros c st. apply starts_one. intros cl st'. apply G.
      + cbn [operands] in D. rewrite D. cbn [HirMir.compile] in H.
        assert (K : exists ml mr o, compile k l = Ok ml /\ compile k r = Ok mr /\ me = Op o [ml; mr]).
        { destruct op as [t|o|o|t o|o]; cbn [compile_binary] in H; try (destruct (N1 o eq_refl)); try (destruct (N2 t o eq_refl)).
          - apply bind_ok in H as (t' & _ & H). destruct t'; try discriminate; apply bind_ok in H as (ml & Hl & H); apply bind_ok in H as (mr & Hr & H); injection H as <-; eauto 7.
          - apply bind_ok in H as (ml & Hl & H); apply bind_ok in H as (mr & Hr & H); injection H as <-; eauto 7.
          - apply bind_ok in H as (ml & Hl & H); apply bind_ok in H as (mr & Hr & H); injection H as <-; eauto 7. }
        destruct K as (ml & mr & o & Hl & Hr & ->). exists k, [ml; mr]. split; [lia|]. split; [repeat constructor; assumption|]. intros c st. apply starts_op.
    - cbn [HirMir.compile] in H. apply bind_ok in H as (e' & He & H). injection H as <-.
      apply (One _ e'); [exact He|]. intros c st cl st' Q. cbn. rewrite Q. reflexivity.
    - destruct t as [t|]; [|cbn in H; destruct (compile k a); discriminate]. apply compile_try in H as (a' & al & Ha & Hal & ->).
      apply (One _ a'); [exact Ha|]. intros c st cl st' Q. cbn. rewrite Q. reflexivity.
    - destruct (N t fs eq_refl).
    - destruct t as [t|]; [|discriminate]. apply compile_field in H as (r & fts & i & a' & _ & _ & _ & Ha & ->).
      apply (One _ a'); [exact Ha|]. intros c st cl st' Q. cbn. rewrite Q. reflexivity.
    - apply compile_update in H as (r' & a' & is & es & Hr & Ha & Hes & His & Hfs & ->). exists k, (a' :: es). split; [lia|]. split; [constructor; assumption|]. intros c st. apply starts_op.
    - cbn [HirMir.compile] in H. unfold compile_coercion in H.
      apply bind_ok in H as (x & _ & H). apply bind_ok in H as (y & _ & H). apply bind_ok in H as (e' & He & H).
      apply (One _ e'); [exact He|]. intros c st cl st' Q.
      assert (Wr : bind (concrete_name n E C x) (fun o => match o with Some r => bind (concrete_value n E C e' x) (fun v => Ok (Op (OVariant (Mir.TRecord r)) [v])) | None => Panic end) = Ok me -> eval Lexical w m cl c st me = Timeout st').
      { intros Hw. apply bind_ok in Hw as ([r|] & _ & Hw); [|discriminate]. apply bind_ok in Hw as (cv & Hcv & Hw). injection Hw as <-.
        unfold concrete_value in Hcv. apply bind_ok in Hcv as (z & _ & Hcv).
        destruct z; try discriminate; apply bind_ok in Hcv as (o & _ & Hcv); destruct o as [r'|]; injection Hcv as <-; cbn; rewrite Q; reflexivity. }
      destruct x; try discriminate; try (apply bind_ok in H as (mt & _ & H); injection H as <-; cbn; rewrite Q; reflexivity);
        try (injection H as <-; exact Q); try (apply Wr, H); destruct y; try (apply Wr, H); injection H as <-; exact Q.
  Qed.

  (** The meaning of what has ended *)
  Lemma ended s rho es r s' : evs s rho es r s' -> steps f n E R C T m w rho s es r s'.
  Proof. apply (proj1 (proj2 (meaning_kept f n E R C T p m w outer own HC))). Qed.
  Lemma ended_one s rho e u s' k me c st : evs s rho [e] (inl [u]) s' -> compile k e = Ok me -> fine e -> env_rep rho c -> state_rep s st ->
    exists v st', evalo c st me (MGives v) st' /\ rep u v /\ state_rep s' st'.
  Proof. intros H. apply sound_gives. apply steps_one. apply ended, H. Qed.

  Definition follows (q : pending) (k : nat) (c : env) (st : state) (me : expr) : Prop :=
    exists k1 c1 st1 me1, coded q k1 c1 st1 me1 /\ (k1 < k /\ leads 0 c st me c1 st1 me1 \/ leads 1 c st me c1 st1 me1).

  (** the values of a record's fields *)
  Lemma fields_lead fts rho e1 after s1 : forall before es s us k code body, map snd before = us -> forall vals,
    steps f n E R C T m w rho s us (inl vals) s1 ->
    Forall2 (fun f e => compile k (snd f) = Ok (snd e) /\ fst e = fst f) (before ++ e1 :: after) es -> field_lets n E C fts es body = Ok code ->
    (forall e, In e (map snd (before ++ e1 :: after)) -> fine e) -> forall c st, env_rep rho c -> state_rep s st ->
    exists c1 st1 me1, coded (s1, rho, snd e1) k c1 st1 me1 /\ leads 0 c st code c1 st1 me1.
  Proof.
    induction before as [|[x e] before IH]; intros es s us k code body <- vals St F H Fi c st Er Sr; inversion F as [|? [x' e'] ? es' (H1 & H2) F']; subst; cbn [field_lets map fst snd app] in *.
    - destruct vals as [|]; [|contradiction]. cbn in St. subst s1. subst x'. apply bind_ok in H as (t & _ & H). apply bind_ok in H as (rest & Hrest & H). injection H as <-.
      exists c, st, e'. split; [split; [exact H1|split; [apply Fi; left; reflexivity|split; assumption]]|]. apply leads_in. intros cl st' Q. cbn. rewrite Q. reflexivity.
    - subst x'. apply bind_ok in H as (t & _ & H). apply bind_ok in H as (rest & Hrest & H). injection H as <-.
      destruct vals as [|u vals]; [contradiction|]. destruct St as (s2 & S1 & St).
      destruct (sound_gives f n E R C T m w rho s e u s2 k e' c st S1 H1 (Fi e (or_introl eq_refl)) Er Sr) as (v & st1 & G1 & G2 & G3).
      destruct (IH es' s2 _ k rest body eq_refl vals St F' Hrest (fun y Hy => Fi y (or_intror Hy)) (("$" ++ x, v) :: c) st1) as (c1 & st2 & me1 & A1 & A2);
        [apply env_hide; [exact Er|apply dollar_hidden]|exact G3|].
      exists c1, st2, me1. split; [exact A1|]. eapply leads_trans; [|exact A2].
      eapply leads_then; [|exact G1|]; intros cl st' Q; [cbn; rewrite Q; reflexivity|intros Q'; cbn; rewrite Q; exact Q'].
  Qed.

  Lemma operand_follows s rho e before e1 after us s1 k c st me : operands e = (before ++ e1 :: after)%list -> evs s rho before (inl us) s1 ->
    coded (s, rho, e) k c st me -> follows (s1, rho, e1) k c st me.
  Proof.
    intros O H (Hc & Fi & Er & Sr). destruct k as [|k]; [discriminate|].
    assert (D : (forall t fs, e <> HRecord t fs) \/ exists t fs, e = HRecord t fs) by (destruct e; eauto; left; discriminate). destruct D as [D|(t & fs & ->)].
    - destruct (code_starts k e me Hc D) as (k1 & mes & L & F & S); [rewrite O; destruct before; discriminate|].
      assert (Fo : forall a, In a (operands e) -> fine a) by (intros a Ha; eapply fine_part; [exact Fi|apply operands_parts, Ha]).
      rewrite O in F, Fo. apply Forall2_app_inv_l in F as (mb & mr & Fb & Fr & ->). inversion Fr as [|? me1 ? ma H1 Fa]; subst.
      destruct (steps_list f n E R C T m w rho before s (inl us) s1 (ended _ _ _ _ _ H) k1 mb c st Fb) as ([vs|] & st1 & G1 & G2 & G3);
        [intros a Ha; apply Fo; apply in_or_app; left; exact Ha|exact Er|exact Sr| |contradiction].
      exists k1, c, st1, me1. split; [split; [exact H1|split; [apply Fo; apply in_or_app; right; left; reflexivity|split; assumption]]|].
      left. split; [lia|]. eapply leads_operand; [apply S|exact G1].
    - cbn [operands] in O. apply compile_fields in Hc as (fts & r' & es & Hf & Hr & F & All & Hc).
      apply map_eq_app in O as (fb & fr & -> & <- & O). destruct fr as [|f1 fa]; [discriminate|]. injection O as <- <-.
      destruct (fields_lead fts rho f1 fa s1 fb es s _ k me _ eq_refl us (ended _ _ _ _ _ H) F Hc) with (c := c) (st := st) as (c1 & st1 & me1 & A1 & A2).
      + intros e He. eapply fine_part; [exact Fi|]. apply in_or_app. left. exact He.
      + exact Er.
      + exact Sr.
      + exists k, c1, st1, me1. split; [exact A1|]. left. split; [lia|exact A2].
  Qed.

  (** Calls *)
  Lemma entered s g us q g' vs st : enters s g us q -> rep g g' -> Forall2 rep us vs -> state_rep s st ->
    exists k c me, coded q k c st me /\
      forall d st', eval Lexical w m (call Lexical w m d) c st me = Timeout st' -> call Lexical w m (S d) st g' vs = Timeout st'.
  Proof.
    intros En Rg Rs Sr. pose proof (rep_length _ _ _ _ _ _ _ _ _ Rs) as Lr. destruct En as [s xs body rho us L|s g l us Hl N L|s g l Hl N K].
    - rewrite L in Lr. inversion Rg as [| | | | | | |xs0 body0 rho0 k args r code c H1 H2 H3 H4 H5 H6 H7|]; subst. rewrite map_length in Lr.
      exists k, (rev (combine (map fst args) vs) ++ ("$closure", VClosure (Fdef "$closure" [] args r code false) c) :: c)%list, code. split.
      + split; [exact H4|]. split; [exact H3|]. split; [|exact Sr].
        eapply env_args; [exact H2|exact Rs|]. apply env_hide; [split; [exact H5|split; assumption]|]. apply (dollar_hidden "closure").
      + intros d st' Q. cbn [call f_args f_name f_body]. rewrite Lr, PeanoNat.Nat.eqb_refl. rewrite bind_args_rev by (rewrite map_length; exact Lr). rewrite Q. reflexivity.
    - rewrite L in Lr. inversion Rg; subst. destruct (cf_defs _ _ _ _ _ _ _ _ _ _ _ HC g l Hl) as (On & Fi & k & d & Hd & Hf).
      apply definition_code in Hd as (code & Hc & <- & Ha & Ht').
      exists k, (rev (combine (map fst (l_arguments l)) vs) ++ [])%list, (f_body d). split.
      + split; [exact Hc|]. split; [exact Fi|]. split; [|exact Sr]. eapply env_args; [exact On|exact Rs|]. split; [reflexivity|]. split; [discriminate|reflexivity].
      + intros d' st' Q. cbn [call]. rewrite Hf, Ht'. destruct (l_arguments l) as [|a0 l0] eqn:El; [destruct (N eq_refl)|]. rewrite <- El in *.
        assert (List.length (f_args d) = List.length (l_arguments l)) as La by (rewrite <- (map_length fst), Ha, map_length; reflexivity).
        rewrite La, Lr, PeanoNat.Nat.eqb_refl. rewrite Ha, bind_args_rev by (rewrite map_length; exact Lr). rewrite Q. reflexivity.
    - inversion Rg; subst. inversion Rs; subst. destruct (cf_defs _ _ _ _ _ _ _ _ _ _ _ HC g l Hl) as (On & Fi & k & d & Hd & Hf).
      apply definition_code in Hd as (code & Hc & <- & Ha & Ht'). rewrite N in Ha, Ht'. pose proof Sr as (_ & _ & S3).
      exists k, [], (f_body d). split.
      + split; [exact Hc|]. split; [exact Fi|]. split; [apply empty_env|exact Sr].
      + intros d' st' Q. cbn [call]. rewrite Hf, Ht'. destruct (f_args d); [|discriminate]. rewrite (S3 g K). rewrite Q. reflexivity.
  Qed.

  Lemma equal_follows k s rho t l r c st me : in_order E own t -> compile (S k) (HBinary (BinEquality (Some t) HEqual) l r) = Ok me -> tidy_type f E t -> uses E T t -> fine l -> fine r -> env_rep rho c -> state_rep s st ->
    follows (s, rho, l) (S k) c st me /\
    forall a x s1, evs s rho [l] (inl [a]) s1 -> read E own t a x -> follows (s1, rho, r) (S k) c st me.
  Proof.
    intros Ba H Tt Ut Fl Fr Er Sr.
    destruct (equal_cases f n E R C T p m w outer own HC k t l r me Ba H) as [(Q & H')|[(k' & o & pre & ml & mr & Lk & -> & Hl & Hr & K)|(lt & rt & j & h & Hc & Hh & H')]].
    - destruct k as [|k]; [discriminate|]. cbn [HirMir.compile] in H'. apply bind_ok in H' as (ml & Hl & H'). apply bind_ok in H' as (mr & Hr & H'). apply bind_ok in H' as (mi & Hi & H'). injection H' as <-.
      split.
      + exists k, c, st, ml. split; [split; auto|]. left. split; [lia|]. apply leads_in. intros cl st' X. cbn. rewrite X. reflexivity.
      + intros a y s1 He Ra. destruct (read_boolean_only f n E R C T p m w outer own HC t a y Tt Q Ra) as (x & -> & ->). destruct (ended_one _ _ _ _ _ k ml c st He Hl Fl Er Sr) as (v & st1 & G1 & G2 & G3). inversion G2; subst.
        destruct k as [|k']; [discriminate|]. cbn [HirMir.compile] in Hi. apply bind_ok in Hi as (mr' & Hr' & Hi). apply bind_ok in Hi as (m1 & _ & Hi). apply bind_ok in Hi as (m2 & _ & Hi). injection Hi as <-.
        destruct x.
        * exists (S k'), c, st1, mr. split; [split; auto|]. left. split; [lia|]. eapply leads_then; [|exact G1|]; intros cl st' X; [cbn; rewrite X; reflexivity|intros X'; cbn; rewrite X; exact X'].
        * exists k', c, st1, mr'. split; [split; auto|]. left. split; [lia|]. eapply leads_then; [|exact G1|]; intros cl st' X; [cbn; rewrite X; reflexivity|intros X'; cbn; rewrite X; cbn; rewrite X'; reflexivity].
    - assert (Hp : exists vs, evalos c st pre (inl vs) st).
      { destruct K as [(_ & -> & _)|[(_ & -> & _)|(g & d & Hc & G & Co & -> & _)]]; [exists []; apply evalos_nil| |]; eexists; apply evalos_one; [eapply string_variable; eassumption|].
        eapply compare_variable; [exact HC|exact Er| |eapply equality_global; [exact HC|exact G|eapply tidy_record; eassumption|exact Co]].
        right. exists g. split; [eapply defines_known; [exact HC|exact G]|reflexivity]. }
      destruct Hp as (vs & Hp). split.
      + exists k', c, st, ml. split; [split; auto|]. left. split; [lia|]. eapply leads_operand; [apply starts_op|exact Hp].
      + intros a y s1 He _. destruct (ended_one _ _ _ _ _ k' ml c st He Hl Fl Er Sr) as (v & st1 & G1 & G2 & G3).
        exists k', c, st1, mr. split; [split; auto|]. left. split; [lia|]. eapply (leads_operand w m c st _ (pre ++ [ml]) mr [] (vs ++ [v])); [rewrite <- app_assoc; apply starts_op|].
        destruct Hp as (n0 & Hp), G1 as (n1 & G1). exists (Nat.max n0 n1). intros n2 L.
        specialize (Hp n2 ltac:(lia)). specialize (G1 n2 ltac:(lia)). cbn in Hp. clear - Hp G1. revert Hp. generalize st at 1 3 as st0. revert vs.
        induction pre as [|e pre IH]; intros vs st0 Hp; cbn in *; [injection Hp as <- ->; rewrite G1; reflexivity|].
        destruct (eval Lexical w m (call Lexical w m n2) c st0 e) as [v0 st2| | | |]; cbn in *; try discriminate.
        destruct (eval_list (eval Lexical w m (call Lexical w m n2)) c st2 pre) as [us st3| | | |] eqn:Qe; cbn in *; try discriminate. injection Hp as <- ->.
        rewrite (IH us st2 Qe). reflexivity.
    - assert (Cs : forall c0 st0 a0 alts0 de0 cl st', eval Lexical w m cl c0 st0 a0 = Timeout st' -> eval Lexical w m cl c0 st0 (Case a0 alts0 de0) = Timeout st')
        by (intros c0 st0 a0 alts0 de0 cl st' X; cbn; rewrite X; reflexivity).
      split.
      + destruct (union_switch f n E R C T w m (state_rep s) (defines own) False (code_of_records f n E R C T p m w outer own HC s) t lt rt j k l r h me Tt Ut Hc Hh H') as (k1 & l' & alts & de & -> & Hl & -> & _).
        exists k1, c, st, l'. split; [split; auto|]. left. split; [lia|]. apply leads_in. intros cl st' X. apply Cs, X.
      + intros a x s1 He Ra. pose proof (code_of_records f n E R C T p m w outer own HC s1) as HR.
        destruct (union_switch f n E R C T w m (state_rep s1) (defines own) False HR t lt rt j k l r h me Tt Ut Hc Hh H') as (k1 & l' & alts & de & -> & Hl & -> & Sw).
        destruct (ended_one _ _ _ _ _ k1 l' c st He Hl Fl Er Sr) as (v1 & st1 & G1 & R1 & Sr1).
        destruct (proj1 (read_value f n E R C T p m w outer own HC (state_rep s1)) t a x Ra v1 R1) as (V1 & Hx).
        destruct (Sw x v1 c (plain_all f n E R C T w m (state_rep s1) (defines own) False HR (no_lists f n E R C T m) x Hx) V1) as (c1 & k2 & r' & alts' & de' & -> & Hr & Sb & Ev1 & _).
        exists k2, c1, st1, r'. split; [split; [exact Hr|split; [exact Fr|split; [eapply env_same_but; eassumption|exact Sr1]]]|]. left. split; [lia|].
        eapply leads_then; [intros cl st' X; apply Cs, X|exact G1|]. intros cl st' X X'. rewrite (Ev1 Lexical w m cl st st1 X). apply Cs, X'.
  Qed.

  Lemma equality_follows k s rho t op l r c st me : in_order E own t -> compile k (HBinary (BinEquality (Some t) op) l r) = Ok me -> fine (HBinary (BinEquality (Some t) op) l r) -> env_rep rho c -> state_rep s st ->
    follows (s, rho, l) k c st me /\
    forall a x s1, evs s rho [l] (inl [a]) s1 -> read E own t a x -> follows (s1, rho, r) k c st me.
  Proof.
    intros Ba H Fi Er Sr.
    assert (Fl : fine l) by (eapply fine_part; [exact Fi|left; reflexivity]).
    assert (Fr : fine r) by (eapply fine_part; [exact Fi|right; left; reflexivity]).
    destruct (fine_node _ _ _ _ _ _ _ Fi) as (_ & Tt & Ut).
    destruct k as [|k]; [discriminate|]. destruct op; [apply (equal_follows k s rho t); assumption|].
    change (compile k (not_equal (Some t) l r) = Ok me) in H. destruct k as [|k]; [discriminate|]. unfold not_equal in H. cbn [HirMir.compile] in H.
    apply bind_ok in H as (mc & Hmc & H). apply bind_ok in H as (ma & Ha & H). apply bind_ok in H as (mb & Hb & H). injection H as <-.
    destruct k as [|k]; [discriminate|].
    destruct (equal_follows k s rho t l r c st mc Ba Hmc Tt Ut Fl Fr Er Sr) as (G1 & G2).
    assert (Up : forall q, follows q (S k) c st mc -> follows q (S (S (S k))) c st (If mc ma mb)).
    { intros q (k1 & c1 & st1 & me1 & Co & D). exists k1, c1, st1, me1. split; [exact Co|].
      assert (U : forall d, leads d c st mc c1 st1 me1 -> leads d c st (If mc ma mb) c1 st1 me1).
      { intros d (L & n0 & K). split; [exact L|]. exists n0. intros d0. destruct (K d0) as [(Ld & st' & Td & Gd)|(n' & -> & K')].
        - left. split; [exact Ld|]. exists st'. split; [cbn; rewrite Td; reflexivity|exact Gd].
        - right. exists n'. split; [reflexivity|]. intros st' Td. cbn [eval]. rewrite (K' st' Td). reflexivity. }
      destruct D as [(L & D)|D]; [left; split; [lia|apply U, D]|right; apply U, D]. }
    split; [apply Up, G1|]. intros a x s1 He Hx. apply Up. eapply G2; eassumption.
  Qed.

  Lemma steps_length rho : forall es s us s1, steps f n E R C T m w rho s es (inl us) s1 -> List.length us = List.length es.
  Proof.
    induction es as [|e es IH]; intros s [|u us] s1 St; cbn in St; try contradiction; [reflexivity|]. destruct St as (s2 & _ & St). cbn. f_equal. eapply IH, St.
  Qed.

  (** A call goes on to the code of the body it enters. *)
  Lemma call_follows s rho ft ts r g args u us s1 q k c st me : (forall b, g <> HBuiltIn b) ->
    teq E ft (TFunction ts r) -> List.length args = List.length ts -> evs s rho (g :: args) (inl (u :: us)) s1 -> enters s1 u us q ->
    coded (s, rho, HCall (Some ft) g args) k c st me -> exists k1 c1 st1 me1, coded q k1 c1 st1 me1 /\ leads 1 c st me c1 st1 me1.
  Proof.
    intros N Q L H En Co.
    destruct Co as (Hc & Fi & Er & Sr). destruct k as [|k]; [discriminate|]. rewrite (compile_call n E R C k (Some ft) g args N) in Hc.
    apply bind_ok in Hc as (t & Hann & Hc). injection Hann as <-. apply bind_ok in Hc as (sg & Hsg & Hc). apply bind_ok in Hc as (mg & Hg & Hc). apply bind_ok in Hc as (mes & Hes & Hc).
    injection Hc as <-.
    pose proof (ended _ _ _ _ _ H) as St. pose proof (steps_length _ _ _ _ _ St) as Ls.
    destruct (steps_list f n E R C T m w rho (g :: args) s _ s1 St k (mg :: mes) c st) as ([vs|] & st1 & G1 & G2 & G3);
      [apply code_list; assumption|intros e He; eapply fine_part; [exact Fi|apply call_parts; assumption]|exact Er|exact Sr| |contradiction].
    inversion G2 as [|? v0 ? vs' Hv Hvs]; subst.
    destruct (entered s1 u us q v0 vs' st1 En Hv Hvs G3) as (k1 & c1 & me1 & Co1 & K). exists k1, c1, st1, me1. split; [exact Co1|].
    assert (Len : List.length vs' = List.length (fst sg)).
    { rewrite (signature_length f n E R C T p m w outer own HC _ _ _ _ Q Hsg), <- L. cbn in Ls. pose proof (rep_length _ _ _ _ _ _ _ _ _ Hvs) as Lr. lia. }
    split; [eapply evalos_later, G1|]. destruct (settle _ _ _ _ _ _ _ G1) as (n0 & N0). exists (S n0). intros d. destruct (N0 d) as [(Ld & st' & Td & Gd)|Dd].
    + left. split; [lia|]. exists st'. split; [|exact Gd]. apply starts_op, Td.
    + destruct d as [|d].
      * left. split; [lia|]. exists st1. split; [|apply later_refl]. cbn [eval]. cbn [eval_list] in *. rewrite Dd. cbn [obind apply_op]. rewrite Len, PeanoNat.Nat.eqb_refl. reflexivity.
      * right. exists d. split; [reflexivity|]. intros st' Td. cbn [eval]. rewrite Dd. cbn [obind apply_op]. rewrite Len, PeanoNat.Nat.eqb_refl. apply K, Td.
  Qed.

  (** What is evaluated inside an expression is evaluated inside its code. *)
  Lemma goes_on_follows q q' : goes_on q q' -> forall k c st me, coded q k c st me -> follows q' k c st me.
  Proof.
    intros G. destruct G as [s rho e before e1 after us s1 O H|s rho ft ts r g args u us s1 q N Q L H En|s rho c0 a b x s1 H|s rho x a bs els t u s1 bt body v H Ft Op
      |s rho x t b e u s1 H|s rho t b e u s1 H|s rho l r s1 H|s rho l r s1 H|s rho t op l r Ba|s rho t op l r a x s1 Ba H Hb]; intros k c st me Co.
    - eapply operand_follows; eassumption.
    - destruct (call_follows _ _ _ _ _ _ _ _ _ _ _ _ _ _ _ N Q L H En Co) as (k1 & c1 & st1 & me1 & A1 & A2). exists k1, c1, st1, me1. auto.
    - destruct Co as (Hc & Fi & Er & Sr). destruct k as [|k]; [discriminate|]. cbn [HirMir.compile] in Hc.
      apply bind_ok in Hc as (mc & Hmc & Hc). apply bind_ok in Hc as (ma & Ha & Hc). apply bind_ok in Hc as (mb & Hb & Hc). injection Hc as <-.
      destruct (ended_one _ _ _ _ _ k mc c st H Hmc) as (v & st1 & G1 & G2 & G3); [eapply fine_part; [exact Fi|left; reflexivity]|exact Er|exact Sr|]. inversion G2; subst.
      exists k, c, st1, (if x then ma else mb). split.
      + split; [destruct x; assumption|]. split; [|split; assumption]. eapply fine_part; [exact Fi|]. destruct x; [right; left|right; right; left]; reflexivity.
      + left. split; [lia|]. eapply leads_then; [|exact G1|]; intros cl st' X; [cbn; rewrite X; reflexivity|intros X'; cbn; rewrite X; cbn; destruct x; exact X'].
    - destruct Co as (Hc & Fi & Er & Sr). destruct k as [|k]; [discriminate|].
      destruct (fine_node _ _ _ _ _ _ _ Fi) as (Bx & Kn). cbn in Kn.
      destruct (switch_runs f E R C T Ht HT n k x a bs els me Hc) as (a' & Ha & K); [intros [bt' b'] Hb; apply (Kn bt' b' Hb)|].
      assert (S0 : forall cl st', eval Lexical w m cl c st a' = Timeout st' -> eval Lexical w m cl c st me = Timeout st').
      { cbn [HirMir.compile] in Hc. apply bind_ok in Hc as (a2 & Ha2 & Hc). rewrite Ha in Ha2. injection Ha2 as <-. apply bind_ok in Hc as (alts & _ & Hc). apply bind_ok in Hc as (de & _ & Hc). injection Hc as <-.
        intros cl st' X. cbn. rewrite X. reflexivity. }
      destruct (ended_one _ _ _ _ _ k a' c st H Ha) as (b & st1 & G1 & G2 & G3); [eapply fine_part; [exact Fi|left; reflexivity]|exact Er|exact Sr|].
      inversion G2 as [| | | | | |a0 al u0 v0 b0 Qa Tal Ual Bx' Ru| |]; subst.
      pose proof (first_taking_teq _ _ _ _ _ Ft Qa) as Ft'.
      destruct (K al v0 b c Tal Ual Bx') as (br & code & y & c' & F1 & F2 & F3 & F4 & F5).
      { destruct Ft' as (l & r & -> & Tk & _). exists (bt, body). split; [apply in_or_app; right; left; reflexivity|exact Tk]. }
      assert (br = (bt, body)) as -> by (eapply first_taking_fun; [exact F1|exact Ft']). cbn [fst snd] in *.
      exists k, c', st1, code. split.
      + split; [exact F2|]. split; [|split; [|exact G3]].
        * eapply fine_part; [exact Fi|]. right. destruct Ft as (l & r & Q & _). clear - Q.
          assert (I : In (bt, body) (all_branches bs els)) by (rewrite Q; apply in_or_app; right; left; reflexivity).
          unfold all_branches in I. apply in_or_app; left. apply in_app_or in I as [I|I]; apply in_or_app; [left; apply in_map_iff; exists (bt, body); auto|right].
          destruct els as [[[t|] e]|]; cbn in I; try contradiction. destruct I as [I|[]]. injection I as <- <-. left. reflexivity.
        * eapply env_binds; [exact Er|exact F4| |eapply seen_rep; eassumption]. apply Bx. left. reflexivity.
      + left. split; [lia|]. eapply leads_then; [exact S0|exact G1|]. intros cl st' X X'. erewrite F5 by exact X. exact X'.
    - destruct Co as (Hc & Fi & Er & Sr). destruct k as [|k]; [discriminate|]. cbn [HirMir.compile] in Hc.
      apply bind_ok in Hc as (t' & _ & Hc). apply bind_ok in Hc as (mt & _ & Hc). apply bind_ok in Hc as (b' & Hb & Hc). apply bind_ok in Hc as (e' & He & Hc). injection Hc as <-.
      destruct (ended_one _ _ _ _ _ k b' c st H Hb) as (v & st1 & G1 & G2 & G3); [eapply fine_part; [exact Fi|left; reflexivity]|exact Er|exact Sr|].
      exists k, ((x, v) :: c), st1, e'. split.
      + split; [exact He|]. split; [eapply fine_part; [exact Fi|right; left; reflexivity]|]. split; [|exact G3].
        apply env_bind; [exact Er| |exact G2]. apply (proj1 (fine_node _ _ _ _ _ _ _ Fi)). left. reflexivity.
      + left. split; [lia|]. eapply leads_then; [|exact G1|]; intros cl st' X; [cbn; rewrite X; reflexivity|intros X'; cbn; rewrite X; exact X'].
    - destruct Co as (Hc & Fi & Er & Sr). destruct k as [|k]; [discriminate|]. cbn [HirMir.compile] in Hc.
      apply bind_ok in Hc as (t' & _ & Hc). apply bind_ok in Hc as (mt & _ & Hc). apply bind_ok in Hc as (b' & Hb & Hc). apply bind_ok in Hc as (e' & He & Hc). injection Hc as <-.
      destruct (ended_one _ _ _ _ _ k b' c st H Hb) as (v & st1 & G1 & G2 & G3); [eapply fine_part; [exact Fi|left; reflexivity]|exact Er|exact Sr|].
      exists k, (("", v) :: c), st1, e'. split.
      + split; [exact He|]. split; [eapply fine_part; [exact Fi|right; left; reflexivity]|]. split; [|exact G3].
        apply env_hide; [exact Er|apply empty_hidden].
      + left. split; [lia|]. eapply leads_then; [|exact G1|]; intros cl st' X; [cbn; rewrite X; reflexivity|intros X'; cbn; rewrite X; exact X'].
    - destruct Co as (Hc & Fi & Er & Sr). destruct k as [|[|k]]; [discriminate|discriminate|]. cbn [HirMir.compile compile_binary boolean_operation] in Hc.
      apply bind_ok in Hc as (mc & Hmc & Hc). apply bind_ok in Hc as (ma & Ha & Hc). apply bind_ok in Hc as (mb & Hb & Hc). injection Hc as <-.
      destruct (ended_one _ _ _ _ _ k mc c st H Hmc) as (v & st1 & G1 & G2 & G3); [eapply fine_part; [exact Fi|left; reflexivity]|exact Er|exact Sr|]. inversion G2; subst.
      exists k, c, st1, ma. split; [split; [exact Ha|split; [eapply fine_part; [exact Fi|right; left; reflexivity]|split; assumption]]|].
      left. split; [lia|]. eapply leads_then; [|exact G1|]; intros cl st' X; [cbn; rewrite X; reflexivity|intros X'; cbn; rewrite X; exact X'].
    - destruct Co as (Hc & Fi & Er & Sr). destruct k as [|[|k]]; [discriminate|discriminate|]. cbn [HirMir.compile compile_binary boolean_operation] in Hc.
      apply bind_ok in Hc as (mc & Hmc & Hc). apply bind_ok in Hc as (ma & Ha & Hc). apply bind_ok in Hc as (mb & Hb & Hc). injection Hc as <-.
      destruct (ended_one _ _ _ _ _ k mc c st H Hmc) as (v & st1 & G1 & G2 & G3); [eapply fine_part; [exact Fi|left; reflexivity]|exact Er|exact Sr|]. inversion G2; subst.
      exists k, c, st1, mb. split; [split; [exact Hb|split; [eapply fine_part; [exact Fi|right; left; reflexivity]|split; assumption]]|].
      left. split; [lia|]. eapply leads_then; [|exact G1|]; intros cl st' X; [cbn; rewrite X; reflexivity|intros X'; cbn; rewrite X; exact X'].
    - destruct Co as (Hc & Fi & Er & Sr). eapply (proj1 (equality_follows k s rho t op l r c st me Ba Hc Fi Er Sr)).
    - destruct Co as (Hc & Fi & Er & Sr). eapply (proj2 (equality_follows k s rho t op l r c st me Ba Hc Fi Er Sr)); eassumption.
  Qed.

  (** ** Endless runs *)
  Definition endless (q : nat -> pending) : Prop := forall i, goes_on (q i) (q (S i)).
  Lemma endless_later q : endless q -> endless (fun i => q (S i)).
  Proof. intros H i. apply H. Qed.

  Lemma endless_code d : forall k q c st me, endless q -> coded (q 0) k c st me ->
    exists j st' stj, eval Lexical w m (call Lexical w m d) c st me = Timeout st' /\ later st' stj /\ state_rep (reached (q j)) stj.
  Proof.
    induction d as [d IHd] using (well_founded_induction Wf_nat.lt_wf).
    induction k as [k IHk] using (well_founded_induction Wf_nat.lt_wf). intros q c st me H Co.
    destruct (goes_on_follows _ _ (H 0) _ _ _ _ Co) as (k1 & c1 & st1 & me1 & Co1 & D).
    assert (S1 : state_rep (reached (q 1)) st1) by (destruct (q 1) as [[s' r'] e']; apply Co1).
    assert (K : forall (d' : nat), leads d' c st me c1 st1 me1 ->
      (forall d2, d = d' + d2 -> exists j st' stj, eval Lexical w m (call Lexical w m d2) c1 st1 me1 = Timeout st' /\ later st' stj /\ state_rep (reached (q (S j))) stj) ->
      exists j st' stj, eval Lexical w m (call Lexical w m d) c st me = Timeout st' /\ later st' stj /\ state_rep (reached (q j)) stj).
    { intros d' (_ & n0 & L) K. destruct (L d) as [(_ & st' & Td & Gd)|(d2 & Q & Tr)]; [exists 1, st', st1; auto|].
      destruct (K d2 Q) as (j & st' & stj & A1 & A2 & A3). exists (S j), st', stj. split; [apply Tr, A1|]. split; assumption. }
    destruct D as [(Lk & D)|D]; apply (K _ D); intros d2 ->.
    - apply (IHk k1 Lk (fun i => q (S i)) c1 st1 me1); [apply endless_later, H|exact Co1].
    - apply (IHd d2 ltac:(lia) k1 (fun i => q (S i)) c1 st1 me1); [apply endless_later, H|exact Co1].
  Qed.

  Lemma endless_reaches i : forall k q c st me, endless q -> coded (q 0) k c st me ->
    exists sti, state_rep (reached (q i)) sti /\
      exists n0, forall d, n0 <= d -> exists st', eval Lexical w m (call Lexical w m d) c st me = Timeout st' /\ later sti st'.
  Proof.
    induction i as [|i IH]; intros k q c st me H Co.
    - exists st. split; [destruct (q 0) as [[s r] e]; apply Co|]. exists 0. intros d _. destruct (endless_code d k q c st me H Co) as (j & st' & stj & A1 & _). exists st'. split; [exact A1|].
      pose proof (grow_eval Lexical w m _ (grow_calls Lexical w m d) me c st) as G. rewrite A1 in G. exact G.
    - destruct (goes_on_follows _ _ (H 0) _ _ _ _ Co) as (k1 & c1 & st1 & me1 & Co1 & D).
      destruct (IH k1 (fun i => q (S i)) c1 st1 me1 (endless_later _ H) Co1) as (sti & A1 & n1 & A2). exists sti. split; [exact A1|].
      assert (K : forall d', leads d' c st me c1 st1 me1 -> exists n0, forall d, n0 <= d -> exists st', eval Lexical w m (call Lexical w m d) c st me = Timeout st' /\ later sti st').
      { intros d' (_ & n0 & L). exists (Nat.max n0 (d' + n1)). intros d Hd. destruct (L d) as [(Ld & _)|(d2 & -> & Tr)]; [lia|].
        destruct (A2 d2 ltac:(lia)) as (st' & B1 & B2). exists st'. split; [apply Tr, B1|exact B2]. }
      destruct D as [(_ & D)|D]; apply (K _ D).
  Qed.

  Lemma never_ends_runs s g us q g' vs st : never_ends E own p w outer s g us q -> rep g g' -> Forall2 rep us vs -> state_rep s st ->
    (forall d, exists j st' stj, call Lexical w m d st g' vs = Timeout st' /\ later st' stj /\ state_rep (reached (q j)) stj) /\
    (forall i, exists sti, state_rep (reached (q i)) sti /\
      exists n0, forall d, n0 <= d -> exists st', call Lexical w m d st g' vs = Timeout st' /\ later sti st').
  Proof.
    intros (En & H) Rg Rs Sr. destruct (entered s g us (q 0) g' vs st En Rg Rs Sr) as (k & c & me & Co & K). split.
    - intros [|d].
      + exists 0, st, st. split; [reflexivity|]. split; [apply later_refl|]. destruct (q 0) as [[s' r] e]; apply Co.
      + destruct (endless_code d k q c st me H Co) as (j & st' & stj & A1 & A2). exists j, st', stj. split; [apply K, A1|exact A2].
    - intros i. destruct (endless_reaches i k q c st me H Co) as (sti & A1 & n0 & A2). exists sti. split; [exact A1|]. exists (S n0).
      intros [|d] L; [lia|]. destruct (A2 d ltac:(lia)) as (st' & B1 & B2). exists st'. split; [apply K, B1|exact B2].
  Qed.
End Forever.

(** ** The calls of an evaluation that goes on *)
Section Calls.
  Variable E : tenv.
  Variable own : renv.
  Variable p : hmodule.
  Variable w : world.
  Variable outer : list (string * list hvalue) -> string -> list hvalue -> hvalue -> Prop.

  Definition calls_more (s s' : hstate) : Prop := exists l, calls s' = (calls s ++ l)%list.
  Lemma calls_more_refl s : calls_more s s.
  Proof. exists []. rewrite app_nil_r. reflexivity. Qed.
  Lemma calls_more_trans a b c : calls_more a b -> calls_more b c -> calls_more a c.
  Proof. intros (l & H) (l' & H'). exists (l ++ l')%list. rewrite H', H, app_assoc. reflexivity. Qed.

  Lemma calls_grow :
    (forall s rho e o s', ev E own p w outer s rho e o s' -> calls_more s s') /\
    (forall s rho es r s', evs E own p w outer s rho es r s' -> calls_more s s') /\
    (forall s g us v s', applies E own p w outer s g us v s' -> calls_more s s').
  Proof.
    apply (ev_mutual E own p w outer (fun s _ _ _ s' => calls_more s s') (fun s _ _ _ s' => calls_more s s') (fun s _ _ _ s' => calls_more s s'));
      intros; try assumption; try apply calls_more_refl; try (eapply calls_more_trans; eassumption).
    exists [(g, us)]. reflexivity.
  Qed.
  Lemma goes_on_calls q q' : goes_on E own p w outer q q' -> calls_more (reached q) (reached q').
  Proof.
    intros G. destruct G as [s rho e before e1 after us s1 O H|s rho ft ts r g args u us s1 q N Q L H En|s rho c0 a b x s1 H|s rho x a bs els t u s1 bt body v H Ft Op
      |s rho x t b e u s1 H|s rho t b e u s1 H|s rho l r s1 H|s rho l r s1 H|s rho t op l r Ba|s rho t op l r a x s1 Ba H Hb];
      cbn [reached fst]; try apply (proj1 (proj2 calls_grow) _ _ _ _ _ H).
    - apply (proj1 (proj2 calls_grow)) in H. destruct En; exact H.
    - apply calls_more_refl.
  Qed.
  Lemma endless_calls q : endless E p w outer own q -> forall i j, i <= j -> calls_more (reached (q i)) (reached (q j)).
  Proof.
    intros H i j L. induction L as [|j L IH]; [apply calls_more_refl|]. eapply calls_more_trans; [exact IH|apply goes_on_calls, H].
  Qed.
End Calls.
