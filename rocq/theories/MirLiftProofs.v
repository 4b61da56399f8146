(** Lambda lifting preserves behaviour. *)
From Coq Require Import String List Bool Arith Lia.
From Verif Require Import Base Mir MirSpec MirSim Names MirScopeSpec MirNormSpec MirLiftSpec
  MirEnv MirEnvProofs MirAlpha MirUniq MirConcatProofs MirLift.
Import ListNotations.

(** ** Names *)
Definition plain (x : string) : Prop := ~ lifted_name x.
Definition saved (x : string) : Prop := exists y i, x = saved_name y i.
Definition is_lift_name (x : string) : Prop := exists s, x = ("mir:lift:" ++ s)%string.

Lemma saved_not_plain z : saved z -> plain z -> False.
Proof. intros (y & i & ->) H. apply H. left. exists y, i. reflexivity. Qed.

Lemma lift_name_not_plain g : is_lift_name g -> plain g -> False.
Proof. intros (s & ->) H. apply H. right. eauto. Qed.

Lemma saved_not_lift z : saved z -> is_lift_name z -> False.
Proof. intros (y & i & ->) (s & E). unfold saved_name, numbered in E. cbn in E. discriminate. Qed.

Lemma saved_name_inj x y i j : saved_name x i = saved_name y j -> i = j.
Proof. intros E. apply numbered_inj in E. apply E. Qed.

Lemma first_colon_inj a : forall b s t, has_colon a = false -> has_colon b = false ->
  (a ++ ":" ++ s = b ++ ":" ++ t)%string -> a = b.
Proof.
  induction a as [|c a IH]; intros [|c' b] s t Ha Hb E; cbn in *; try reflexivity.
  - injection E as <- _. cbn in Hb. discriminate.
  - injection E as -> _. cbn in Ha. discriminate.
  - injection E as -> E. apply Bool.orb_false_iff in Ha as [_ Ha], Hb as [_ Hb].
    f_equal. eapply IH; eassumption.
Qed.

Lemma lift_name_inj i j f g : lift_name i f = lift_name j g -> i = j.
Proof.
  unfold lift_name. cbn. intros E. injection E as E. apply decimal_inj.
  eapply first_colon_inj; [apply decimal_no_colon..|exact E].
Qed.

(** ** The relation between an expression and its transformation

    [G] lists the functions in scope whose calls pass their captured variables:
    the name of the lifted function and the names of the variables passed. *)
Definition pending := list (string * (string * list string)).

Definition sane (d : fdef) : Prop :=
  NoDup (f_name d :: map fst (f_args d) ++ map fst (f_env d)) /\
  forall x, In x (f_name d :: map fst (f_args d) ++ map fst (f_env d)) -> plain x.

Section All2.
  Context {A B : Type}.
  Variable R : A -> B -> Prop.
  Fixpoint all2 (l : list A) (l' : list B) : Prop :=
    match l, l' with
    | [], [] => True
    | a :: l, a' :: l' => R a a' /\ all2 l l'
    | _, _ => False
    end.
End All2.

Definition new_names (G : pending) (zs : list string) : Prop :=
  NoDup zs /\ forall z, In z zs -> saved z /\ forall f g us, lookup G f = Some (g, us) -> ~ In z us.

Section Relation.
  Variable L : list fdef.

  Fixpoint rel (G : pending) (e e' : expr) {struct e} : Prop :=
    match e with
    | Lit l => e' = Lit l
    | Var x => e' = Var x /\ plain x /\ lookup G x = None
    | Op o es =>
        (exists es', e' = Op o es' /\ all2 (rel G) es es') \/
        match es with
        | [] => False
        | e0 :: args =>
            exists f ts t g zs ts' args',
              e0 = Var f /\ o = OCall ts t /\ lookup G f = Some (g, zs) /\ length ts' = length zs /\
              e' = Op (OCall (ts ++ ts') t) (Var f :: args' ++ map Var zs) /\ all2 (rel G) args args'
        end
    | If c t e =>
        exists c' t' e1, e' = If c' t' e1 /\ rel G c c' /\ rel G t t' /\ rel G e e1
    | Case a alts de =>
        exists a' alts' de', e' = Case a' alts' de' /\ rel G a a' /\
          all2 (fun al al' => a_types al' = a_types al /\ a_name al' = a_name al /\ plain (a_name al) /\
                              lookup G (a_name al) = None /\ rel G (a_body al) (a_body al')) alts alts' /\
          match de with
          | None => de' = None
          | Some (x, e) => exists e1, de' = Some (x, e1) /\ plain x /\ lookup G x = None /\ rel G e e1
          end
    | Let x t b e =>
        exists b' e1, e' = Let x t b' e1 /\ plain x /\ lookup G x = None /\ rel G b b' /\ rel G e e1
    | LetRec d e =>
        sane d /\ lookup G (f_name d) = None /\ (forall x, In x (map fst (f_env d)) -> lookup G x = None) /\
        ((exists b' e1, e' = LetRec (set_body d b') e1 /\ rel [] (f_body d) b' /\ rel G e e1) \/
         f_thunk d = false /\
         ((exists g b' e1, f_env d = [] /\
             In (Fdef g [] (f_args d) (f_result d) (Let (f_name d) (f_type d) (Var g) b') false) L /\
             e' = Let (f_name d) (f_type d) (Var g) e1 /\ rel [] (f_body d) b' /\ rel G e e1) \/
          (exists g b' e1 zs T T', length zs = length (f_env d) /\ new_names G (map fst zs) /\
             In (Fdef g [] (f_args d ++ f_env d) (f_result d)
                      (Let (f_name d) T (Var g) (save_variables (f_env d) zs b')) false) L /\
             e' = Let (f_name d) T' (Var g) (save_variables (f_env d) zs e1) /\
             rel [(f_name d, (g, map fst zs))] (f_body d) b' /\
             rel ((f_name d, (g, map fst zs)) :: G) e e1)))
    | Try o x t e =>
        exists o' e1, e' = Try o' x t e1 /\ plain x /\ lookup G x = None /\ rel G o o' /\ rel G e e1
    | CloneVars xs e => exists e1, e' = CloneVars xs e1 /\ rel G e e1
    | DropVars xs e => exists e1, e' = DropVars xs e1 /\ rel G e e1
    end.

  Lemma all2_impl {A B} (R R' : A -> B -> Prop) l : forall l',
    Forall (fun a => forall b, R a b -> R' a b) l -> all2 R l l' -> all2 R' l l'.
  Proof.
    induction l as [|a l IH]; intros [|b l'] H; cbn; auto. apply Forall_cons_iff in H as [H1 H2].
    intros [H3 H4]. auto.
  Qed.

  Lemma rel_ext e : forall G G' e', (forall x, lookup G x = lookup G' x) -> rel G e e' -> rel G' e e'.
  Proof.
    induction e as [l|x|o es IH|c t e IHc IHt IHe|a alts de IHa IHalts IHde|x t b e IHb IHe
                    |d e IHd IHe|o x t e IHo IHe|xs e IHe|xs e IHe] using expr_ind';
      intros G G' e' HG; cbn [rel]; rewrite <- ?HG.
    - auto.
    - auto.
    - assert (Hall : forall es es', Forall (fun e => forall G G' e', (forall x, lookup G x = lookup G' x) ->
                                       rel G e e' -> rel G' e e') es ->
                                    all2 (rel G) es es' -> all2 (rel G') es es').
      { intros es1 es1' H1. apply all2_impl. eapply Forall_impl; [|exact H1]. cbn. eauto. }
      intros [(es' & -> & H)|H]; [left|right].
      + exists es'. eauto.
      + destruct es as [|e0 args]; [assumption|]. apply Forall_cons_iff in IH as [_ IH].
        destruct H as (f & ts & t & g & zs & ts' & args' & H1 & H2 & H3 & H4 & H5 & H6).
        rewrite HG in H3. do 7 eexists. eauto 10.
    - intros (c' & t' & e1 & -> & H1 & H2 & H3). do 3 eexists. eauto 10.
    - intros (a' & alts' & de' & -> & H1 & H2 & H3). do 3 eexists. split; [reflexivity|].
      split; [eauto|]. split.
      + revert H2. apply all2_impl. eapply Forall_impl; [|exact IHalts]. cbn. intros al Hal al'.
        rewrite <- HG. intuition eauto.
      + destruct de as [[x e]|]; [|assumption]. rewrite <- HG.
        destruct H3 as (e1 & -> & H3 & H4 & H5). exists e1. repeat split; auto.
        eapply IHde; eauto.
    - intros (b' & e1 & -> & H1 & H2 & H3 & H4). do 2 eexists. eauto 10.
    - intros (H1 & H2 & H3 & H4). split; [assumption|]. split; [assumption|].
      split; [intros x Hx; rewrite <- HG; auto|].
      destruct H4 as [(b' & e1 & -> & H4 & H5)|(Ht & [(g & b' & e1 & He & HL & -> & H4 & H5)|
        (g & b' & e1 & zs & T & T' & Hl & Hz & HL & -> & H4 & H5)])].
      + left. do 2 eexists. eauto.
      + right. split; [assumption|]. left. exists g, b', e1. eauto 10.
      + right. split; [assumption|]. right. exists g, b', e1, zs, T, T'. repeat split; auto.
        * apply Hz.
        * apply Hz. assumption.
        * intros f g' us. rewrite <- HG. apply Hz. assumption.
        * eapply IHe; [|eassumption]. intros x. cbn. destruct (String.eqb x (f_name d)); auto.
    - intros (o' & e1 & -> & H1 & H2 & H3 & H4). do 2 eexists. eauto 10.
    - intros (e1 & -> & H). eauto.
    - intros (e1 & -> & H). eauto.
  Qed.

  (** ** Passing the captured variables of one more function *)
  Lemma add_arguments_vars f zs us : map (add_arguments f zs) (map Var us) = map Var us.
  Proof. rewrite map_map. reflexivity. Qed.

  Lemma save_binders env : forall zs e, length zs = length env ->
    binders (save_variables env zs e) = map fst zs ++ binders e.
  Proof.
    induction env as [|[x t] env IH]; intros [|[z u] zs] e H; try discriminate; cbn; [reflexivity|].
    rewrite IH by (cbn in H; lia). reflexivity.
  Qed.

  Lemma save_boxed f env : forall zs e, length zs = length env -> ~ In f (map fst zs) ->
    is_boxed f (save_variables env zs e) = false ->
    ~ In f (map fst env) /\ is_boxed f e = false.
  Proof.
    induction env as [|[x t] env IH]; intros [|[z u] zs] e H Hf; try discriminate; cbn; [auto|].
    intros E. apply Bool.orb_false_iff in E as [E1 E2].
    cbn in Hf. destruct (String.eqb_spec z f) as [->|_]; [tauto|]. cbn in E2.
    apply String.eqb_neq in E1. destruct (IH zs e) as [H1 H2]; auto. intuition.
  Qed.

  Lemma save_add f ws env : forall zs e, length zs = length env -> ~ In f (map fst zs) ->
    add_arguments f ws (save_variables env zs e) = save_variables env zs (add_arguments f ws e).
  Proof.
    induction env as [|[x t] env IH]; intros [|[z u] zs] e H Hf; try discriminate; cbn; [reflexivity|].
    cbn in Hf. destruct (String.eqb_spec z f) as [->|_]; [tauto|]. rewrite IH; auto.
  Qed.

  Lemma rel_var G e x : rel G e (Var x) -> e = Var x.
  Proof.
    destruct e; cbn [rel]; try (intros (? & ? & ? & E & _); discriminate);
      try (intros (? & ? & E & _); discriminate); try (intros (? & E & _); discriminate).
    - discriminate.
    - intros (E & _). congruence.
    - intros [(? & E & _)|H]; [discriminate|]. destruct es; [destruct H|].
      destruct H as (? & ? & ? & ? & ? & ? & ? & _ & _ & _ & _ & E & _). discriminate.
    - intros (_ & _ & _ & [(? & ? & E & _)|(_ & [(? & ? & ? & _ & _ & E & _)|(? & ? & ? & ? & ? & ? & _ & _ & _ & E & _)])]);
        discriminate.
  Qed.

  Lemma rel_add f g zs (Hf : plain f) (Hz : forall z, In z (map fst zs) -> saved z) e : forall G e',
    rel G e e' -> lookup G f = None -> ~ In f (binders e) -> is_boxed f e' = false ->
    (forall z, In z (map fst zs) -> ~ In z (binders e')) ->
    rel ((f, (g, map fst zs)) :: G) e (add_arguments f zs e').
  Proof.
    assert (Hlook : forall G x, x <> f -> lookup ((f, (g, map fst zs)) :: G) x = lookup G x).
    { intros G x Hx. cbn. apply String.eqb_neq in Hx. rewrite Hx. reflexivity. }
    induction e as [l|x|o es IH|c t e IHc IHt IHe|a alts de IHa IHalts IHde|x t b e IHb IHe
                    |d e IHd IHe|o x t e IHo IHe|xs e IHe|xs e IHe] using expr_ind';
      intros G e' HR HG Hfb Hbox Hzb; cbn [rel] in HR.
    - subst e'. reflexivity.
    - destruct HR as (-> & H1 & H2). cbn [is_boxed] in Hbox. apply String.eqb_neq in Hbox.
      cbn [add_arguments rel]. rewrite Hlook by assumption. auto.
    - assert (Hall : forall es es', Forall (fun e => forall G e', rel G e e' -> lookup G f = None ->
                        ~ In f (binders e) -> is_boxed f e' = false ->
                        (forall z, In z (map fst zs) -> ~ In z (binders e')) ->
                        rel ((f, (g, map fst zs)) :: G) e (add_arguments f zs e')) es ->
                      all2 (rel G) es es' -> ~ In f (flat_map binders es) -> existsb (is_boxed f) es' = false ->
                      (forall z, In z (map fst zs) -> ~ In z (flat_map binders es')) ->
                      all2 (rel ((f, (g, map fst zs)) :: G)) es (map (add_arguments f zs) es')).
      { clear -HG. induction es as [|e es IH]; intros [|e' es'] HI; cbn; auto.
        apply Forall_cons_iff in HI as [HI1 HI2]. rewrite in_app_iff. intros [H1 H2] H3 H4 H5.
        apply Bool.orb_false_iff in H4 as [H4 H6]. split.
        - apply HI1; auto. intros z Hz1 Hz2. apply (H5 z Hz1). rewrite in_app_iff. auto.
        - apply IH; auto. intros z Hz1 Hz2. apply (H5 z Hz1). rewrite in_app_iff. auto. }
      cbn [binders] in Hfb.
      destruct HR as [(es' & -> & H)|HR].
      + assert (Hgen : existsb (is_boxed f) es' = false ->
                  rel ((f, (g, map fst zs)) :: G) (Op o es) (Op o (map (add_arguments f zs) es'))).
        { intros Hb. cbn [rel]. left. exists (map (add_arguments f zs) es'). split; [reflexivity|].
          apply Hall; auto. }
        destruct o as [ | | | | | | | | |ts t]; try (apply Hgen; exact Hbox).
        cbn [is_boxed] in Hbox. cbn [add_arguments].
        destruct es' as [|e0 args']; [apply Hgen; exact Hbox|].
        destruct e0 as [ |x| | | | | | | | ]; try (apply Hgen; exact Hbox).
        destruct es as [|e0 args]; [destruct H|]. destruct H as [H0 H].
        apply Forall_cons_iff in IH as [_ IH]. cbn in Hfb.
        pose proof (rel_var _ _ _ H0) as ->. cbn [rel] in H0. destruct H0 as (_ & Hp & Hx).
        assert (Hargs : all2 (rel ((f, (g, map fst zs)) :: G)) args (map (add_arguments f zs) args'))
          by (apply Hall; auto).
        destruct (String.eqb_spec x f) as [->|Hne].
        * right. exists f, ts, t, g, (map fst zs), (map snd zs), (map (add_arguments f zs) args').
          split; [reflexivity|]. split; [reflexivity|]. cbn [lookup]. rewrite String.eqb_refl.
          split; [reflexivity|]. rewrite !map_length. split; [reflexivity|].
          rewrite map_map. auto.
        * left. eexists. split; [reflexivity|]. cbn [all2]. split; [|assumption].
          cbn [rel]. rewrite Hlook by assumption. auto.
      + destruct es as [|e0 args]; [destruct HR|].
        destruct HR as (f2 & ts & t & g2 & us & ts' & args' & -> & -> & H3 & H4 & -> & H6).
        apply Forall_cons_iff in IH as [_ IH].
        assert (Hne : f2 <> f) by congruence.
        cbn [add_arguments]. rewrite (proj2 (String.eqb_neq f2 f) Hne), map_app, add_arguments_vars.
        cbn [is_boxed] in Hbox. rewrite existsb_app in Hbox. apply Bool.orb_false_iff in Hbox as [Hbox _].
        right. exists f2, ts, t, g2, us, ts', (map (add_arguments f zs) args').
        split; [reflexivity|]. split; [reflexivity|]. rewrite Hlook by assumption.
        split; [assumption|]. split; [assumption|]. split; [reflexivity|].
        apply Hall; auto. intros z Hz1 Hz2. apply (Hzb z Hz1). cbn. rewrite flat_map_app, in_app_iff. auto.
    - destruct HR as (c' & t' & e1 & -> & H1 & H2 & H3).
      cbn [is_boxed] in Hbox. apply Bool.orb_false_iff in Hbox as [Hbox B3].
      apply Bool.orb_false_iff in Hbox as [B1 B2].
      cbn [binders] in Hfb, Hzb. rewrite !in_app_iff in Hfb.
      cbn [add_arguments rel]. do 3 eexists. split; [reflexivity|].
      assert (Hsub : forall l, incl l (binders c' ++ binders t' ++ binders e1) ->
                 forall z, In z (map fst zs) -> ~ In z l) by (intros l Hl z H5 H6; apply (Hzb z H5), Hl, H6).
      split; [|split]; [apply IHc|apply IHt|apply IHe]; auto; apply Hsub; intros z; rewrite !in_app_iff; auto.
    - destruct HR as (a' & alts' & de' & -> & H1 & H2 & H3).
      cbn [is_boxed] in Hbox. apply Bool.orb_false_iff in Hbox as [Hbox B3].
      apply Bool.orb_false_iff in Hbox as [B1 B2].
      cbn [binders] in Hfb, Hzb. rewrite !in_app_iff in Hfb.
      assert (Hz2 : forall z, In z (map fst zs) ->
                ~ In z (binders a') /\ ~ In z (flat_map (fun al => a_name al :: binders (a_body al)) alts') /\
                ~ In z match de' with Some (x, e) => x :: binders e | None => [] end).
      { intros z Hz1. specialize (Hzb z Hz1). rewrite !in_app_iff in Hzb. tauto. }
      clear Hzb. cbn [add_arguments rel]. do 3 eexists. split; [reflexivity|]. split; [|split].
      + apply IHa; auto. intros z Hz1. apply (Hz2 z Hz1).
      + assert (Hz3 : forall z, In z (map fst zs) -> ~ In z (flat_map (fun al => a_name al :: binders (a_body al)) alts'))
          by (intros z Hz1; apply (Hz2 z Hz1)).
        assert (Hfb2 : ~ In f (flat_map (fun al => a_name al :: binders (a_body al)) alts)) by tauto.
        clear H3 Hfb B1 B3 Hz2 IHa IHde H1.
        revert alts' H2 B2 Hz3 Hfb2. induction alts as [|al alts IH]; intros [|al' alts'] H2 B2 Hz3 Hfb2; cbn in *; auto.
        destruct H2 as [(H2 & H3 & H4 & H5 & H6) H7]. apply Forall_cons_iff in IHalts as [I1 I2].
        apply Bool.orb_false_iff in B2 as [B1 B2]. rewrite in_app_iff in Hfb2.
        assert (Hne : a_name al <> f) by tauto. rewrite H3 in *.
        rewrite (proj2 (String.eqb_neq _ _) Hne) in *. cbn in B1. split.
        * repeat split; auto. apply I1; auto.
          intros z Hz1 Hz4. apply (Hz3 z Hz1). right. rewrite in_app_iff. auto.
        * apply IH; auto. intros z Hz1 Hz4. apply (Hz3 z Hz1). right. rewrite in_app_iff. auto.
      + destruct de as [[x e]|]; [|subst de'; reflexivity].
        destruct H3 as (e1 & -> & H3 & H4 & H5). cbn in Hfb.
        assert (Hne : x <> f) by tauto. rewrite (proj2 (String.eqb_neq _ _) Hne) in *. cbn in B3.
        eexists. split; [reflexivity|]. split; [assumption|]. rewrite Hlook by assumption.
        split; [assumption|]. apply (IHde x e eq_refl); auto; [tauto|].
        intros z Hz1 Hz4. destruct (Hz2 z Hz1) as (_ & _ & Hz5). apply Hz5. right. assumption.
    - destruct HR as (b' & e1 & -> & H1 & H2 & H3 & H4). cbn [is_boxed] in Hbox.
      apply Bool.orb_false_iff in Hbox as [B1 B2]. cbn [binders In] in Hfb, Hzb.
      setoid_rewrite in_app_iff in Hzb. rewrite in_app_iff in Hfb.
      assert (Hne : x <> f) by tauto. cbn [add_arguments]. rewrite (proj2 (String.eqb_neq _ _) Hne) in *.
      cbn [rel]. rewrite Hlook by assumption. do 2 eexists. split; [reflexivity|].
      split; [assumption|]. split; [assumption|].
      split; [apply IHb|apply IHe]; auto; intros z Hz1 Hz2; apply (Hzb z Hz1); auto.
    - destruct HR as (H1 & H2 & H3 & H4). cbn [binders In] in Hfb. rewrite !in_app_iff in Hfb.
      assert (Hne : f_name d <> f) by tauto.
      cbn [rel]. rewrite Hlook by assumption. split; [assumption|]. split; [assumption|].
      destruct H4 as [(b' & e1 & -> & H4 & H5)|(Ht & [(g2 & b' & e1 & He & HL & -> & H4 & H5)|
        (g2 & b' & e1 & us & T & T' & Hl & Hu & HL & -> & H4 & H5)])].
      + cbn [is_boxed f_env f_name set_body] in Hbox. apply Bool.orb_false_iff in Hbox as [B1 B2].
        apply mem_false in B1. rewrite (proj2 (String.eqb_neq _ _) Hne) in B2. split.
        { intros x Hx. rewrite Hlook; [auto|]. intros ->. contradiction. }
        left. cbn [add_arguments f_name set_body]. rewrite (proj2 (String.eqb_neq _ _) Hne).
        do 2 eexists. split; [reflexivity|]. split; [assumption|].
        apply IHe; auto; [tauto|]. intros z Hz1 Hz2. apply (Hzb z Hz1). cbn. rewrite !in_app_iff. auto.
      + cbn [is_boxed] in Hbox. apply Bool.orb_false_iff in Hbox as [B1 B2].
        rewrite (proj2 (String.eqb_neq _ _) Hne) in B2. split.
        { rewrite He. intros x []. }
        right. split; [assumption|]. left. cbn [add_arguments]. rewrite (proj2 (String.eqb_neq _ _) Hne).
        exists g2, b', (add_arguments f zs e1). repeat split; auto.
        apply IHe; auto; [tauto|]. intros z Hz1 Hz2. apply (Hzb z Hz1). cbn. auto.
      + cbn [is_boxed] in Hbox. apply Bool.orb_false_iff in Hbox as [B1 B2].
        rewrite (proj2 (String.eqb_neq _ _) Hne) in B2. cbn in B2.
        assert (Hfu : ~ In f (map fst us)).
        { intros Hin. eapply saved_not_plain; [apply Hu; exact Hin|assumption]. }
        apply save_boxed in B2 as [B2 B3]; auto. split.
        { intros x Hx. rewrite Hlook; [auto|]. intros ->. contradiction. }
        cbn [binders In] in Hzb. rewrite save_binders in Hzb by assumption. cbn in Hzb.
        right. split; [assumption|]. right. cbn [add_arguments]. rewrite (proj2 (String.eqb_neq _ _) Hne).
        rewrite save_add by assumption.
        exists g2, b', (add_arguments f zs e1), us, T, T'. split; [assumption|]. split.
        { split; [apply Hu|]. intros z Hz1. split; [apply Hu; assumption|].
          intros f2 g3 vs. cbn. destruct (String.eqb_spec f2 f) as [->|Hne2].
          - intros E. injection E as _ <-. intros Hz2. apply (Hzb z Hz2). rewrite in_app_iff. auto.
          - apply Hu. assumption. }
        split; [assumption|]. split; [reflexivity|]. split; [assumption|].
        apply rel_ext with (G := (f, (g, map fst zs)) :: (f_name d, (g2, map fst us)) :: G).
        { intros x. cbn. destruct (String.eqb_spec x f) as [->|]; [|reflexivity].
          destruct (String.eqb_spec f (f_name d)); [congruence|reflexivity]. }
        apply IHe; auto.
        * cbn. destruct (String.eqb_spec f (f_name d)); [congruence|assumption].
        * tauto.
        * intros z Hz1 Hz2. apply (Hzb z Hz1). rewrite in_app_iff. auto.
    - destruct HR as (b' & e1 & -> & H1 & H2 & H3 & H4). cbn [is_boxed] in Hbox.
      apply Bool.orb_false_iff in Hbox as [B1 B2]. cbn [binders In] in Hfb, Hzb.
      setoid_rewrite in_app_iff in Hzb. rewrite in_app_iff in Hfb.
      assert (Hne : x <> f) by tauto. cbn [add_arguments]. rewrite (proj2 (String.eqb_neq _ _) Hne) in *.
      cbn [rel]. rewrite Hlook by assumption. do 2 eexists. split; [reflexivity|].
      split; [assumption|]. split; [assumption|].
      split; [apply IHo|apply IHe]; auto; intros z Hz1 Hz2; apply (Hzb z Hz1); auto.
    - destruct HR as (e1 & -> & H). cbn [add_arguments rel]. eexists. split; [reflexivity|]. auto.
    - destruct HR as (e1 & -> & H). cbn [add_arguments rel]. eexists. split; [reflexivity|]. auto.
  Qed.
End Relation.

(** ** Parts of expressions *)
Lemma within_trans a b c : within a b -> within b c -> within a c.
Proof. intros H. induction 1; [assumption|..]; solve [econstructor; eauto]. Qed.

Lemma within_binders a e : within a e -> incl (binders a) (binders e).
Proof.
  induction 1; intros z Hz; try (apply IHwithin in Hz); cbn [binders]; auto;
    rewrite ?in_flat_map, ?in_app_iff; cbn [In]; rewrite ?in_app_iff, ?in_flat_map; eauto 7.
  right. left. exists al. split; [assumption|]. right. assumption.
Qed.

Lemma within_nodup a e : within a e -> NoDup (binders e) -> NoDup (binders a).
Proof.
  induction 1; intros N; cbn [binders] in N; auto; try (apply IHwithin); clear IHwithin.
  - eapply nodup_flat_map; eassumption.
  - apply nodup_app_iff in N. tauto.
  - apply nodup_app_iff in N as (_ & N & _). apply nodup_app_iff in N. tauto.
  - apply nodup_app_iff in N as (_ & N & _). apply nodup_app_iff in N. tauto.
  - apply nodup_app_iff in N. tauto.
  - apply nodup_app_iff in N as (_ & N & _). apply nodup_app_iff in N as (N & _).
    apply nodup_flat_map with (a := al) in N; [|assumption]. apply NoDup_cons_iff in N. tauto.
  - apply nodup_app_iff in N as (_ & N & _). apply nodup_app_iff in N as (_ & N & _).
    apply NoDup_cons_iff in N. tauto.
  - apply NoDup_cons_iff in N as [_ N]. apply nodup_app_iff in N. tauto.
  - apply NoDup_cons_iff in N as [_ N]. apply nodup_app_iff in N. tauto.
  - apply NoDup_cons_iff in N as [_ N]. apply nodup_app_iff in N as (_ & N & _).
    apply nodup_app_iff in N. tauto.
  - apply NoDup_cons_iff in N as [_ N]. apply nodup_app_iff in N as (_ & N & _).
    apply nodup_app_iff in N. tauto.
  - apply NoDup_cons_iff in N as [_ N]. apply nodup_app_iff in N. tauto.
  - apply NoDup_cons_iff in N as [_ N]. apply nodup_app_iff in N. tauto.
Qed.

Lemma name_in_within a e x : within a e -> name_in x a -> name_in x e.
Proof.
  intros H [H1|[H1|(d & e1 & H1 & H2)]].
  - left. eapply within_trans; eassumption.
  - right. left. eapply within_binders; eassumption.
  - right. right. exists d, e1. split; [|assumption]. eapply within_trans; eassumption.
Qed.

Definition fit (e : expr) : Prop :=
  NoDup (binders e) /\ (forall x, name_in x e -> plain x) /\
  forall d e1, within (LetRec d e1) e ->
    NoDup (f_name d :: map fst (f_args d) ++ map fst (f_env d)) /\ (f_thunk d = true -> f_env d <> []).

Lemma fit_within a e : within a e -> fit e -> fit a.
Proof.
  intros H (H1 & H2 & H3). split; [|split].
  - eapply within_nodup; eassumption.
  - intros x Hx. apply H2. eapply name_in_within; eassumption.
  - intros d e1 Hd. apply (H3 d e1). eapply within_trans; eassumption.
Qed.

Lemma fit_binder e x : fit e -> In x (binders e) -> plain x.
Proof. intros (_ & H & _) Hx. apply H. right. left. assumption. Qed.

Lemma fit_sane d e : fit (LetRec d e) -> sane d.
Proof.
  intros (H1 & H2 & H3). destruct (H3 d e (within_here _)) as [N _]. split; [assumption|].
  intros x Hx. apply H2. cbn in Hx. rewrite in_app_iff in Hx. destruct Hx as [Hx|[Hx|Hx]].
  - right. left. left. assumption.
  - right. left. right. rewrite in_app_iff. auto.
  - right. right. exists d, e. split; [constructor|assumption].
Qed.

(** ** The transformation satisfies the relation *)
Lemma saved_length env i : length (saved_variables env i) = length env.
Proof. unfold saved_variables. rewrite map_length, combine_length, seq_length. lia. Qed.

Lemma saved_bounds env : forall i z, In z (map fst (saved_variables env i)) ->
  exists x j, z = saved_name x j /\ i <= j < i + length env.
Proof.
  unfold saved_variables. induction env as [|[x t] env IH]; intros i z; cbn; [intros []|].
  intros [<-|H].
  - exists x, i. split; [reflexivity|]. lia.
  - destruct (IH _ _ H) as (y & j & -> & Hj). exists y, j. split; [reflexivity|]. lia.
Qed.

Lemma saved_nodup env : forall i, NoDup (map fst (saved_variables env i)).
Proof.
  induction env as [|[x t] env IH]; intros i; [constructor|].
  change (NoDup (saved_name x i :: map fst (saved_variables env (S i)))). constructor; [|apply IH].
  intros H. apply saved_bounds in H as (y & j & E & Hj). apply saved_name_inj in E. lia.
Qed.

Definition numbered_defs (ds : list fdef) : Prop :=
  forall i d, nth_error ds i = Some d -> exists f, f_name d = lift_name i f.

Lemma numbered_snoc ds d f : numbered_defs ds -> f_name d = lift_name (length ds) f -> numbered_defs (ds ++ [d]).
Proof.
  intros H Hd i d0 E. destruct (Nat.lt_ge_cases i (length ds)) as [Hi|Hi].
  - rewrite nth_error_app1 in E by assumption. eauto.
  - rewrite nth_error_app2 in E by assumption.
    destruct (i - length ds) as [|k] eqn:Ek; cbn in E.
    + injection E as <-. assert (i = length ds) by lia. subst i. eauto.
    + destruct k; discriminate.
Qed.

Section Transform.
  Variable L : list fdef.

  Record step (cx cx' : lift_context) : Prop := {
    st_defs : exists ds, l_defs cx' = l_defs cx ++ ds;
    st_index : l_index cx <= l_index cx';
    st_numbered : numbered_defs (l_defs cx) -> numbered_defs (l_defs cx')
  }.

  Lemma step_refl cx : step cx cx.
  Proof. split; auto. exists []. rewrite app_nil_r. reflexivity. Qed.

  Lemma step_trans a b c : step a b -> step b c -> step a c.
  Proof.
    intros [[d1 H1] H2 H3] [[d2 H4] H5 H6]. split; auto; [|lia].
    exists (d1 ++ d2). rewrite H4, H1, app_assoc. reflexivity.
  Qed.

  Lemma step_incl a b : step a b -> incl (l_defs b) L -> incl (l_defs a) L.
  Proof. intros [[ds H] _ _] Hi d Hd. apply Hi. rewrite H, in_app_iff. auto. Qed.

  (** The names bound in the result. *)
  Definition bound_in (cx cx' : lift_context) (old new : list string) : Prop :=
    forall z, In z new -> In z old \/ exists x i, z = saved_name x i /\ l_index cx <= i < l_index cx'.

  Lemma bound_wider a b a' b' old new :
    bound_in a b old new -> l_index a' <= l_index a -> l_index b <= l_index b' -> bound_in a' b' old new.
  Proof.
    intros H H1 H2 z Hz. destruct (H z Hz) as [H3|(x & i & H3 & H4)]; [auto|].
    right. exists x, i. split; [assumption|lia].
  Qed.

  Lemma bound_app a b o1 n1 o2 n2 :
    bound_in a b o1 n1 -> bound_in a b o2 n2 -> bound_in a b (o1 ++ o2) (n1 ++ n2).
  Proof.
    intros H1 H2 z Hz. rewrite in_app_iff in Hz |- *.
    destruct Hz as [Hz|Hz]; [destruct (H1 z Hz)|destruct (H2 z Hz)]; auto.
  Qed.

  Lemma bound_cons a b x o n : bound_in a b o n -> bound_in a b (x :: o) (x :: n).
  Proof. intros H z [<-|Hz]; [left; left; reflexivity|]. destruct (H z Hz); [left; right|]; auto. Qed.

  Lemma bound_refl a b o : bound_in a b o o.
  Proof. intros z Hz. auto. Qed.

  Definition lift_ok (e : expr) : Prop := forall cx e' cx', lift e cx = (e', cx') -> fit e ->
    step cx cx' /\ bound_in cx cx' (binders e) (binders e') /\
    (incl (l_defs cx') L -> rel L [] e e').

  (** Running transformations one after another. *)
  Lemma map_state_ok {A B} (f : A -> lift_context -> B * lift_context)
        (ba : A -> list string) (bb : B -> list string) (R : A -> B -> Prop) l :
    (forall a, In a l -> forall cx b cx', f a cx = (b, cx') ->
       step cx cx' /\ bound_in cx cx' (ba a) (bb b) /\ (incl (l_defs cx') L -> R a b)) ->
    forall cx l' cx', map_state f l cx = (l', cx') ->
      step cx cx' /\ bound_in cx cx' (flat_map ba l) (flat_map bb l') /\
      (incl (l_defs cx') L -> all2 R l l').
  Proof.
    induction l as [|a l IH]; intros H cx l' cx' E; cbn in E.
    - injection E as <- <-. split; [apply step_refl|]. split; [intros z []|]. cbn. auto.
    - destruct (f a cx) as [b cx1] eqn:E1. destruct (map_state f l cx1) as [bs cx2] eqn:E2.
      injection E as <- <-.
      destruct (H a (or_introl eq_refl) _ _ _ E1) as (S1 & B1 & R1).
      destruct (IH (fun a Ha => H a (or_intror Ha)) _ _ _ E2) as (S2 & B2 & R2).
      split; [eapply step_trans; eassumption|]. split.
      + cbn. apply bound_app; eapply bound_wider; eauto; try apply Nat.le_refl; apply st_index; assumption.
      + intros Hi. split; auto. apply R1. eapply step_incl; eassumption.
  Qed.

  Lemma lift_all_ok e : lift_ok e.
  Proof.
    induction e as [l|x|o es IH|c t e IHc IHt IHe|a alts de IHa IHalts IHde|x t b e IHb IHe
                    |d e IHd IHe|o x t e IHo IHe|xs e IHe|xs e IHe] using expr_ind';
      intros cx e' cx' E F; cbn [lift] in E.
    - injection E as <- <-. split; [apply step_refl|]. split; [apply bound_refl|]. reflexivity.
    - injection E as <- <-. split; [apply step_refl|]. split; [apply bound_refl|]. cbn. split; [reflexivity|].
      split; [|reflexivity]. apply F. left. constructor.
    - destruct (map_state lift es cx) as [es' cx1] eqn:E1. injection E as <- <-.
      apply map_state_ok with (ba := binders) (bb := binders) (R := rel L []) in E1 as (S1 & B1 & R1).
      2: { intros a Ha cx0 b cx2 E. rewrite Forall_forall in IH. apply (IH a Ha _ _ _ E).
           eapply fit_within; [|exact F]. eapply within_op; [exact Ha|constructor]. }
      split; [assumption|]. split; [assumption|]. intros Hi. cbn [rel]. left. eauto.
    - destruct (lift c cx) as [c' cx1] eqn:E1. destruct (lift t cx1) as [t' cx2] eqn:E2.
      destruct (lift e cx2) as [e1 cx3] eqn:E3. injection E as <- <-.
      destruct (IHc _ _ _ E1) as (S1 & B1 & R1); [eapply fit_within; [|exact F]; apply within_if_1; constructor|].
      destruct (IHt _ _ _ E2) as (S2 & B2 & R2); [eapply fit_within; [|exact F]; apply within_if_2; constructor|].
      destruct (IHe _ _ _ E3) as (S3 & B3 & R3); [eapply fit_within; [|exact F]; apply within_if_3; constructor|].
      pose proof (st_index _ _ S1). pose proof (st_index _ _ S2). pose proof (st_index _ _ S3).
      pose proof (step_trans _ _ _ S1 S2) as S12. pose proof (step_trans _ _ _ S12 S3) as S13.
      split; [assumption|]. split.
      + cbn [binders]. repeat apply bound_app; eapply bound_wider; eauto; lia.
      + intros Hi. cbn [rel]. do 3 eexists. split; [reflexivity|].
        pose proof (step_incl _ _ S3 Hi) as Hi2. pose proof (step_incl _ _ S2 Hi2). auto.
    - destruct (lift a cx) as [a' cx1] eqn:E1.
      destruct (IHa _ _ _ E1) as (S1 & B1 & R1); [eapply fit_within; [|exact F]; apply within_case_argument; constructor|].
      destruct (map_state _ alts cx1) as [alts' cx2] eqn:E2.
      apply map_state_ok with (ba := fun al => a_name al :: binders (a_body al))
        (bb := fun al => a_name al :: binders (a_body al))
        (R := fun al al' => a_types al' = a_types al /\ a_name al' = a_name al /\ plain (a_name al) /\
                lookup ([] : pending) (a_name al) = None /\ rel L [] (a_body al) (a_body al')) in E2 as (S2 & B2 & R2).
      2: { intros al Hal cx0 al' cx3 E'. destruct (lift (a_body al) cx0) as [b' cx4] eqn:E3.
           injection E' as <- <-. rewrite Forall_forall in IHalts.
           assert (Hw : within (a_body al) (Case a alts de)) by (eapply within_case_alternative; [exact Hal|constructor]).
           destruct ((IHalts al Hal) _ _ _ E3) as (S3 & B3 & R3); [eapply fit_within; [|exact F]; exact Hw|].
           split; [assumption|]. split; [apply bound_cons; assumption|]. intros Hi. cbn.
           repeat split; auto. eapply fit_binder; [exact F|]. cbn. rewrite !in_app_iff, in_flat_map.
           right. left. exists al. split; [assumption|left; reflexivity]. }
      pose proof (st_index _ _ S1). pose proof (st_index _ _ S2). pose proof (step_trans _ _ _ S1 S2) as S12.
      destruct de as [[x e]|].
      + destruct (lift e cx2) as [e1 cx3] eqn:E3. injection E as <- <-.
        destruct ((IHde x e eq_refl) _ _ _ E3) as (S3 & B3 & R3); [eapply fit_within; [|exact F]; apply within_case_default; constructor|].
        pose proof (st_index _ _ S3).
        split; [eapply step_trans; eassumption|]. split.
        * cbn [binders]. repeat apply bound_app; try apply bound_cons; eapply bound_wider; eauto; lia.
        * intros Hi. cbn [rel]. do 3 eexists. split; [reflexivity|].
          pose proof (step_incl _ _ S3 Hi) as Hi2. pose proof (step_incl _ _ S2 Hi2) as Hi1.
          split; [auto|]. split; [auto|]. eexists. split; [reflexivity|].
          split; [|auto]. eapply fit_binder; [exact F|]. cbn. rewrite !in_app_iff. cbn. auto.
      + injection E as <- <-. split; [assumption|]. split.
        * cbn [binders]. repeat apply bound_app; try apply bound_refl; eapply bound_wider; eauto; lia.
        * intros Hi. cbn [rel]. do 3 eexists. split; [reflexivity|].
          pose proof (step_incl _ _ S2 Hi) as Hi1. auto.
    - destruct (lift b cx) as [b' cx1] eqn:E1. destruct (lift e cx1) as [e1 cx2] eqn:E2.
      injection E as <- <-.
      destruct (IHb _ _ _ E1) as (S1 & B1 & R1); [eapply fit_within; [|exact F]; apply within_let_bound; constructor|].
      destruct (IHe _ _ _ E2) as (S2 & B2 & R2); [eapply fit_within; [|exact F]; apply within_let_body; constructor|].
      pose proof (st_index _ _ S1). pose proof (st_index _ _ S2).
      split; [eapply step_trans; eassumption|]. split.
      + cbn [binders]. apply bound_cons. apply bound_app; eapply bound_wider; eauto; lia.
      + intros Hi. cbn [rel]. do 2 eexists. split; [reflexivity|].
        pose proof (step_incl _ _ S2 Hi) as Hi1. repeat split; auto.
        eapply fit_binder; [exact F|]. left. reflexivity.
    - destruct (lift (f_body d) cx) as [b' cx1] eqn:E1. destruct (lift e cx1) as [e1 cx2] eqn:E2.
      destruct (IHd _ _ _ E1) as (S1 & B1 & R1); [eapply fit_within; [|exact F]; apply within_letrec_definition; constructor|].
      destruct (IHe _ _ _ E2) as (S2 & B2 & R2); [eapply fit_within; [|exact F]; apply within_letrec_body; constructor|].
      pose proof (st_index _ _ S1) as I1. pose proof (st_index _ _ S2) as I2.
      pose proof (step_trans _ _ _ S1 S2) as S12.
      pose proof (fit_sane _ _ F) as Hs.
      assert (Hname : ~ In (f_name d) (binders (f_body d)) /\ ~ In (f_name d) (binders e)).
      { destruct F as (N & _). cbn in N. apply NoDup_cons_iff in N as [N _]. rewrite !in_app_iff in N. tauto. }
      assert (Bkept : forall cx3, l_index cx2 <= l_index cx3 ->
                bound_in cx cx3 (binders (LetRec d e)) (f_name d :: binders e1)).
      { intros cx3 Hc z [<-|Hz]; [left; left; reflexivity|].
        destruct (B2 z Hz) as [H|(x & i & -> & H)].
        - left. right. rewrite !in_app_iff. auto.
        - right. exists x, i. split; [reflexivity|lia]. }
      unfold lift_letrec in E. cbn [f_env f_thunk f_body f_name f_args f_result] in E.
      destruct (f_env d) as [|ev env] eqn:Eenv.
      + cbn [add_function f_name f_env f_args f_result f_body f_thunk] in E. injection E as <- <-.
        assert (Ht : f_thunk d = false).
        { destruct F as (_ & _ & F3). destruct (F3 d e (within_here _)) as [_ F4].
          destruct (f_thunk d); [destruct F4; auto|reflexivity]. }
        split; [|split].
        * destruct S12 as [[ds S12] S13 S14]. split; cbn [l_defs l_index].
          -- eexists. rewrite S12, <- app_assoc. reflexivity.
          -- assumption.
          -- intros Hn. eapply numbered_snoc; [auto|]. reflexivity.
        * cbn [binders app]. apply (Bkept (Lifted _ _)). cbn. lia.
        * intros Hi. cbn [l_defs] in Hi.
          assert (Hi2 : incl (l_defs cx2) L) by (intros y Hy; apply Hi; rewrite in_app_iff; auto).
          pose proof (step_incl _ _ S2 Hi2) as Hi1.
          cbn [rel lookup]. split; [assumption|]. split; [reflexivity|]. split; [rewrite Eenv; intros x []|].
          right. split; [assumption|]. left. eexists _, b', e1. split; [assumption|]. split.
          { apply Hi. rewrite in_app_iff. right. left. rewrite Ht. reflexivity. }
          split; [reflexivity|]. auto.
      + rewrite <- Eenv in *. clear ev env Eenv.
        destruct (negb (f_thunk d) && negb (is_boxed (f_name d) b') && negb (is_boxed (f_name d) e1)) eqn:Hcond.
        * apply andb_prop in Hcond as [Hcond C3]. apply andb_prop in Hcond as [C1 C2].
          apply negb_true_iff in C1, C2, C3.
          cbn [add_function f_name f_env f_args f_result f_body f_thunk l_defs l_index] in E. injection E as <- <-.
          set (zs := saved_variables (f_env d) (l_index cx2)).
          pose proof (saved_length (f_env d) (l_index cx2)) as Hlen. fold zs in Hlen.
          assert (Hbounds : forall z, In z (map fst zs) -> exists x j, z = saved_name x j /\
                     l_index cx2 <= j < l_index cx2 + length (f_env d)) by apply saved_bounds.
          assert (Hsaved : forall z, In z (map fst zs) -> saved z).
          { intros z Hz. destruct (Hbounds z Hz) as (x & j & -> & _). exists x, j. reflexivity. }
          assert (Hp : plain (f_name d)) by (apply Hs; left; reflexivity).
          assert (Hfresh : forall cxa cxb old new, bound_in cxa cxb old new -> l_index cxb <= l_index cx2 ->
                     (forall x, In x old -> plain x) -> forall z, In z (map fst zs) -> ~ In z new).
          { intros cxa cxb old new HB HI HP z Hz Hz2. destruct (Hbounds z Hz) as (x & j & Ez & Hj).
            destruct (HB z Hz2) as [H|(y & i & Ei & Hi)].
            - eapply saved_not_plain; [apply Hsaved; exact Hz|auto].
            - rewrite Ez in Ei. apply saved_name_inj in Ei. lia. }
          assert (Hpb : forall x, In x (binders (f_body d)) -> plain x).
          { intros x Hx. eapply fit_binder; [exact F|]. cbn. rewrite !in_app_iff. auto. }
          assert (Hpe : forall x, In x (binders e) -> plain x).
          { intros x Hx. eapply fit_binder; [exact F|]. cbn. rewrite !in_app_iff. auto. }
          split; [|split].
          -- destruct S12 as [[ds S12] S13 S14]. split; cbn [l_defs l_index].
             ++ eexists. rewrite S12, <- app_assoc. reflexivity.
             ++ lia.
             ++ intros Hn. eapply numbered_snoc; [auto|]. reflexivity.
          -- cbn [binders app]. rewrite save_binders by assumption.
             assert (Badd : forall f ws e, binders (add_arguments f ws e) = binders e).
             { clear. intros f ws e.
               induction e as [l|x|o es IH|c t e IHc IHt IHe|a alts de IHa IHalts IHde|x t b e IHb IHe
                    |d e IHd IHe|o x t e IHo IHe|xs e IHe|xs e IHe] using expr_ind'; cbn [add_arguments binders].
               - reflexivity.
               - reflexivity.
               - assert (Hmap : forall es, Forall (fun e => binders (add_arguments f ws e) = binders e) es ->
                           flat_map binders (map (add_arguments f ws) es) = flat_map binders es).
                 { clear. induction 1 as [|e es H _ IH]; cbn; [reflexivity|]. rewrite H, IH. reflexivity. }
                 destruct o; try (cbn [binders]; apply Hmap; assumption).
                 destruct es as [|[] es]; try (cbn [binders]; apply Hmap; assumption).
                 apply Forall_cons_iff in IH as [_ IH].
                 destruct (String.eqb x f); cbn [binders flat_map app].
                 + rewrite flat_map_app, Hmap by assumption.
                   replace (flat_map binders (map (fun z => Var (fst z)) ws)) with (@nil string); [apply app_nil_r|].
                   clear. induction ws; cbn; auto.
                 + apply Hmap. assumption.
               - rewrite IHc, IHt, IHe. reflexivity.
               - rewrite IHa. f_equal. f_equal.
                 + induction IHalts as [|al alts H _ IH]; cbn; [reflexivity|].
                   rewrite IH. destruct (String.eqb (a_name al) f); [reflexivity|]. rewrite H. reflexivity.
                 + destruct de as [[x e]|]; [|reflexivity]. cbn.
                   destruct (String.eqb x f); [reflexivity|]. rewrite (IHde x e eq_refl). reflexivity.
               - rewrite IHb. destruct (String.eqb x f); [reflexivity|]. rewrite IHe. reflexivity.
               - destruct (String.eqb (f_name d) f); [reflexivity|]. rewrite IHe. reflexivity.
               - rewrite IHo. destruct (String.eqb x f); [reflexivity|]. rewrite IHe. reflexivity.
               - assumption.
               - assumption. }
             rewrite Badd. intros z [<-|Hz]; [left; left; reflexivity|]. rewrite in_app_iff in Hz.
             destruct Hz as [Hz|Hz].
             ++ destruct (Hbounds z Hz) as (x & j & -> & Hj). right. exists x, j. split; [reflexivity|]. cbn. lia.
             ++ apply (Bkept (Lifted (l_defs cx2) (l_index cx2 + length (f_env d)))); [cbn; lia|].
                right. assumption.
          -- intros Hi. cbn [l_defs] in Hi.
             assert (Hi2 : incl (l_defs cx2) L) by (intros y Hy; apply Hi; rewrite in_app_iff; auto).
             pose proof (step_incl _ _ S2 Hi2) as Hi1.
             cbn [rel lookup]. split; [assumption|]. split; [reflexivity|]. split; [reflexivity|].
             right. split; [assumption|]. right.
             eexists _, (add_arguments (f_name d) zs b'), (add_arguments (f_name d) zs e1), zs, _, _.
             split; [assumption|]. split.
             { split; [apply saved_nodup|]. intros z Hz. split; [auto|]. cbn. discriminate. }
             split.
             { apply Hi. rewrite in_app_iff. right. left. rewrite C1. reflexivity. }
             split; [reflexivity|].
             split; apply rel_add; auto; try tauto; eapply Hfresh; eauto; lia.
        * injection E as <- <-. split; [assumption|]. split.
          -- cbn [binders f_name f_args f_body]. apply bound_cons. apply bound_app; [apply bound_refl|].
             apply bound_app; eapply bound_wider; eauto; lia.
          -- intros Hi. pose proof (step_incl _ _ S2 Hi) as Hi1.
             cbn [rel lookup]. split; [assumption|]. split; [reflexivity|]. split; [reflexivity|].
             left. do 2 eexists. split; [reflexivity|]. auto.
    - destruct (lift o cx) as [b' cx1] eqn:E1. destruct (lift e cx1) as [e1 cx2] eqn:E2.
      injection E as <- <-.
      destruct (IHo _ _ _ E1) as (S1 & B1 & R1); [eapply fit_within; [|exact F]; apply within_try_operand; constructor|].
      destruct (IHe _ _ _ E2) as (S2 & B2 & R2); [eapply fit_within; [|exact F]; apply within_try_body; constructor|].
      pose proof (st_index _ _ S1). pose proof (st_index _ _ S2).
      split; [eapply step_trans; eassumption|]. split.
      + cbn [binders]. apply bound_cons. apply bound_app; eapply bound_wider; eauto; lia.
      + intros Hi. cbn [rel]. do 2 eexists. split; [reflexivity|].
        pose proof (step_incl _ _ S2 Hi) as Hi1. repeat split; auto.
        eapply fit_binder; [exact F|]. left. reflexivity.
    - destruct (lift e cx) as [e1 cx1] eqn:E1. injection E as <- <-.
      destruct (IHe _ _ _ E1) as (S1 & B1 & R1); [eapply fit_within; [|exact F]; apply within_clone; constructor|].
      split; [assumption|]. split; [assumption|]. intros Hi. cbn [rel]. eauto.
    - destruct (lift e cx) as [e1 cx1] eqn:E1. injection E as <- <-.
      destruct (IHe _ _ _ E1) as (S1 & B1 & R1); [eapply fit_within; [|exact F]; apply within_drop; constructor|].
      split; [assumption|]. split; [assumption|]. intros Hi. cbn [rel]. eauto.
  Qed.
End Transform.

(** ** Evaluation *)
Lemma eval_list_app md w m call rho es1 es2 : forall st,
  eval_list (eval md w m call) rho st (es1 ++ es2) =
  obind (eval_list (eval md w m call) rho st es1)
    (fun vs st => obind (eval_list (eval md w m call) rho st es2) (fun us st => Done (vs ++ us) st)).
Proof.
  induction es1 as [|e es1 IH]; intros st; cbn [app eval_list].
  - cbn. destruct (eval_list _ rho st es2); reflexivity.
  - destruct (eval md w m call rho st e) as [v st1| | | |]; cbn; try reflexivity.
    rewrite IH. destruct (eval_list _ rho st1 es1) as [vs st2| | | |]; cbn; try reflexivity.
    destruct (eval_list _ rho st2 es2); reflexivity.
Qed.

Lemma eval_list_vars md w m call rho st zs us :
  Forall2 (fun z u => lookup rho z = Some u) zs us ->
  eval_list (eval md w m call) rho st (map Var zs) = Done us st.
Proof.
  induction 1 as [|z u zs us H _ IH]; cbn; [reflexivity|].
  unfold eval_var. rewrite H. cbn. rewrite IH. reflexivity.
Qed.

Lemma eval_saves md w m call st env : forall zs us rho e,
  length zs = length env ->
  Forall2 (fun x u => lookup rho x = Some u) (map fst env) us ->
  (forall z, In z (map fst zs) -> ~ In z (map fst env)) ->
  eval md w m call rho st (save_variables env zs e) = eval md w m call (bind_args (map fst zs) us rho) st e.
Proof.
  induction env as [|[x t] env IH]; intros [|[z t'] zs] us rho e Hl H Hz; try discriminate.
  - reflexivity.
  - inversion H as [|? u ? us' Hx Hus]; subst. cbn [save_variables map fst bind_args eval] in *.
    unfold eval_var. rewrite Hx. cbn [obind]. apply IH; [cbn in Hl; lia| |].
    + assert (Hn : ~ In z (map fst env)) by (intros Hin; apply (Hz z); cbn; auto).
      revert Hn Hus. clear. intros Hn H. induction H as [|y u' ys us H _ IH]; constructor.
      * cbn. destruct (String.eqb_spec y z) as [->|]; [destruct Hn; left; reflexivity|assumption].
      * apply IH. intros Hin. apply Hn. right. assumption.
    + intros z1 Hz1 Hz2. apply (Hz z1); cbn; auto.
Qed.

Lemma bind_args_app xs : forall ys vs us rho, length vs = length xs ->
  bind_args (xs ++ ys) (vs ++ us) rho = bind_args ys us (bind_args xs vs rho).
Proof.
  induction xs as [|x xs IH]; intros ys [|v vs] us rho H; try discriminate; cbn; [reflexivity|].
  apply IH. cbn in H. lia.
Qed.

Lemma bind_args_nodup xs : forall vs rho, NoDup xs -> length vs = length xs ->
  Forall2 (fun x v => lookup (bind_args xs vs rho) x = Some v) xs vs.
Proof.
  induction xs as [|x xs IH]; intros [|v vs] rho N H; try discriminate; cbn [bind_args]; constructor.
  - apply NoDup_cons_iff in N as [N _]. rewrite bind_args_skip by assumption. cbn.
    rewrite String.eqb_refl. reflexivity.
  - apply NoDup_cons_iff in N as [_ N]. apply IH; [assumption|]. cbn in H. lia.
Qed.

Lemma lookup_fst {A} (c : list (string * A)) x : lookup c x = None <-> ~ In x (map fst c).
Proof.
  induction c as [|[k v] c IH]; cbn; [tauto|].
  destruct (String.eqb_spec x k) as [->|Hne].
  - split; [discriminate|]. intros H. destruct H. auto.
  - rewrite IH. intuition congruence.
Qed.

Lemma capture_vars_fst xs rho c : capture_vars xs rho = Some c -> map fst c = xs.
Proof.
  revert c. induction xs as [|x xs IH]; cbn; intros c E; [injection E as <-; reflexivity|].
  destruct (lookup rho x); [|discriminate]. destruct (capture_vars xs rho); [|discriminate].
  injection E as <-. cbn. rewrite (IH _ eq_refl). reflexivity.
Qed.

Lemma capture_vars_forall xs rho c : capture_vars xs rho = Some c ->
  Forall2 (fun x v => lookup rho x = Some v) xs (map snd c).
Proof.
  revert c. induction xs as [|x xs IH]; cbn; intros c E; [injection E as <-; constructor|].
  destruct (lookup rho x) eqn:Hx; [|discriminate]. destruct (capture_vars xs rho); [|discriminate].
  injection E as <-. constructor; [assumption|]. apply IH. reflexivity.
Qed.

Lemma Forall2_look {A} (R : A -> A -> Prop) (c : list (string * A)) us x : forall (rho : list (string * A)),
  Forall2 R (map snd c) us -> Forall2 (fun x u => lookup rho x = Some u) (map fst c) us -> In x (map fst c) ->
  NoDup (map fst c) ->
  exists v u, lookup c x = Some v /\ lookup rho x = Some u /\ R v u.
Proof.
  intros rho. revert us. induction c as [|[k v] c IH]; cbn; intros us H1 H2 Hx N; [destruct Hx|].
  inversion H1; subst. inversion H2; subst. apply NoDup_cons_iff in N as [N1 N2].
  destruct (String.eqb_spec x k) as [->|Hne].
  - eauto.
  - destruct Hx as [Hx|Hx]; [congruence|]. eauto.
Qed.

Section Semantics.
  Variable m : mmodule.
  Variable L ds : list fdef.
  Let m' := set_defs m (ds ++ L).

  Hypothesis Hinfos : infos_ok m.
  Hypothesis Hglobal : forall g, global_type m g <> None -> plain g.
  Hypothesis Hargs : forall d x, In d (m_defs m) -> In x (map fst (f_args d)) -> plain x.
  Hypothesis Hnumbered : numbered_defs L.
  Hypothesis Hdefs : Forall2 (fun d d' => exists b', d' = set_body d b' /\ rel L [] (f_body d) b') (m_defs m) ds.

  Definition lift_crel (d d' : fdef) (xs : list string * list string) (ps : string -> string -> Prop) : Prop :=
    exists b', d' = set_body d b' /\ rel L [] (f_body d) b' /\ sane d /\
      (forall x, In x (snd xs) -> plain x) /\ ps = (fun x y => y = x /\ plain x).

  Definition lift_lrel (d : fdef) (g : string) : Prop :=
    sane d /\ exists b',
      In (Fdef g [] (f_args d) (f_result d) (Let (f_name d) (f_type d) (Var g) b') false) L /\
      rel L [] (f_body d) b'.

  (** A function whose calls pass its captured variables. *)
  Definition passed (d : fdef) (g : string) : Prop :=
    sane d /\ f_thunk d = false /\ exists b' zs T,
      length zs = length (f_env d) /\ new_names [] (map fst zs) /\
      In (Fdef g [] (f_args d ++ f_env d) (f_result d)
               (Let (f_name d) T (Var g) (save_variables (f_env d) zs b')) false) L /\
      rel L [(f_name d, (g, map fst zs))] (f_body d) b'.

  Notation vr := (vrel m lift_crel lift_lrel).
  Notation sr := (srel m lift_crel lift_lrel).
  Notation orl := (orel m lift_crel lift_lrel).

  Lemma find_def_app a b g :
    find_def (a ++ b) g = match find_def a g with Some d => Some d | None => find_def b g end.
  Proof.
    unfold find_def. induction a as [|d a IH]; cbn; [reflexivity|].
    destruct (String.eqb g (f_name d)); [reflexivity|assumption].
  Qed.

  Lemma find_def_name l g d : find_def l g = Some d -> In d l /\ f_name d = g.
  Proof.
    unfold find_def. intros H. apply find_some in H as [H1 H2]. apply String.eqb_eq in H2. auto.
  Qed.

  Lemma lifted_is d : In d L -> is_lift_name (f_name d).
  Proof.
    intros H. apply In_nth_error in H as (i & H). destruct (Hnumbered _ _ H) as (f & E).
    rewrite E. eexists. reflexivity.
  Qed.

  Lemma find_ds g : match find_def (m_defs m) g with
                    | Some d => exists b', find_def ds g = Some (set_body d b') /\ rel L [] (f_body d) b'
                    | None => find_def ds g = None
                    end.
  Proof.
    pose proof Hdefs as H0. clear Hdefs Hargs Hglobal Hinfos m'. induction H0 as [|d d' l l' (b' & -> & H) _ IH]; cbn; [reflexivity|].
    destruct (String.eqb g (f_name d)); [eauto|exact IH].
  Qed.

  Lemma find_lifted d : In d L -> find_def (m_defs m') (f_name d) = Some d.
  Proof.
    intros H. cbn [m' set_defs m_defs]. rewrite find_def_app.
    pose proof (find_ds (f_name d)) as Hf.
    destruct (find_def (m_defs m) (f_name d)) as [d0|] eqn:E0.
    - exfalso. eapply lift_name_not_plain; [apply lifted_is; exact H|]. apply Hglobal.
      unfold global_type. rewrite E0. discriminate.
    - rewrite Hf. apply In_nth_error in H as (i & H).
      assert (Hin : exists d', find_def L (f_name d) = Some d').
      { destruct (find_def L (f_name d)) eqn:E; [eauto|].
        unfold find_def in E. apply nth_error_In in H. apply (find_none _ _ E) in H.
        rewrite String.eqb_refl in H. discriminate. }
      destruct Hin as (d' & Hd'). rewrite Hd'. apply find_def_name in Hd' as [H1 H2].
      apply In_nth_error in H1 as (j & H1).
      destruct (Hnumbered _ _ H) as (f1 & E1). destruct (Hnumbered _ _ H1) as (f2 & E2).
      rewrite E1, E2 in H2. apply lift_name_inj in H2. subst j. congruence.
  Qed.

  Lemma lifted_global d : In d L -> global_type m' (f_name d) = Some (f_type d).
  Proof. intros H. unfold global_type. rewrite (find_lifted _ H). reflexivity. Qed.

  Lemma lift_agree : agree m m' lift_crel lift_lrel.
  Proof.
    destruct Hinfos as [Hi Hfb]. split; try reflexivity; auto.
    - intros g d Hd. cbn [m' set_defs m_defs]. rewrite find_def_app.
      pose proof (find_ds g) as Hf. rewrite Hd in Hf. destruct Hf as (b' & -> & _). eauto.
    - intros g Hd Hg. cbn [m' set_defs m_defs]. rewrite find_def_app.
      pose proof (find_ds g) as Hf. rewrite Hd in Hf. rewrite Hf.
      destruct (find_def L g) as [d|] eqn:E; [|reflexivity].
      apply find_def_name in E as [H1 <-]. exfalso.
      eapply lift_name_not_plain; [apply lifted_is; exact H1|]. apply Hglobal.
      unfold global_type. rewrite Hd. assumption.
    - intros d d' xs ps (b' & -> & _). reflexivity.
    - intros d g (_ & b' & H & _). apply lifted_global in H. exact H.
  Qed.

  Definition passed_calls : calls_relation := fun call call' =>
    forall d c g vs vs' us st st',
      passed d g -> map fst c = map fst (f_env d) ->
      Forall2 vr vs vs' -> Forall2 vr (map snd c) us -> sr st st' ->
      orl vr (call st (VClosure d c) vs) (call' st' (VGlobal g) (vs' ++ us)).

  Record good (G : pending) (rho rho' : env) : Prop := {
    gd_names : forall f g zs, lookup G f = Some (g, zs) -> plain f /\ forall z, In z zs -> saved z;
    gd_plain : forall x, plain x -> lookup G x = None -> entry m vr rho rho' x x;
    gd_pending : forall f g zs, lookup G f = Some (g, zs) -> exists d c us,
        lookup rho f = Some (VClosure d c) /\ lookup rho' f = Some (VGlobal g) /\ passed d g /\
        map fst c = map fst (f_env d) /\ Forall2 (fun z u => lookup rho' z = Some u) zs us /\
        Forall2 vr (map snd c) us;
    gd_lift : forall g, is_lift_name g -> lookup rho' g = None
  }.

  Lemma lookup_other {A} (rho : list (string * A)) k v zs us :
    ~ In k zs -> Forall2 (fun z u => lookup rho z = Some u) zs us ->
    Forall2 (fun z u => lookup ((k, v) :: rho) z = Some u) zs us.
  Proof.
    intros Hk H. induction H as [|z u zs us H _ IH]; constructor.
    - cbn. destruct (String.eqb_spec z k) as [->|]; [destruct Hk; left; reflexivity|assumption].
    - apply IH. intros Hin. apply Hk. right. assumption.
  Qed.

  Lemma good_bind G rho rho' x v v' : good G rho rho' -> plain x -> lookup G x = None -> vr v v' ->
    good G ((x, v) :: rho) ((x, v') :: rho').
  Proof.
    intros [H1 H2 H3 H4] Hx HG Hv. split.
    - assumption.
    - intros y Hy HGy. apply entry_cons_same; auto.
    - intros f g zs Hf. destruct (H3 f g zs Hf) as (d & c & us & E1 & E2 & E3 & E4 & E5 & E6).
      exists d, c, us. assert (Hne : f <> x) by congruence. apply String.eqb_neq in Hne.
      cbn [lookup]. rewrite Hne. do 4 (split; [assumption|]). split; [|assumption].
      apply lookup_other; [|assumption].
      intros Hin. eapply saved_not_plain; [|exact Hx]. eapply H1; eassumption.
    - intros g Hg. cbn. destruct (String.eqb_spec g x) as [->|]; [|auto].
      destruct (lift_name_not_plain x); assumption.
  Qed.

  (** Binding a function whose calls pass its captured variables. *)
  Lemma good_pass G rho rho' f g d c zs us :
    good G rho rho' -> plain f -> lookup G f = None -> passed d g -> map fst c = map fst (f_env d) ->
    new_names G zs -> length zs = length us -> Forall2 vr (map snd c) us ->
    good ((f, (g, zs)) :: G) ((f, VClosure d c) :: rho) (bind_args zs us ((f, VGlobal g) :: rho')).
  Proof.
    intros [H1 H2 H3 H4] Hp HG Hpass Hc [N Hz] Hlen Hus. split.
    - intros f2 g2 zs2. cbn. destruct (String.eqb f2 f) eqn:E.
      + apply String.eqb_eq in E. subst f2. intros E. injection E as _ <-. split; [assumption|]. apply Hz.
      + apply H1.
    - intros x Hx. cbn [lookup]. destruct (String.eqb_spec x f) as [->|Hne]; [discriminate|]. intros HGx.
      assert (Hxz : ~ In x zs) by (intros Hin; apply Hz in Hin as [Hin _]; eapply saved_not_plain; eassumption).
      specialize (H2 x Hx HGx).
      assert (E : lookup (bind_args zs us ((f, VGlobal g) :: rho')) x = lookup rho' x).
      { rewrite bind_args_skip by assumption. cbn. apply String.eqb_neq in Hne. rewrite Hne. reflexivity. }
      apply String.eqb_neq in Hne.
      destruct H2 as [v v' E1 E2 Hv|E1 E2|[]]; [| |reflexivity].
      + econstructor; [cbn; rewrite Hne; exact E1|rewrite E; exact E2|exact Hv].
      + apply entry_none; [cbn; rewrite Hne; exact E1|]. rewrite E. exact E2.
    - intros f2 g2 zs2. cbn [lookup]. destruct (String.eqb_spec f2 f) as [->|Hne].
      + intros E. injection E as <- <-. exists d, c, us. rewrite bind_args_skip.
        * cbn. rewrite String.eqb_refl. do 2 (split; [reflexivity|]). do 2 (split; [assumption|]).
          split; [|assumption]. apply bind_args_nodup; auto.
        * intros Hin. apply Hz in Hin as [Hin _]. eapply saved_not_plain; eassumption.
      + intros Hf. destruct (H3 _ _ _ Hf) as (d2 & c2 & us2 & E1 & E2 & E3 & E4 & E5 & E6).
        exists d2, c2, us2. split; [assumption|]. rewrite bind_args_skip.
        2: { intros Hin. apply Hz in Hin as [Hin _]. eapply saved_not_plain; [exact Hin|]. eapply H1; eassumption. }
        cbn. apply String.eqb_neq in Hne. rewrite Hne. do 3 (split; [assumption|]). split; [|assumption].
        assert (Hout : forall z, In z zs2 -> lookup (bind_args zs us ((f, VGlobal g) :: rho')) z = lookup rho' z).
        { intros z Hin. rewrite bind_args_skip.
          - cbn. destruct (String.eqb_spec z f) as [->|]; [|reflexivity]. exfalso.
            eapply saved_not_plain; [|exact Hp]. eapply H1; eassumption.
          - intros Hin2. apply Hz in Hin2 as [_ Hin2]. eapply Hin2; eassumption. }
        clear -E5 Hout. induction E5 as [|z u zs2 us2 E _ IH]; constructor.
        * rewrite Hout; [assumption|left; reflexivity].
        * apply IH. intros z1 Hz1. apply Hout. right. assumption.
    - intros g2 Hg2. rewrite bind_args_skip.
      + cbn. destruct (String.eqb_spec g2 f) as [->|]; [|auto]. destruct (lift_name_not_plain f); assumption.
      + intros Hin. apply Hz in Hin as [Hin _]. eapply saved_not_lift; eassumption.
  Qed.

  Section Body.
    Variable w : world.
    Variables call call' : state -> value -> list value -> out value.
    Hypothesis Hcall : callrel m lift_crel lift_lrel call call'.
    Hypothesis Hpassed : passed_calls call call'.
    Notation at_ := (evrel_at m m' Declared Declared w lift_crel lift_lrel call call').

    Lemma capture_good G rho rho' d c :
      good G rho rho' -> sane d -> (forall x, In x (map fst (f_env d)) -> lookup G x = None) ->
      capture_vars (map fst (f_env d)) rho = Some c ->
      exists c', capture_vars (map fst (f_env d)) rho' = Some c' /\
        (forall x, plain x -> entry m vr c c' x x) /\ Forall2 vr (map snd c) (map snd c').
    Proof.
      intros Hg Hs HG. assert (Hp : forall x, In x (map fst (f_env d)) -> plain x).
      { intros x Hx. apply Hs. right. rewrite in_app_iff. auto. }
      revert c HG Hp. generalize (map fst (f_env d)). intros xs.
      induction xs as [|x xs IH]; cbn; intros c HG Hp E.
      - injection E as <-. exists []. split; [reflexivity|]. split; [|constructor]. intros x _. apply entry_nil.
      - destruct (lookup rho x) as [v|] eqn:Hx; [|discriminate].
        destruct (capture_vars xs rho) as [c1|]; [|discriminate]. injection E as <-.
        destruct (IH c1) as (c1' & -> & H1 & H2); auto.
        destruct (gd_plain _ _ _ Hg x) as [u u' E1 E2 Hu|E1 E2|[]]; auto; [|congruence].
        rewrite E2. assert (u = v) by congruence. subst u. eexists. split; [reflexivity|].
        split; [|constructor; assumption]. intros y Hy. apply entry_cons_same; auto.
    Qed.

    Lemma eval_global g rho' st : In g (map f_name L) -> lookup rho' g = None ->
      eval_var m' rho' st g = Done (VGlobal g) st.
    Proof.
      intros Hin Hl. unfold eval_var. rewrite Hl. apply in_map_iff in Hin as (d & <- & Hd).
      rewrite (lifted_global _ Hd). reflexivity.
    Qed.

    Lemma eval_rel e : forall G e' rho rho', rel L G e e' -> good G rho rho' -> at_ rho rho' e e'.
    Proof.
      induction e as [l|x|o es IH|c t e IHc IHt IHe|a alts de IHa IHalts IHde|x t b e IHb IHe
                      |d e IHd IHe|o x t e IHo IHe|xs e IHe|xs e IHe] using expr_ind';
        intros G e' rho rho' HR Hg; cbn [rel] in HR.
      - subst e'. apply lit_at.
      - destruct HR as (-> & H1 & H2). apply var_at; [apply lift_agree|]. apply (gd_plain _ _ _ Hg); assumption.
      - assert (Hall : forall es es', Forall (fun e => forall G e' rho rho', rel L G e e' -> good G rho rho' ->
                          at_ rho rho' e e') es -> all2 (rel L G) es es' -> Forall2 (at_ rho rho') es es').
        { clear -Hg. induction es as [|e es IHes]; intros [|e' es'] HI HA; cbn in HA; try contradiction; constructor;
            apply Forall_cons_iff in HI as [HI1 HI2]; destruct HA as [HA1 HA2]; eauto. }
        destruct HR as [(es' & -> & H)|HR].
        + apply op_at; [apply lift_agree|assumption|]. auto.
        + destruct es as [|e0 args]; [destruct HR|].
          destruct HR as (f & ts & t & g & zs & ts' & args' & -> & -> & H3 & H4 & -> & H6).
          apply Forall_cons_iff in IH as [_ IH]. specialize (Hall _ _ IH H6).
          destruct (gd_pending _ _ _ Hg _ _ _ H3) as (d & c & us & E1 & E2 & E3 & E4 & E5 & E6).
          intros st st' Hs. cbn [eval eval_list]. unfold eval_var. rewrite E1, E2. cbn [obind].
          rewrite eval_list_app.
          pose proof (eval_list_sim m m' Declared Declared w lift_crel lift_lrel call call' rho rho' _ _ Hall st st' Hs) as HL.
          destruct HL as [vs vs' st1 st1' Hvs Hs1| | | |]; cbn [obind]; try (constructor; assumption).
          rewrite (eval_list_vars _ _ _ _ _ _ _ _ E5). cbn [obind apply_op].
          rewrite !app_length, H4, <- (Forall2_length Hvs), (Forall2_length E5).
          destruct (Nat.eqb_spec (length vs) (length ts)) as [->|]; [|constructor].
          rewrite Nat.eqb_refl. apply Hpassed; assumption.
      - destruct HR as (c' & t' & e1 & -> & H1 & H2 & H3). apply if_at; eauto.
      - destruct HR as (a' & alts' & de' & -> & H1 & H2 & H3). apply case_at; [eauto| |].
        + clear -IHalts H2 Hg. revert alts' H2.
          induction alts as [|al alts IH]; intros [|al' alts'] H2; cbn in H2; try contradiction; constructor.
          * destruct H2 as [(H1 & H3 & H4 & H5 & H6) _]. apply Forall_cons_iff in IHalts as [IHal _].
            split; [assumption|]. rewrite H3. intros v v' Hv. eapply IHal; [eassumption|].
            apply good_bind; assumption.
          * apply Forall_cons_iff in IHalts as [_ IHalts]. apply IH; tauto.
        + destruct de as [[x e]|].
          * destruct H3 as (e1 & -> & H3 & H4 & H5). constructor. intros v v' Hv.
            eapply (IHde x e eq_refl); [eassumption|]. apply good_bind; assumption.
          * subst de'. constructor.
      - destruct HR as (b' & e1 & -> & H1 & H2 & H3 & H4). apply let_at; [eauto|].
        intros v v' Hv. eapply IHe; [eassumption|]. apply good_bind; assumption.
      - destruct HR as (Hs & HGf & HGe & HR).
        assert (Hpf : plain (f_name d)) by (apply Hs; left; reflexivity).
        destruct HR as [(b' & e1 & -> & H4 & H5)|(Ht & [(g2 & b' & e1 & He & HL & -> & H4 & H5)|
          (g2 & b' & e1 & zs & T & T' & Hl & Hu & HL & -> & H4 & H5)])].
        + apply letrec_at; [reflexivity| |].
          * intros c Hc. cbn [capture f_env set_body] in Hc |- *.
            destruct (capture_good _ _ _ _ _ Hg Hs HGe Hc) as (c' & Hc' & Hent & _).
            exists c', (fun x y => y = x /\ plain x). split; [assumption|]. split.
            -- exists b'. split; [reflexivity|]. split; [assumption|]. split; [assumption|]. split; [|reflexivity].
               cbn [snd]. rewrite (capture_vars_fst _ _ _ Hc'). intros x Hx. apply Hs. right. rewrite in_app_iff. auto.
            -- intros x y [-> Hx]. auto.
          * intros v v' Hv. cbn [f_name set_body]. eapply IHe; [eassumption|]. apply good_bind; assumption.
        + intros st st' Hst. cbn [eval capture]. rewrite He, Ht. cbn [map capture_vars].
          rewrite eval_global.
          * cbn [obind]. apply (IHe G); [assumption| |assumption]. apply good_bind; auto.
            apply vr_lift; [assumption|]. split; [assumption|]. eauto.
          * apply in_map_iff. eexists. split; [|exact HL]. reflexivity.
          * apply (gd_lift _ _ _ Hg). apply lifted_is in HL. exact HL.
        + intros st st' Hst. cbn [eval capture]. rewrite Ht.
          destruct (capture_vars (map fst (f_env d)) rho) as [c|] eqn:Hc; [|constructor].
          destruct (capture_good _ _ _ _ _ Hg Hs HGe Hc) as (c' & Hc' & _ & Hvals).
          pose proof (capture_vars_forall _ _ _ Hc') as Hlook.
          pose proof (Forall2_length Hlook) as Hlen. rewrite map_length in Hlen.
          rewrite eval_global.
          * cbn [obind]. rewrite eval_saves with (us := map snd c'); [|assumption| |].
            -- eapply IHe; [eassumption| |assumption]. apply good_pass; auto.
               ++ split; [assumption|]. split; [assumption|]. exists b', zs, T. split; [assumption|].
                  split; [|split; assumption]. destruct Hu as [Hu1 Hu2]. split; [assumption|].
                  intros z Hz. split; [apply Hu2; assumption|]. cbn. discriminate.
               ++ apply (capture_vars_fst _ _ _ Hc).
               ++ rewrite map_length. lia.
            -- apply lookup_other; [|assumption]. destruct Hs as [N _]. apply NoDup_cons_iff in N as [N _].
               rewrite in_app_iff in N. tauto.
            -- intros z Hz Hin. apply Hu in Hz as [Hz _]. eapply saved_not_plain; [exact Hz|].
               apply Hs. right. rewrite in_app_iff. auto.
          * apply in_map_iff. eexists. split; [|exact HL]. reflexivity.
          * apply (gd_lift _ _ _ Hg). apply lifted_is in HL. exact HL.
      - destruct HR as (o' & e1 & -> & H1 & H2 & H3 & H4). apply try_at; [eauto|].
        intros v v' Hv. eapply IHe; [eassumption|]. apply good_bind; assumption.
      - destruct HR as (e1 & -> & H). apply clone_at. eauto.
      - destruct HR as (e1 & -> & H). apply drop_at. eauto.
    Qed.

    Lemma good_nil : good [] [] [].
    Proof.
      split; try discriminate; auto. intros x _ _. apply entry_nil.
    Qed.

    Lemma good_args G args : forall vs vs' rho rho',
      Forall2 vr vs vs' -> (forall x, In x args -> plain x /\ lookup G x = None) -> good G rho rho' ->
      good G (bind_args args vs rho) (bind_args args vs' rho').
    Proof.
      induction args as [|x args IH]; intros vs vs' rho rho' Hv Hx Hg; cbn; [assumption|].
      destruct Hv as [|v v' vs vs' Hv Hvs]; [assumption|].
      destruct (Hx x (or_introl eq_refl)) as [Hp HG].
      apply IH; [assumption|intros y Hy; apply Hx; right; assumption|]. apply good_bind; assumption.
    Qed.
  End Body.

  (** *** Environments with the same variables *)
  Lemma bind_args_ext xs : forall vs r1 r2, (forall x, lookup r1 x = lookup r2 x) ->
    forall x, lookup (bind_args xs vs r1) x = lookup (bind_args xs vs r2) x.
  Proof.
    induction xs as [|k xs IH]; intros [|v vs] r1 r2 H x; cbn; auto.
    apply IH. intros y. cbn. destruct (String.eqb y k); auto.
  Qed.

  Lemma bind_args_swap xs : forall vs rho f u x, ~ In f xs ->
    lookup ((f, u) :: bind_args xs vs rho) x = lookup (bind_args xs vs ((f, u) :: rho)) x.
  Proof.
    induction xs as [|k xs IH]; intros [|v vs] rho f u x Hf; cbn [bind_args]; try reflexivity.
    rewrite IH by (intros Hin; apply Hf; right; assumption). apply bind_args_ext.
    intros y. cbn. destruct (String.eqb_spec y f) as [->|]; [|reflexivity].
    destruct (String.eqb_spec f k) as [->|]; [|reflexivity]. destruct Hf. left. reflexivity.
  Qed.

  Lemma bind_args_in xs : forall vs r1 r2 x, In x xs -> length vs = length xs ->
    lookup (bind_args xs vs r1) x = lookup (bind_args xs vs r2) x.
  Proof.
    induction xs as [|k xs IH]; intros [|v vs] r1 r2 x Hx Hl; try discriminate; [destruct Hx|].
    cbn [bind_args]. cbn in Hl.
    destruct (in_dec string_dec x xs) as [Hin|Hin]; [apply IH; auto|].
    rewrite !bind_args_skip by assumption. destruct Hx as [->|Hx]; [|contradiction].
    cbn. rewrite String.eqb_refl. reflexivity.
  Qed.

  Lemma good_ext G r1 r2 s1 s2 : (forall x, lookup r1 x = lookup s1 x) -> (forall x, lookup r2 x = lookup s2 x) ->
    good G r1 r2 -> good G s1 s2.
  Proof.
    intros E1 E2 [H1 H2 H3 H4]. split.
    - assumption.
    - intros x Hx HG. destruct (H2 x Hx HG) as [v v' A1 A2 Hv|A1 A2|[]]; [| |reflexivity].
      + econstructor; [rewrite <- E1; exact A1|rewrite <- E2; exact A2|exact Hv].
      + apply entry_none; [rewrite <- E1; exact A1|]. rewrite <- E2. exact A2.
    - intros f g zs Hf. destruct (H3 _ _ _ Hf) as (d & c & us & A1 & A2 & A3 & A4 & A5 & A6).
      exists d, c, us. rewrite <- E1, <- E2. do 4 (split; [assumption|]). split; [|assumption].
      clear -A5 E2. induction A5 as [|z u zs us A _ IH]; constructor; [rewrite <- E2|]; assumption.
    - intros g Hg. rewrite <- E2. auto.
  Qed.

  Lemma lift_closure_sim w : closure_sim_with m m' Declared Declared w lift_crel lift_lrel passed_calls.
  Proof.
    intros call call' d d' c c' ps f f' vs vs' st st' Hcall Hp (b' & -> & HR & Hs & Hx & ->) Hc Hf Hk Hvs Hlen Hst.
    cbn [f_args f_name f_body set_body snd] in *. eapply eval_rel; [assumption..|exact HR| |assumption].
    apply good_args; [assumption| |].
    { intros x Hin. split; [|reflexivity]. apply Hs. right. rewrite in_app_iff. auto. }
    apply good_bind; [|apply Hs; left; reflexivity|reflexivity|assumption]. split; try discriminate.
    - intros x Hpx _. apply Hc. auto.
    - intros g Hg. apply lookup_fst. intros Hin. apply Hx in Hin. eapply lift_name_not_plain; eassumption.
  Qed.

  Lemma lift_lift_sim w : lift_sim_with m m' Declared Declared w lift_crel lift_lrel passed_calls.
  Proof.
    intros call call' d g vs vs' st st' Hcall Hp Hl Ht Hvs Hlen Hst.
    assert (Hv : vr (VClosure d []) (VGlobal g)) by (apply vr_lift; assumption).
    destruct Hl as (Hs & b' & HL & HR).
    eexists. split; [exact (find_lifted _ HL)|]. split; [reflexivity|].
    cbn [f_args f_body eval].
    assert (Hpa : forall x, In x (map fst (f_args d)) -> plain x)
      by (intros x Hin; apply Hs; right; rewrite in_app_iff; auto).
    rewrite eval_global.
    - cbn [obind]. eapply eval_rel; [assumption..|exact HR| |assumption].
      eapply good_ext; [reflexivity| |].
      2: { apply good_args with (rho := [(f_name d, VClosure d [])]) (rho' := [(f_name d, VGlobal g)]) (args := map fst (f_args d));
             [exact Hvs| |].
           - intros x Hin. split; [auto|reflexivity].
           - apply good_bind; [apply good_nil|apply Hs; left; reflexivity|reflexivity|assumption]. }
      intros x. symmetry. apply bind_args_swap.
      destruct Hs as [N _]. apply NoDup_cons_iff in N as [N _]. rewrite in_app_iff in N. tauto.
    - apply in_map_iff. eexists. split; [|exact HL]. reflexivity.
    - apply lifted_is in HL. cbn in HL. rewrite bind_args_skip; [reflexivity|].
      intros Hin. apply Hpa in Hin. eapply lift_name_not_plain; eassumption.
  Qed.

  Lemma lift_global_sim w : global_sim_with m m' Declared Declared w lift_crel lift_lrel passed_calls.
  Proof.
    intros call call' g d d' vs vs' st st' Hcall Hp Hd Hd' Hvs Hlen Hst.
    cbn [m' set_defs m_defs] in Hd'. rewrite find_def_app in Hd'.
    pose proof (find_ds g) as Hf. rewrite Hd in Hf. destruct Hf as (b' & Hf & HR). rewrite Hf in Hd'.
    injection Hd' as <-. cbn [f_args f_body set_body]. eapply eval_rel; [assumption..|exact HR| |assumption].
    apply good_args; [assumption| |apply good_nil].
    intros x Hin. split; [|reflexivity]. apply find_def_name in Hd as [Hd _]. eapply Hargs; eassumption.
  Qed.

  Lemma passed_step w n :
    callrel m lift_crel lift_lrel (call Declared w m n) (call Declared w m' n) ->
    passed_calls (call Declared w m n) (call Declared w m' n) ->
    passed_calls (call Declared w m (S n)) (call Declared w m' (S n)).
  Proof.
    intros Hcall Hpass d c g vs vs' us st st' Hp Hc Hvs Hus Hst.
    pose proof Hp as (Hs & Ht & b' & zs & T & Hl & Hz & HL & HR).
    pose proof (find_lifted _ HL) as Hfind. cbn [f_name] in Hfind. cbn [call]. rewrite Hfind. cbn [f_thunk f_args].
    assert (Hlus : length us = length (f_env d)).
    { rewrite <- (Forall2_length Hus), map_length. apply (f_equal (@length _)) in Hc. rewrite !map_length in Hc. exact Hc. }
    rewrite !app_length, Hlus, <- (Forall2_length Hvs).
    destruct (Nat.eqb_spec (length vs) (length (f_args d))) as [Hlen|]; [|constructor].
    rewrite Hlen, Nat.eqb_refl. apply orel_finish. cbn [f_body].
    rewrite map_app, bind_args_app by (rewrite map_length, <- Hlen; symmetry; apply (Forall2_length Hvs)).
    destruct Hs as [N Hplain]. pose proof N as N0. apply NoDup_cons_iff in N as [N1 N2].
    apply nodup_app_iff in N2 as (N2 & N3 & N4). rewrite in_app_iff in N1.
    set (X := map fst (f_args d)) in *. set (Y := map fst (f_env d)) in *.
    assert (HpX : forall x, In x X -> plain x) by (intros x Hin; apply Hplain; right; rewrite in_app_iff; auto).
    assert (HpY : forall x, In x Y -> plain x) by (intros x Hin; apply Hplain; right; rewrite in_app_iff; auto).
    assert (HlY : length us = length Y) by (unfold Y; rewrite map_length; assumption).
    assert (HlX : length vs' = length X) by (unfold X; rewrite map_length, <- Hlen; symmetry; apply (Forall2_length Hvs)).
    assert (Hlook : forall r, Forall2 (fun x u => lookup (bind_args Y us r) x = Some u) Y us)
      by (intros r; apply bind_args_nodup; assumption).
    assert (Hgn : is_lift_name g) by (apply lifted_is in HL; exact HL).
    cbn [eval]. rewrite eval_global.
    - cbn [obind]. rewrite eval_saves with (us := us); [|assumption| |].
      + eapply eval_rel; [assumption..|exact HR| |assumption].
        apply good_ext with (r1 := (f_name d, VClosure d c) :: bind_args X vs c)
          (r2 := bind_args (map fst zs) us ((f_name d, VGlobal g) :: bind_args Y us (bind_args X vs' [])));
          [intros x; apply bind_args_swap; tauto|reflexivity|].
        apply good_pass; auto.
        * apply good_ext with (r1 := bind_args X vs c) (r2 := bind_args X vs' (bind_args Y us []));
            [reflexivity| |].
          { intros x. destruct (in_dec string_dec x X) as [HX|HX].
            - rewrite (bind_args_skip Y); [apply bind_args_in; assumption|]. intros HY. eapply N4; eassumption.
            - rewrite (bind_args_skip X) by assumption. destruct (in_dec string_dec x Y) as [HY|HY].
              + apply bind_args_in; assumption.
              + rewrite !bind_args_skip by assumption. reflexivity. }
          apply good_args; [assumption|intros x Hin; split; [auto|reflexivity]|].
          split; try discriminate.
          { intros x Hx _. destruct (in_dec string_dec x Y) as [HY|HY].
            - destruct (Forall2_look vr c us x (bind_args Y us [])) as (v & u & A1 & A2 & A3); rewrite ?Hc; auto.
              econstructor; eassumption.
            - apply entry_none; [apply lookup_fst; rewrite Hc; assumption|].
              intros _. split; [reflexivity|]. rewrite bind_args_skip by assumption. reflexivity. }
          { intros g2 Hg2. rewrite bind_args_skip; [reflexivity|]. intros Hin. apply HpY in Hin.
            eapply lift_name_not_plain; eassumption. }
        * apply Hplain. left. reflexivity.
        * rewrite map_length. lia.
      + apply lookup_other; [tauto|]. apply Hlook.
      + intros z Hin Hin2. apply Hz in Hin as [Hin _]. eapply saved_not_plain; [exact Hin|]. auto.
    - apply in_map_iff. eexists. split; [|exact HL]. reflexivity.
    - rewrite !bind_args_skip; [reflexivity|..]; intros Hin; [apply HpX in Hin|apply HpY in Hin];
        eapply lift_name_not_plain; eassumption.
  Qed.

  Lemma lift_defs_refines : refines Declared m Declared m'.
  Proof.
    apply (calls_refine _ _ _ _ lift_crel lift_lrel); [apply lift_agree|].
    intros w n. apply (call_sim_with m m' Declared Declared w lift_crel lift_lrel lift_agree passed_calls n).
    - apply lift_closure_sim.
    - apply lift_lift_sim.
    - apply lift_global_sim.
    - intros d c g vs vs' us st st' _ _ _ _ Hs. cbn [call]. constructor. assumption.
    - apply passed_step.
  Qed.
End Semantics.

Theorem lift_refines m :
  infos_ok m -> no_lifted_names m -> bound_once m -> proper_environments m -> no_closed_thunks m ->
  refines Declared m Declared (lift_module m).
Proof.
  intros Hi [Hn1 Hn2] Hb Hp Ht. unfold lift_module.
  destruct (map_state lift_global (m_defs m) (Lifted [] 0)) as [ds cx] eqn:E.
  apply map_state_ok with (L := l_defs cx) (ba := fun d => binders (f_body d)) (bb := fun d => binders (f_body d))
    (R := fun d d' => exists b', d' = set_body d b' /\ rel (l_defs cx) [] (f_body d) b') in E.
  - destruct E as (S & _ & HR). apply lift_defs_refines; auto.
    + intros d x Hd Hx. apply (Hn2 d); auto.
    + apply S. intros i d Hd. cbn in Hd. destruct i; discriminate.
    + specialize (HR (incl_refl _)). revert HR. generalize (m_defs m). clear.
      intros l. revert ds. induction l as [|d l IH]; intros [|d' ds] H; cbn in H; try contradiction; constructor.
      * apply H.
      * apply IH, H.
  - intros d Hd cx0 d' cx1 E1. unfold lift_global in E1.
    destruct (lift (f_body d) cx0) as [b' cx2] eqn:E2. injection E1 as <- <-.
    destruct (lift_all_ok (l_defs cx) _ _ _ _ E2) as (S & B & R).
    { split; [apply Hb; assumption|]. split.
      - intros x Hx. apply (Hn2 d); auto.
      - intros d0 e1 Hw. split; [eapply Hp; eassumption|]. eapply Ht; eassumption. }
    split; [assumption|]. split; [assumption|]. intros Hincl. exists b'. auto.
Qed.
