(** Alpha conversion preserves behaviour and makes binders distinct. *)
From Coq Require Import String List ZArith Bool Lia.
From Verif Require Import Base Mir MirSpec MirScopeSpec MirSim MirConcatProofs MirEnv MirEnvProofs
     Names MirAlpha.
Import ListNotations.

Section Hygiene.
  (** [B]: binders, [F]: other names that occur. *)
  Variables B F : string -> Prop.
  Hypothesis Hyg : forall b n, B b -> B n \/ F n -> ~ made_from b n.

  Lemma versioned_inj a b i j :
    B a -> B b -> versioned a i = versioned b j -> a = b /\ i = j.
  Proof.
    intros Ha Hb E. destruct i as [|i], j as [|j]; cbn in E.
    - auto.
    - exfalso. apply (Hyg b a); auto. exists (S j). auto.
    - exfalso. apply (Hyg a b); auto. exists (S i). auto.
    - apply numbered_inj in E. exact E.
  Qed.

  Definition okvars (vars : renaming) : Prop :=
    forall x y, lookup vars x = Some y -> B x /\ exists k, y = versioned x k.

  Lemma okvars_cons vars x k : B x -> okvars vars -> okvars ((x, versioned x k) :: vars).
  Proof.
    intros Hx H z y. cbn. destruct (String.eqb_spec z x) as [->|].
    - intros [= <-]. eauto.
    - apply H.
  Qed.

  Lemma subst_inj vars a b : okvars vars -> B a \/ F a -> B b \/ F b -> a <> b ->
    subst vars a <> subst vars b.
  Proof.
    intros Hv Ha Hb Hne E. unfold subst in E.
    destruct (lookup vars a) as [a'|] eqn:Ea, (lookup vars b) as [b'|] eqn:Eb.
    - apply Hv in Ea as [HBa [i ->]]. apply Hv in Eb as [HBb [j ->]].
      apply versioned_inj in E as [E _]; auto.
    - apply Hv in Ea as [HBa [i ->]]. destruct i as [|i]; cbn in E; [auto|].
      apply (Hyg a b); auto. exists (S i). auto.
    - apply Hv in Eb as [HBb [j ->]]. destruct j as [|j]; cbn in E; [auto|].
      apply (Hyg b a); auto. exists (S j). auto.
    - auto.
  Qed.

  Lemma rename_args_ok xs : forall vars cs, (forall x, In x xs -> B x) -> okvars vars ->
    okvars (fst (rename_args xs vars cs)).
  Proof.
    induction xs as [|x xs IH]; intros vars cs Hx Hv; cbn; [assumption|].
    apply IH; [intros; apply Hx; right; assumption|].
    apply okvars_cons; [apply Hx; left; reflexivity|assumption].
  Qed.
End Hygiene.

Lemma rename_args_skip xs : forall vars cs z, ~ In z xs ->
  lookup (fst (rename_args xs vars cs)) z = lookup vars z.
Proof.
  induction xs as [|x xs IH]; intros vars cs z Hz; cbn; [reflexivity|].
  rewrite IH by (intros E; apply Hz; right; assumption). cbn.
  destruct (String.eqb_spec z x) as [->|]; [destruct Hz; left; reflexivity|reflexivity].
Qed.

Section Alpha.
  Variable m : mmodule.
  Let m' := alpha_module m.
  Variable w : world.

  Definition alpha_def (vars : renaming) (d : fdef) (cs : counts) : fdef :=
    let '(f, cs) := rename (f_name d) cs in
    let vars := (f_name d, f) :: vars in
    let '(inner, cs) := rename_args (map fst (f_args d)) vars cs in
    let '(b, cs) := alpha inner (f_body d) cs in
    Fdef f (subst_args inner (f_env d)) (subst_args inner (f_args d)) (f_result d) b (f_thunk d).

  Definition def_fv (d : fdef) : list string :=
    except (f_name d) (except_all (map fst (f_args d)) (fv (f_body d))).

  Lemma in_def_fv x d :
    In x (def_fv d) <-> In x (fv (f_body d)) /\ x <> f_name d /\ ~ In x (map fst (f_args d)).
  Proof.
    unfold def_fv, except_all. rewrite in_except, filter_In, negb_true_iff, mem_false. tauto.
  Qed.

  (** The names of an expression are among [B] and [F]. *)
  Record hygienic_names (B F : string -> Prop) (bs fs : list string) : Prop := {
    hn_hyg : forall b n, B b -> B n \/ F n -> ~ made_from b n;
    hn_binders : forall x, In x bs -> B x;
    hn_free : forall x, In x fs -> B x \/ F x
  }.

  Definition alpha_crel (d d' : fdef) (_ : list string * list string) (ps : string -> string -> Prop) : Prop :=
    exists B F vars cs,
      hygienic_names B F (f_name d :: map fst (f_args d) ++ binders (f_body d)) (def_fv d) /\
      okvars B vars /\ d' = alpha_def vars d cs /\
      ps = (fun x y => y = subst vars x /\ In x (def_fv d)).

  Let lrel := fun (_ : fdef) (_ : string) => False.

  Notation vr := (vrel m alpha_crel lrel).

  Hypothesis Hinfos : infos_ok m.

  Lemma alpha_agree : agree m m' alpha_crel lrel.
  Proof.
    apply (agree_map m (fun d => set_body d (fst (alpha [] (f_body d) (global_counts m)))));
      try reflexivity; try assumption.
    intros d d' xs ps (B & F & vars & cs & _ & _ & -> & _). unfold alpha_def.
    destruct (rename (f_name d) cs) as [f cs1].
    destruct (rename_args (map fst (f_args d)) ((f_name d, f) :: vars) cs1) as [inner cs2].
    destruct (alpha inner (f_body d) cs2) as [b cs3].
    unfold f_type, subst_args. cbn [f_args f_result]. rewrite map_map. reflexivity.
  Qed.

  Section Body.
    Variables call call' : state -> value -> list value -> out value.
    Hypothesis Hcall : callrel m alpha_crel lrel call call'.
    Notation at_ := (evrel_at m m' Lexical Lexical w alpha_crel lrel call call').

    (** The two environments agree on the variables [S]. *)
    Definition renamed (S : list string) (vars : renaming) (rho rho' : env) : Prop :=
      forall x, In x S -> entry m vr rho rho' x (subst vars x).

    Lemma renamed_cons (B F : string -> Prop) S vars rho rho' x k v v' :
      (forall b n, B b -> B n \/ F n -> ~ made_from b n) -> okvars B vars ->
      B x -> (forall z, In z S -> B z \/ F z) -> vr v v' ->
      renamed (except x S) vars rho rho' ->
      renamed S ((x, versioned x k) :: vars) ((x, v) :: rho) ((versioned x k, v') :: rho').
    Proof.
      intros Hyg Hv Hx HS Hvv H z Hz.
      assert (Hs : subst ((x, versioned x k) :: vars) x = versioned x k).
      { unfold subst. cbn. rewrite String.eqb_refl. reflexivity. }
      destruct (String.eqb_spec z x) as [->|Hne].
      - rewrite Hs. apply entry_cons_here. assumption.
      - assert (Hd : subst ((x, versioned x k) :: vars) z <> versioned x k).
        { intros E. apply (subst_inj B F Hyg ((x, versioned x k) :: vars) z x); auto.
          - apply okvars_cons; assumption.
          - congruence. }
        apply entry_cons_there; auto.
        replace (subst ((x, versioned x k) :: vars) z) with (subst vars z).
        + apply H. apply in_except. auto.
        + unfold subst. cbn. destruct (String.eqb_spec z x); [contradiction|reflexivity].
    Qed.

    Lemma renamed_sub S T vars rho rho' :
      (forall x, In x T -> In x S) -> renamed S vars rho rho' -> renamed T vars rho rho'.
    Proof. intros H Hr x Hx. apply Hr, H, Hx. Qed.

    Lemma entry_bind_args_renamed (s : string -> string) xs : forall vs vs' c c' z,
      Forall2 vr vs vs' -> length vs = length xs ->
      (forall x, In x xs -> x <> z -> s x <> s z) ->
      (~ In z xs -> entry m vr c c' z (s z)) ->
      entry m vr (bind_args xs vs c) (bind_args (map s xs) vs' c') z (s z).
    Proof.
      induction xs as [|x xs IH]; intros vs vs' c c' z Hv Hlen Hinj Hc; cbn; [apply Hc; auto|].
      destruct Hv as [|v v' vs vs' Hv Hvs]; [discriminate|].
      apply IH; auto; [intros; apply Hinj; [right|]; assumption|].
      intros Hz. destruct (String.eqb_spec z x) as [->|Hne].
      - apply entry_cons_here. assumption.
      - apply entry_cons_there; auto.
        + apply not_eq_sym. apply Hinj; [left; reflexivity|]. auto.
        + apply Hc. intros [E|E]; auto.
    Qed.

    Lemma hn_sub (B F : string -> Prop) bs fs bs' fs' :
      hygienic_names B F bs fs -> (forall x, In x bs' -> In x bs) ->
      (forall x, In x fs' -> In x fs \/ In x bs) -> hygienic_names B F bs' fs'.
    Proof.
      intros [H1 H2 H3] Hb Hf. split; auto.
      intros x Hx. destruct (Hf _ Hx); auto.
    Qed.

    Lemma map_state_sim (A : Type) (R : A -> A -> Prop) (f : A -> counts -> A * counts) l :
      Forall (fun a => forall cs, R a (fst (f a cs))) l ->
      forall cs, Forall2 R l (fst (map_state f l cs)).
    Proof.
      induction 1 as [|a l Ha _ IH]; intros cs; cbn; [constructor|].
      specialize (Ha cs). destruct (f a cs) as [b cs1]. specialize (IH cs1).
      destruct (map_state f l cs1) as [bs cs2]. constructor; assumption.
    Qed.

    Lemma alpha_eval e : forall B F vars cs rho rho',
      hygienic_names B F (binders e) (fv e) -> okvars B vars -> renamed (fv e) vars rho rho' ->
      at_ rho rho' e (fst (alpha vars e cs)).
    Proof.
      induction e as [l|x|o es IH|c t e IHc IHt IHe|a alts de IHa IHalts IHde|x t b e IHb IHe
                      |d e IHd IHe|o x t e IHo IHe|xs e IHe|xs e IHe] using expr_ind';
        intros B F vars cs rho rho' Hn Hv Hr; cbn [alpha].
      - apply lit_at.
      - apply var_at; [apply alpha_agree|]. apply Hr. left. reflexivity.
      - assert (Hes : Forall2 (at_ rho rho') es (fst (map_state (alpha vars) es cs))).
        { apply map_state_sim. rewrite Forall_forall in IH |- *. intros e He cs'.
          apply (IH e He B F); auto.
          - eapply hn_sub; [exact Hn|..]; cbn; intros y Hy; [|left]; apply in_flat_map; eauto.
          - eapply renamed_sub; [|exact Hr]. intros y Hy. cbn. apply in_flat_map. eauto. }
        destruct (map_state (alpha vars) es cs) as [es' cs']. cbn [fst] in *.
        apply op_at; [apply alpha_agree|assumption..].
      - assert (Hc : forall cs, at_ rho rho' c (fst (alpha vars c cs))).
        { intros cs'. apply (IHc B F); auto.
          - eapply hn_sub; [exact Hn|..]; cbn; intros y Hy; rewrite !in_app_iff; auto.
          - eapply renamed_sub; [|exact Hr]. intros y Hy. cbn. rewrite !in_app_iff. auto. }
        assert (Ht : forall cs, at_ rho rho' t (fst (alpha vars t cs))).
        { intros cs'. apply (IHt B F); auto.
          - eapply hn_sub; [exact Hn|..]; cbn; intros y Hy; rewrite !in_app_iff; auto.
          - eapply renamed_sub; [|exact Hr]. intros y Hy. cbn. rewrite !in_app_iff. auto. }
        assert (He : forall cs, at_ rho rho' e (fst (alpha vars e cs))).
        { intros cs'. apply (IHe B F); auto.
          - eapply hn_sub; [exact Hn|..]; cbn; intros y Hy; rewrite !in_app_iff; auto.
          - eapply renamed_sub; [|exact Hr]. intros y Hy. cbn. rewrite !in_app_iff. auto. }
        specialize (Hc cs). destruct (alpha vars c cs) as [c' cs1].
        specialize (Ht cs1). destruct (alpha vars t cs1) as [t' cs2].
        specialize (He cs2). destruct (alpha vars e cs2) as [e' cs3].
        apply if_at; assumption.
      - assert (Ha : forall cs, at_ rho rho' a (fst (alpha vars a cs))).
        { intros cs'. apply (IHa B F); auto.
          - eapply hn_sub; [exact Hn|..]; cbn; intros y Hy; rewrite !in_app_iff; auto.
          - eapply renamed_sub; [|exact Hr]. intros y Hy. cbn. rewrite !in_app_iff. auto. }
        assert (Halts : forall cs, Forall2 (alt_at m m' Lexical Lexical w alpha_crel lrel call call' rho rho')
                          alts (fst (map_state (fun al cs =>
                                 let '(y, cs) := rename (a_name al) cs in
                                 let '(b, cs) := alpha ((a_name al, y) :: vars) (a_body al) cs in
                                 (Alt (a_types al) y b, cs)) alts cs))).
        { apply map_state_sim. rewrite Forall_forall in IHalts |- *. intros al Hal cs'.
          cbn [rename]. set (k := count cs' (a_name al)).
          assert (Hx : B (a_name al)).
          { apply (hn_binders _ _ _ _ Hn). cbn. rewrite !in_app_iff, in_flat_map. right. left.
            exists al. split; [assumption|left; reflexivity]. }
          assert (Hsub : hygienic_names B F (binders (a_body al)) (fv (a_body al))).
          { eapply hn_sub; [exact Hn|..]; cbn; intros y Hy; rewrite !in_app_iff, !in_flat_map.
            - right. left. exists al. split; [assumption|right; assumption].
            - destruct (string_dec y (a_name al)) as [->|Hne].
              + right. right. left. exists al. split; [assumption|left; reflexivity].
              + left. right. left. exists al. split; [assumption|]. apply in_except. auto. }
          pose proof (fun v v' Hvv => IHalts al Hal B F ((a_name al, versioned (a_name al) k) :: vars)
             ((a_name al, S k) :: cs') ((a_name al, v) :: rho) ((versioned (a_name al) k, v') :: rho')
             Hsub (okvars_cons B vars _ _ Hx Hv)
             (renamed_cons B F _ vars rho rho' _ k v v' (hn_hyg _ _ _ _ Hn) Hv Hx (hn_free _ _ _ _ Hsub) Hvv
                (renamed_sub _ _ vars rho rho' (fun y Hy => proj2 (in_app_iff _ _ _) (or_intror
                   (proj2 (in_app_iff _ _ _) (or_introl (proj2 (in_flat_map _ _ _) (ex_intro _ al (conj Hal Hy)))))))
                   Hr))) as Hb.
          destruct (alpha ((a_name al, versioned (a_name al) k) :: vars) (a_body al) ((a_name al, S k) :: cs'))
            as [b cs2].
          split; [reflexivity|]. intros v v' Hvv. apply Hb. assumption. }
        specialize (Ha cs). destruct (alpha vars a cs) as [a' cs1].
        specialize (Halts cs1). destruct (map_state _ alts cs1) as [alts' cs2].
        destruct de as [[x e]|].
        + cbn [rename]. set (k := count cs2 x).
          assert (Hx : B x).
          { apply (hn_binders _ _ _ _ Hn). cbn. rewrite !in_app_iff. right. right. left. reflexivity. }
          assert (Hsub : hygienic_names B F (binders e) (fv e)).
          { eapply hn_sub; [exact Hn|..]; cbn; intros y Hy; rewrite !in_app_iff.
            - right. right. right. assumption.
            - destruct (string_dec y x) as [->|Hne].
              + right. right. right. left. reflexivity.
              + left. right. right. apply in_except. auto. }
          assert (He : under m m' Lexical Lexical w alpha_crel lrel call call' rho rho' x (versioned x k)
                        e (fst (alpha ((x, versioned x k) :: vars) e ((x, S k) :: cs2)))).
          { intros v v' Hvv. eapply (IHde x e eq_refl B F); [exact Hsub|apply okvars_cons; assumption|].
            eapply renamed_cons; eauto using hn_hyg, hn_free.
            eapply renamed_sub; [|exact Hr]. intros y Hy. cbn. rewrite !in_app_iff. auto. }
          destruct (alpha ((x, versioned x k) :: vars) e ((x, S k) :: cs2)) as [e' cs3].
          apply case_at; try assumption. constructor. exact He.
        + apply case_at; try assumption. constructor.
      - cbn [rename]. set (k := count cs x). set (cs1 := (x, S k) :: cs).
        assert (Hx : B x) by (apply (hn_binders _ _ _ _ Hn); left; reflexivity).
        assert (Hb : at_ rho rho' b (fst (alpha vars b cs1))).
        { apply (IHb B F); auto.
          - eapply hn_sub; [exact Hn|..]; cbn; intros y Hy; rewrite !in_app_iff; auto.
          - eapply renamed_sub; [|exact Hr]. intros y Hy. cbn. rewrite !in_app_iff. auto. }
        assert (Hsub : hygienic_names B F (binders e) (fv e)).
        { eapply hn_sub; [exact Hn|..]; cbn; intros y Hy; rewrite !in_app_iff; auto.
          destruct (string_dec y x) as [->|Hne]; [auto|]. left. right. apply in_except. auto. }
        assert (He : forall cs, under m m' Lexical Lexical w alpha_crel lrel call call' rho rho' x (versioned x k)
                        e (fst (alpha ((x, versioned x k) :: vars) e cs))).
        { intros cs' v v' Hvv. eapply (IHe B F); [exact Hsub|apply okvars_cons; assumption|].
          eapply renamed_cons; eauto using hn_hyg, hn_free.
          eapply renamed_sub; [|exact Hr]. intros y Hy. cbn. rewrite !in_app_iff. auto. }
        destruct (alpha vars b cs1) as [b' cs2]. specialize (He cs2).
        destruct (alpha ((x, versioned x k) :: vars) e cs2) as [e' cs3].
        apply let_at; assumption.
      - cbn [rename]. set (k := count cs (f_name d)). set (cs1 := (f_name d, S k) :: cs).
        set (vars1 := (f_name d, versioned (f_name d) k) :: vars).
        assert (Hx : B (f_name d)) by (apply (hn_binders _ _ _ _ Hn); left; reflexivity).
        destruct (rename_args (map fst (f_args d)) vars1 cs1) as [inner cs2] eqn:Eargs.
        destruct (alpha inner (f_body d) cs2) as [b cs3] eqn:Eb.
        assert (Hdef : alpha_def vars d cs =
                       Fdef (versioned (f_name d) k) (subst_args inner (f_env d))
                            (subst_args inner (f_args d)) (f_result d) b (f_thunk d)).
        { unfold alpha_def. cbn [rename]. fold k cs1 vars1. rewrite Eargs, Eb. reflexivity. }
        assert (He : under m m' Lexical Lexical w alpha_crel lrel call call' rho rho' (f_name d)
                           (versioned (f_name d) k) e (fst (alpha vars1 e cs3))).
        { intros v v' Hvv. eapply (IHe B F); [|apply okvars_cons; assumption|].
          - eapply hn_sub; [exact Hn|..]; cbn [binders]; intros y Hy.
            + right. rewrite !in_app_iff. auto.
            + destruct (string_dec y (f_name d)) as [->|Hne]; [right; left; reflexivity|].
              left. apply in_fv_letrec. auto.
          - eapply renamed_cons; eauto using hn_hyg.
            + intros z Hz. destruct (string_dec z (f_name d)) as [->|Hne]; [auto|].
              apply (hn_free _ _ _ _ Hn). apply in_fv_letrec. auto.
            + eapply renamed_sub; [|exact Hr]. intros y Hy. apply in_except in Hy as [Hy Hne].
              apply in_fv_letrec. auto. }
        destruct (alpha vars1 e cs3) as [e' cs4]. cbn [fst] in *.
        rewrite <- Hdef. apply letrec_at.
        + rewrite Hdef. reflexivity.
        + intros c Hc. cbn [capture] in *. injection Hc as <-.
          exists rho', (fun x y => y = subst vars x /\ In x (def_fv d)). split; [reflexivity|]. split.
          * exists B, F, vars, cs. split; [|auto].
            eapply hn_sub; [exact Hn|..].
            -- cbn [binders]. intros y [Hy|Hy]; [left; assumption|]. right. rewrite !in_app_iff in *. tauto.
            -- intros y Hy. apply in_def_fv in Hy as (H1 & H2 & H3). left. apply in_fv_letrec. auto.
          * intros x y [-> Hxd]. apply Hr. apply in_def_fv in Hxd as (H1 & H2 & H3).
            apply in_fv_letrec. auto.
        + rewrite Hdef. exact He.
      - cbn [rename]. set (k := count cs x). set (cs1 := (x, S k) :: cs).
        assert (Hx : B x) by (apply (hn_binders _ _ _ _ Hn); left; reflexivity).
        assert (Hb : at_ rho rho' o (fst (alpha vars o cs1))).
        { apply (IHo B F); auto.
          - eapply hn_sub; [exact Hn|..]; cbn; intros y Hy; rewrite !in_app_iff; auto.
          - eapply renamed_sub; [|exact Hr]. intros y Hy. cbn. rewrite !in_app_iff. auto. }
        assert (Hsub : hygienic_names B F (binders e) (fv e)).
        { eapply hn_sub; [exact Hn|..]; cbn; intros y Hy; rewrite !in_app_iff; auto.
          destruct (string_dec y x) as [->|Hne]; [auto|]. left. right. apply in_except. auto. }
        assert (He : forall cs, under m m' Lexical Lexical w alpha_crel lrel call call' rho rho' x (versioned x k)
                        e (fst (alpha ((x, versioned x k) :: vars) e cs))).
        { intros cs' v v' Hvv. eapply (IHe B F); [exact Hsub|apply okvars_cons; assumption|].
          eapply renamed_cons; eauto using hn_hyg, hn_free.
          eapply renamed_sub; [|exact Hr]. intros y Hy. cbn. rewrite !in_app_iff. auto. }
        destruct (alpha vars o cs1) as [o' cs2]. specialize (He cs2).
        destruct (alpha ((x, versioned x k) :: vars) e cs2) as [e' cs3].
        apply try_at; assumption.
      - specialize (IHe B F vars cs rho rho' Hn Hv Hr). destruct (alpha vars e cs). apply clone_at. assumption.
      - specialize (IHe B F vars cs rho rho' Hn Hv Hr). destruct (alpha vars e cs). apply drop_at. assumption.
    Qed.
  End Body.
End Alpha.

Lemma find_def_in defs g d : find_def defs g = Some d -> In d defs /\ f_name d = g.
Proof.
  unfold find_def. intros H. apply find_some in H as [H E].
  apply String.eqb_eq in E. auto.
Qed.

Theorem alpha_refines m : infos_ok m -> hygienic m -> refines Lexical m Lexical (alpha_module m).
Proof.
  intros Hi Hyg. apply sim_refines with (crel := alpha_crel) (lrel := fun _ _ => False).
  - apply alpha_agree. assumption.
  - intros w call call' d d' c c' ps f f' vs vs' st st' Hcall
           (B & F & vars & cs & Hn & Hv & -> & ->) Hc Hf Hk Hvs Hlen Hs.
    assert (Hx : B (f_name d)) by (apply (hn_binders _ _ _ _ Hn); left; reflexivity).
    unfold alpha_def in *. cbn [rename] in *. set (k := count cs (f_name d)) in *.
    set (cs1 := (f_name d, S k) :: cs) in *.
    set (vars1 := (f_name d, versioned (f_name d) k) :: vars) in *.
    pose proof (rename_args_skip (map fst (f_args d)) vars1 cs1) as Hskip.
    pose proof (rename_args_ok B (map fst (f_args d)) vars1 cs1) as Hok.
    destruct (rename_args (map fst (f_args d)) vars1 cs1) as [inner cs2]. cbn [fst] in *.
    assert (Hv1 : okvars B vars1) by (apply okvars_cons; assumption).
    assert (Hin : okvars B inner).
    { apply Hok; [|assumption]. intros x Hxx. apply (hn_binders _ _ _ _ Hn). right. apply in_app_iff. auto. }
    assert (Hsub : hygienic_names B F (binders (f_body d)) (fv (f_body d))).
    { eapply hn_sub; [exact Hn|..].
      - intros x Hxx. right. apply in_app_iff. auto.
      - intros x Hxx. destruct (string_dec x (f_name d)) as [->|Hne]; [right; left; reflexivity|].
        destruct (in_dec string_dec x (map fst (f_args d))) as [Ha|Ha].
        + right. right. apply in_app_iff. auto.
        + left. apply in_def_fv. auto. }
    assert (Hargs : forall rho rho', renamed m (fv (f_body d)) inner rho rho' ->
              orel m alpha_crel (fun _ _ => False) (vrel m alpha_crel (fun _ _ => False))
                   (eval Lexical w m call rho st (f_body d))
                   (eval Lexical w (alpha_module m) call' rho' st' (fst (alpha inner (f_body d) cs2)))).
    { intros rho rho' Hren. apply (alpha_eval m w Hi call call' Hcall (f_body d) B F); assumption. }
    destruct (alpha inner (f_body d) cs2) as [b cs3]. cbn [f_args f_name f_body fst] in *.
    apply Hargs. intros z Hz.
    replace (map fst (subst_args inner (f_args d))) with (map (subst inner) (map fst (f_args d)))
      by (unfold subst_args; rewrite !map_map; reflexivity).
    apply entry_bind_args_renamed; [assumption|rewrite map_length; assumption|..].
    + intros x Hxx Hne. eapply subst_inj; eauto using hn_hyg.
      * left. apply (hn_binders _ _ _ _ Hn). right. apply in_app_iff. auto.
      * apply (hn_free _ _ _ _ Hsub). assumption.
    + intros Hna. unfold subst. rewrite (Hskip z Hna). cbn [vars1 lookup].
      destruct (String.eqb_spec z (f_name d)) as [->|Hne].
      * apply entry_cons_here. assumption.
      * assert (Hzd : In z (def_fv d)) by (apply in_def_fv; auto).
        assert (Hd : subst vars1 z <> versioned (f_name d) k).
        { intros E. apply (subst_inj B F (hn_hyg _ _ _ _ Hn) vars1 z (f_name d)); auto.
          - apply (hn_free _ _ _ _ Hn). assumption.
          - rewrite E. unfold subst. cbn. rewrite String.eqb_refl. reflexivity. }
        assert (Es : subst vars1 z = subst vars z).
        { unfold subst. cbn. destruct (String.eqb_spec z (f_name d)); [contradiction|reflexivity]. }
        rewrite Es in Hd. apply entry_cons_there; auto.
  - intros w call call' d g vs vs' st st' Hcall [].
  - intros w call call' g d d' vs vs' st st' Hcall Hd Hd' Hvs Hlen Hs.
    cbn [alpha_module set_defs m_defs] in Hd'.
    rewrite find_def_map, Hd in Hd' by reflexivity. injection Hd' as <-.
    cbn [f_args f_name f_body set_body].
    apply (alpha_eval m w Hi call call' Hcall (f_body d)
             (fun x => In x (binders (f_body d))) (fun x => In x (fv (f_body d)))); auto.
    + split; auto. intros b n Hb Hnn. apply find_def_in in Hd as [Hd _].
      apply (Hyg d Hd b n Hb). destruct Hnn as [H|H]; [auto|]. right. left. apply fv_free. assumption.
    + intros x y. discriminate.
    + intros x Hx. cbn. apply entry_bind_args_one; [assumption|rewrite map_length; assumption|].
      intros _. apply entry_nil.
Qed.

(** *** Distinct binders *)
Section Fresh.
  Variables B F : string -> Prop.
  Hypothesis Hyg : forall b n, B b -> B n \/ F n -> ~ made_from b n.

  (** The names made between two states of the counts. *)
  Record made (cs : counts) (l : list string) (cs' : counts) : Prop := {
    md_mono : forall x, count cs x <= count cs' x;
    md_nodup : NoDup l;
    md_fresh : forall n, In n l -> exists x k, B x /\ count cs x <= k < count cs' x /\ n = versioned x k
  }.

  Lemma made_nil cs : made cs [] cs.
  Proof. split; [auto|constructor|]. intros n []. Qed.

  Lemma nodup_app {A} (a b : list A) :
    NoDup a -> NoDup b -> (forall x, In x a -> In x b -> False) -> NoDup (a ++ b).
  Proof.
    intros Ha Hb H. induction Ha as [|x a Hx Ha IH]; cbn; [assumption|]. constructor.
    - rewrite in_app_iff. intros [E|E]; [contradiction|]. apply (H x); [left; reflexivity|assumption].
    - apply IH. intros y Hy Hy'. apply (H y); [right|]; assumption.
  Qed.

  Lemma made_app cs l cs1 l1 cs2 : made cs l cs1 -> made cs1 l1 cs2 -> made cs (l ++ l1) cs2.
  Proof.
    intros [M1 N1 F1] [M2 N2 F2]. split.
    - intros x. specialize (M1 x). specialize (M2 x). lia.
    - apply nodup_app; try assumption. intros n H1 H2.
      apply F1 in H1 as (x & k & Hx & Hk & ->). apply F2 in H2 as (y & j & Hy & Hj & E).
      apply (versioned_inj B F Hyg) in E as [-> ->]; auto. lia.
    - intros n Hn. apply in_app_iff in Hn as [Hn|Hn].
      + apply F1 in Hn as (x & k & Hx & Hk & ->). exists x, k. specialize (M2 x).
        repeat split; auto; lia.
      + apply F2 in Hn as (x & k & Hx & Hk & ->). exists x, k. specialize (M1 x).
        repeat split; auto; lia.
  Qed.

  Lemma made_rename cs x : B x -> made cs [versioned x (count cs x)] ((x, S (count cs x)) :: cs).
  Proof.
    intros Hx. split.
    - intros y. unfold count. cbn. destruct (String.eqb_spec y x) as [->|]; lia.
    - constructor; [intros []|constructor].
    - intros n [<-|[]]. exists x, (count cs x). split; [assumption|]. split; [|reflexivity].
      assert (E : forall j, count ((x, j) :: cs) x = j)
        by (intros j; unfold count; cbn; rewrite String.eqb_refl; reflexivity).
      rewrite E. lia.
  Qed.

  Lemma made_args xs : forall vars cs, NoDup xs -> (forall x, In x xs -> B x) ->
    made cs (map (subst (fst (rename_args xs vars cs))) xs) (snd (rename_args xs vars cs)).
  Proof.
    induction xs as [|x xs IH]; intros vars cs Hnd HB; cbn [rename_args map fst snd]; [apply made_nil|].
    inversion Hnd as [|? ? Hx Hnd']; subst. cbn [rename].
    set (vars1 := (x, versioned x (count cs x)) :: vars).
    set (cs1 := (x, S (count cs x)) :: cs).
    replace (subst (fst (rename_args xs vars1 cs1)) x) with (versioned x (count cs x)).
    - apply (made_app _ [_] cs1).
      + apply made_rename. apply HB. left. reflexivity.
      + apply IH; [assumption|]. intros y Hy. apply HB. right. assumption.
    - unfold subst. rewrite rename_args_skip by assumption. cbn. rewrite String.eqb_refl. reflexivity.
  Qed.

  Lemma made_map_state {A} (f : A -> counts -> A * counts) (bd : A -> list string) l :
    Forall (fun a => forall cs, made cs (bd (fst (f a cs))) (snd (f a cs))) l ->
    forall cs, made cs (flat_map bd (fst (map_state f l cs))) (snd (map_state f l cs)).
  Proof.
    induction 1 as [|a l Ha _ IH]; intros cs; cbn; [apply made_nil|].
    specialize (Ha cs). destruct (f a cs) as [b cs1]. specialize (IH cs1).
    destruct (map_state f l cs1) as [bs cs2]. cbn in *. eapply made_app; eassumption.
  Qed.

  Lemma alpha_made e : forall lv vars cs,
    (forall scope d, local lv e scope d -> NoDup (map fst (f_args d))) ->
    (forall x, In x (binders e) -> B x) ->
    made cs (binders (fst (alpha vars e cs))) (snd (alpha vars e cs)).
  Proof.
    induction e as [l|x|o es IH|c t e IHc IHt IHe|a alts de IHa IHalts IHde|x t b e IHb IHe
                    |d e IHd IHe|o x t e IHo IHe|xs e IHe|xs e IHe] using expr_ind';
      intros lv vars cs Hl HB; cbn [alpha].
    - apply made_nil.
    - apply made_nil.
    - assert (H : made cs (flat_map binders (fst (map_state (alpha vars) es cs)))
                       (snd (map_state (alpha vars) es cs))).
      { apply made_map_state. rewrite Forall_forall in IH |- *. intros e He cs'. apply (IH e He lv).
        - intros scope d Hd. eapply Hl. eapply local_op; eassumption.
        - intros x Hx. apply HB. cbn. apply in_flat_map. eauto. }
      destruct (map_state (alpha vars) es cs) as [es' cs']. exact H.
    - assert (Hc : forall cs, made cs (binders (fst (alpha vars c cs))) (snd (alpha vars c cs))).
      { intros cs'. apply (IHc lv).
        - intros scope d Hd. eapply Hl. apply local_if_1. eassumption.
        - intros x Hx. apply HB. cbn. rewrite !in_app_iff. auto. }
      assert (Ht : forall cs, made cs (binders (fst (alpha vars t cs))) (snd (alpha vars t cs))).
      { intros cs'. apply (IHt lv).
        - intros scope d Hd. eapply Hl. apply local_if_2. eassumption.
        - intros x Hx. apply HB. cbn. rewrite !in_app_iff. auto. }
      assert (He : forall cs, made cs (binders (fst (alpha vars e cs))) (snd (alpha vars e cs))).
      { intros cs'. apply (IHe lv).
        - intros scope d Hd. eapply Hl. apply local_if_3. eassumption.
        - intros x Hx. apply HB. cbn. rewrite !in_app_iff. auto. }
      specialize (Hc cs). destruct (alpha vars c cs) as [c' cs1].
      specialize (Ht cs1). destruct (alpha vars t cs1) as [t' cs2].
      specialize (He cs2). destruct (alpha vars e cs2) as [e' cs3].
      cbn in *. eapply made_app; [eassumption|]. eapply made_app; eassumption.
    - assert (Ha : forall cs, made cs (binders (fst (alpha vars a cs))) (snd (alpha vars a cs))).
      { intros cs'. apply (IHa lv).
        - intros scope d Hd. eapply Hl. apply local_case_argument. eassumption.
        - intros x Hx. apply HB. cbn. rewrite !in_app_iff. auto. }
      assert (Halts : forall cs,
        made cs (flat_map (fun al => a_name al :: binders (a_body al))
                   (fst (map_state (fun al cs =>
                                 let '(y, cs) := rename (a_name al) cs in
                                 let '(b, cs) := alpha ((a_name al, y) :: vars) (a_body al) cs in
                                 (Alt (a_types al) y b, cs)) alts cs)))
             (snd (map_state (fun al cs =>
                                 let '(y, cs) := rename (a_name al) cs in
                                 let '(b, cs) := alpha ((a_name al, y) :: vars) (a_body al) cs in
                                 (Alt (a_types al) y b, cs)) alts cs))).
      { intros cs'. apply (made_map_state _ (fun al => a_name al :: binders (a_body al))).
        rewrite Forall_forall in IHalts |- *. intros al Hal cs2. cbn [rename].
        set (k := count cs2 (a_name al)). set (cs3 := (a_name al, S k) :: cs2).
        assert (Hb : made cs3 (binders (fst (alpha ((a_name al, versioned (a_name al) k) :: vars) (a_body al) cs3)))
                          (snd (alpha ((a_name al, versioned (a_name al) k) :: vars) (a_body al) cs3))).
        { apply (IHalts al Hal ((a_name al, alt_type (a_types al)) :: lv)).
          - intros scope d Hd. eapply Hl. eapply local_case_alternative; eassumption.
          - intros x Hx. apply HB. cbn. rewrite !in_app_iff, in_flat_map. right. left.
            exists al. split; [assumption|right; assumption]. }
        destruct (alpha _ (a_body al) cs3) as [b cs4]. cbn [fst snd a_name a_body] in *.
        apply (made_app _ [_] cs3); [|assumption]. apply made_rename. apply HB. cbn.
        rewrite !in_app_iff, in_flat_map. right. left. exists al. split; [assumption|left; reflexivity]. }
      specialize (Ha cs). destruct (alpha vars a cs) as [a' cs1].
      specialize (Halts cs1). destruct (map_state _ alts cs1) as [alts' cs2].
      destruct de as [[x e]|]; cbn [fst snd binders] in *.
      + cbn [rename]. set (k := count cs2 x). set (cs3 := (x, S k) :: cs2).
        assert (He : made cs3 (binders (fst (alpha ((x, versioned x k) :: vars) e cs3)))
                          (snd (alpha ((x, versioned x k) :: vars) e cs3))).
        { apply (IHde x e eq_refl ((x, TVariant) :: lv)).
          - intros scope d Hd. eapply Hl. apply local_case_default. eassumption.
          - intros y Hy. apply HB. cbn. rewrite !in_app_iff. right. right. right. assumption. }
        destruct (alpha ((x, versioned x k) :: vars) e cs3) as [e' cs4]. cbn [fst snd binders] in *.
        eapply made_app; [eassumption|]. eapply made_app; [eassumption|].
        apply (made_app _ [_] cs3); [|assumption]. apply made_rename. apply HB. cbn.
        rewrite !in_app_iff. right. right. left. reflexivity.
      + rewrite app_nil_r. eapply made_app; eassumption.
    - cbn [rename]. set (k := count cs x). set (cs1 := (x, S k) :: cs).
      assert (Hb : made cs1 (binders (fst (alpha vars b cs1))) (snd (alpha vars b cs1))).
      { apply (IHb lv).
        - intros scope d Hd. eapply Hl. apply local_let_bound. eassumption.
        - intros y Hy. apply HB. cbn. rewrite !in_app_iff. auto. }
      assert (He : forall cs, made cs (binders (fst (alpha ((x, versioned x k) :: vars) e cs)))
                                   (snd (alpha ((x, versioned x k) :: vars) e cs))).
      { intros cs'. apply (IHe ((x, t) :: lv)).
        - intros scope d Hd. eapply Hl. apply local_let_body. eassumption.
        - intros y Hy. apply HB. cbn. rewrite !in_app_iff. auto. }
      destruct (alpha vars b cs1) as [b' cs2]. specialize (He cs2).
      destruct (alpha ((x, versioned x k) :: vars) e cs2) as [e' cs3]. cbn [fst snd binders] in *.
      apply (made_app _ [_] cs1).
      + apply made_rename. apply HB. left. reflexivity.
      + eapply made_app; eassumption.
    - cbn [rename]. set (k := count cs (f_name d)). set (cs1 := (f_name d, S k) :: cs).
      set (vars1 := (f_name d, versioned (f_name d) k) :: vars).
      pose proof (made_args (map fst (f_args d)) vars1 cs1 (Hl _ _ (local_here lv d e))) as Hargs.
      destruct (rename_args (map fst (f_args d)) vars1 cs1) as [inner cs2]. cbn [fst snd] in Hargs.
      assert (Hb : made cs2 (binders (fst (alpha inner (f_body d) cs2))) (snd (alpha inner (f_body d) cs2))).
      { eapply IHd.
        - intros scope d0 Hd. eapply Hl. apply local_definition. exact Hd.
        - intros y Hy. apply HB. cbn. rewrite !in_app_iff. auto. }
      assert (He : forall cs, made cs (binders (fst (alpha vars1 e cs))) (snd (alpha vars1 e cs))).
      { intros cs'. eapply IHe.
        - intros scope d0 Hd. eapply Hl. apply local_letrec_body. exact Hd.
        - intros y Hy. apply HB. cbn. rewrite !in_app_iff. auto. }
      destruct (alpha inner (f_body d) cs2) as [b cs3]. specialize (He cs3).
      destruct (alpha vars1 e cs3) as [e' cs4]. cbn [fst snd binders f_name f_args f_body] in *.
      apply (made_app _ [_] cs1).
      + apply made_rename. apply HB. left. reflexivity.
      + apply (made_app _ _ cs2).
        * unfold subst_args. rewrite map_map. cbn [fst]. rewrite map_map in Hargs. apply Hargs.
          intros y Hy. apply HB. right. rewrite !in_app_iff. auto.
        * eapply made_app; eassumption.
    - cbn [rename]. set (k := count cs x). set (cs1 := (x, S k) :: cs).
      assert (Hb : made cs1 (binders (fst (alpha vars o cs1))) (snd (alpha vars o cs1))).
      { apply (IHo lv).
        - intros scope d Hd. eapply Hl. apply local_try_operand. eassumption.
        - intros y Hy. apply HB. cbn. rewrite !in_app_iff. auto. }
      assert (He : forall cs, made cs (binders (fst (alpha ((x, versioned x k) :: vars) e cs)))
                                   (snd (alpha ((x, versioned x k) :: vars) e cs))).
      { intros cs'. apply (IHe ((x, t) :: lv)).
        - intros scope d Hd. eapply Hl. apply local_try_body. eassumption.
        - intros y Hy. apply HB. cbn. rewrite !in_app_iff. auto. }
      destruct (alpha vars o cs1) as [b' cs2]. specialize (He cs2).
      destruct (alpha ((x, versioned x k) :: vars) e cs2) as [e' cs3]. cbn [fst snd binders] in *.
      apply (made_app _ [_] cs1).
      + apply made_rename. apply HB. left. reflexivity.
      + eapply made_app; eassumption.
    - specialize (IHe lv vars cs). destruct (alpha vars e cs). apply IHe; [|assumption].
      intros scope d Hd. eapply Hl. apply local_clone. eassumption.
    - specialize (IHe lv vars cs). destruct (alpha vars e cs). apply IHe; [|assumption].
      intros scope d Hd. eapply Hl. apply local_drop. eassumption.
  Qed.
End Fresh.

Lemma global_counted m x : global_type m x <> None -> count (global_counts m) x = 1.
Proof.
  intros H. unfold count, global_counts.
  assert (Hin : In x (map fst (m_declared m) ++ map f_name (m_defs m))).
  { unfold global_type in H. apply in_app_iff. destruct (find_def (m_defs m) x) as [d|] eqn:E.
    - right. apply find_def_in in E as [E <-]. apply in_map. assumption.
    - left. destruct (lookup (m_declared m) x) as [t|] eqn:El; [|congruence].
      apply lookup_In in El. apply (in_map fst) in El. exact El. }
  revert Hin. generalize (map fst (m_declared m) ++ map f_name (m_defs m)).
  intros l. induction l as [|y l IH]; cbn; [intros []|].
  destruct (String.eqb_spec x y) as [->|Hne]; [reflexivity|]. intros [E|E]; [congruence|auto].
Qed.

Theorem alpha_distinct m d : hygienic m -> distinct_arguments m -> In d (m_defs (alpha_module m)) ->
  NoDup (binders (f_body d)) /\ forall x, In x (binders (f_body d)) -> global_type m x = None.
Proof.
  intros Hyg Hargs Hd. cbn in Hd. apply in_map_iff in Hd as (d0 & <- & Hd0).
  cbn [set_body f_body].
  destruct (alpha_made (fun x => In x (binders (f_body d0)))
              (fun x => free x (f_body d0) \/ global_type m x <> None)
              (Hyg d0 Hd0) (f_body d0) (rev (f_args d0)) [] (global_counts m)) as [_ Hnd Hfr]; auto.
  { intros scope d Hl. apply (Hargs scope d). exists d0. auto. }
  split; [assumption|]. intros x Hx. apply Hfr in Hx as (y & k & Hy & Hk & ->).
  destruct (global_type m (versioned y k)) eqn:E; [|reflexivity]. exfalso.
  destruct k as [|k].
  - cbn in E. rewrite global_counted in Hk by congruence. lia.
  - apply (Hyg d0 Hd0 y (versioned y (S k)) Hy); [right; right; congruence|]. exists (S k). auto.
Qed.
