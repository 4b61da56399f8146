(** Environment inference finds exactly the captured variables and preserves
    behaviour. *)
From Coq Require Import String List ZArith Bool Lia.
From Verif Require Import Base Mir MirSpec MirScopeSpec MirSim MirConcatProofs MirEnv.
Import ListNotations.

Lemma in_except x y ys : In x (except y ys) <-> In x ys /\ x <> y.
Proof.
  unfold except. rewrite filter_In, negb_true_iff, String.eqb_neq. tauto.
Qed.

Lemma in_fv_letrec x d e :
  In x (fv (LetRec d e)) <->
  x <> f_name d /\
  (In x (fv (f_body d)) /\ ~ In x (map fst (f_args d)) \/ In x (fv e)).
Proof.
  cbn [fv]. rewrite in_except, in_app_iff, filter_In, andb_true_iff, !negb_true_iff,
    String.eqb_neq, mem_false. tauto.
Qed.

Theorem fv_free x e : In x (fv e) <-> free x e.
Proof.
  induction e as [l|y|o es IH|c t e IHc IHt IHe|a alts de IHa IHalts IHde|y t b e IHb IHe
                  |d e IHd IHe|o y t e IHo IHe|ys e IHe|ys e IHe] using expr_ind'.
  - split; [intros []|]. inversion 1.
  - cbn. split; [intros [->|[]]; constructor|]. inversion 1; auto.
  - cbn [fv]. rewrite in_flat_map. rewrite Forall_forall in IH. split.
    + intros (e & He & Hx). econstructor; [eassumption|]. apply IH; assumption.
    + inversion 1; subst. exists e. split; [assumption|]. apply IH; assumption.
  - cbn [fv]. rewrite !in_app_iff, IHc, IHt, IHe. split.
    + intros [H|[H|H]]; [apply free_if_1|apply free_if_2|apply free_if_3]; assumption.
    + inversion 1; subst; auto.
  - cbn [fv]. rewrite !in_app_iff, IHa, in_flat_map. rewrite Forall_forall in IHalts. split.
    + intros [H|[(al & Hal & Hx)|H]].
      * apply free_case_argument. assumption.
      * apply in_except in Hx as [Hx Hne]. eapply free_case_alternative; eauto. apply IHalts; assumption.
      * destruct de as [[y e]|]; [|destruct H]. apply in_except in H as [H Hne].
        apply free_case_default; [assumption|]. eapply IHde; [reflexivity|assumption].
    + inversion 1; subst; auto.
      * right. left. exists al. split; [assumption|]. apply in_except. split; [|assumption].
        apply IHalts; assumption.
      * right. right. apply in_except. split; [|assumption]. eapply IHde; [reflexivity|assumption].
  - cbn [fv]. rewrite in_app_iff, in_except, IHb, IHe. split.
    + intros [H|[H Hne]]; [apply free_let_bound|apply free_let_body]; assumption.
    + inversion 1; subst; auto.
  - rewrite in_fv_letrec, IHd, IHe. split.
    + intros [Hne [[H Ha]|H]]; [apply free_letrec_definition|apply free_letrec_body]; assumption.
    + inversion 1; subst; tauto.
  - cbn [fv]. rewrite in_app_iff, in_except, IHo, IHe. split.
    + intros [H|[H Hne]]; [apply free_try_operand|apply free_try_body]; assumption.
    + inversion 1; subst; auto.
  - cbn [fv]. rewrite IHe. split; [apply free_clone|]. inversion 1; subst; auto.
  - cbn [fv]. rewrite IHe. split; [apply free_drop|]. inversion 1; subst; auto.
Qed.

(** *** The environments *)
Lemma in_distinct x xs : In x (distinct xs) <-> In x xs.
Proof.
  induction xs as [|y xs IH]; cbn; [tauto|]. rewrite in_except, IH.
  destruct (string_dec x y); intuition congruence.
Qed.

Lemma nodup_distinct xs : NoDup (distinct xs).
Proof.
  induction xs as [|y xs IH]; cbn; constructor.
  - rewrite in_except. tauto.
  - apply NoDup_filter. assumption.
Qed.

Lemma map_fst_pick (vars : arguments) xs :
  map fst (flat_map (fun x => match lookup vars x with Some t => [(x, t)] | None => [] end) xs) =
  filter (fun x => match lookup vars x with Some _ => true | None => false end) xs.
Proof.
  induction xs as [|x xs IH]; cbn; [reflexivity|].
  rewrite map_app, IH. destruct (lookup vars x); reflexivity.
Qed.

Lemma infer_env_nodup vars d : NoDup (map fst (infer_env vars d)).
Proof.
  unfold infer_env. rewrite map_fst_pick. apply NoDup_filter, NoDup_filter, nodup_distinct.
Qed.

Lemma in_infer_env vars d x t :
  In (x, t) (infer_env vars d) <->
  lookup vars x = Some t /\ In x (fv (f_body d)) /\ x <> f_name d /\ ~ In x (map fst (f_args d)).
Proof.
  unfold infer_env. rewrite in_flat_map. split.
  - intros (y & Hy & Hx). destruct (lookup vars y) as [t'|] eqn:Hl; [|destruct Hx].
    destruct Hx as [[= -> ->]|[]]. apply filter_In in Hy as [Hy Hm].
    rewrite in_distinct in Hy. apply negb_true_iff, mem_false in Hm. cbn in Hm.
    repeat split; auto.
  - intros (Hl & Hx & Hn & Ha). exists x. rewrite Hl. split; [|left; reflexivity].
    apply filter_In. split; [apply in_distinct; assumption|].
    apply negb_true_iff, mem_false. intros [E|E]; auto.
Qed.

Lemma infer_fv e : forall vars, fv (infer vars e) = fv e.
Proof.
  induction e as [l|y|o es IH|c t e IHc IHt IHe|a alts de IHa IHalts IHde|y t b e IHb IHe
                  |d e IHd IHe|o y t e IHo IHe|ys e IHe|ys e IHe] using expr_ind'; intros vars;
    cbn [infer fv]; auto.
  - induction IH as [|e es He _ IH]; cbn; [reflexivity|]. rewrite He, IH. reflexivity.
  - rewrite IHc, IHt, IHe. reflexivity.
  - rewrite IHa. f_equal. f_equal.
    + clear -IHalts. induction IHalts as [|al alts Hal _ IH]; cbn; [reflexivity|].
      rewrite Hal, IH. reflexivity.
    + destruct de as [[x e]|]; [|reflexivity]. rewrite (IHde x e) by reflexivity. reflexivity.
  - rewrite IHb, IHe. reflexivity.
  - cbn [f_name f_args f_body]. rewrite IHd, IHe. reflexivity.
  - rewrite IHo, IHe. reflexivity.
Qed.

Lemma infer_local e : forall vars scope l,
    local vars (infer vars e) scope l ->
    exists d, l = Fdef (f_name d) (infer_env scope d) (f_args d) (f_result d)
                       (infer (add_args (f_args d) ((f_name d, f_type d) :: scope)) (f_body d)) (f_thunk d).
Proof.
  induction e as [l|y|o es IH|c t e IHc IHt IHe|a alts de IHa IHalts IHde|y t b e IHb IHe
                  |d e IHd IHe|o y t e IHo IHe|ys e IHe|ys e IHe] using expr_ind'; intros vars scope r H;
    cbn [infer] in H.
  - inversion H.
  - inversion H.
  - inversion H; subst. match goal with HI : In _ (map _ _) |- _ => apply in_map_iff in HI as (x & <- & Hx) end.
    rewrite Forall_forall in IH. eapply IH; eassumption.
  - inversion H; subst; eauto.
  - destruct de as [[x0 e0]|]; inversion H; subst; eauto;
      try (match goal with HI : In _ (map _ _) |- _ => apply in_map_iff in HI as (x & <- & Hx) end;
           rewrite Forall_forall in IHalts; cbn [a_name a_types a_body] in *; eapply IHalts; eassumption).
  - inversion H; subst; eauto.
  - inversion H; subst; eauto.
  - inversion H; subst; eauto.
  - inversion H; subst; eauto.
  - inversion H; subst; eauto.
Qed.

Theorem infer_exact m scope d :
  local_function (infer_module m) scope d ->
  NoDup (map fst (f_env d)) /\
  forall x t, In (x, t) (f_env d) <->
    lookup scope x = Some t /\ free x (f_body d) /\ x <> f_name d /\ ~ In x (map fst (f_args d)).
Proof.
  intros (g & Hg & Hl). cbn in Hg. apply in_map_iff in Hg as (g0 & <- & _).
  cbn [infer_global f_args f_body] in Hl. unfold add_args in Hl. rewrite app_nil_r in Hl.
  apply infer_local in Hl as (d0 & ->). cbn [f_env f_name f_args f_body]. split.
  - apply infer_env_nodup.
  - intros x t. rewrite <- fv_free, infer_fv. apply in_infer_env.
Qed.

(** *** Behaviour *)
Section Env.
  Variable m : mmodule.
  Let m' := infer_module m.
  Variable w : world.

  Definition infer_local_def (vars : arguments) (d : fdef) : fdef :=
    Fdef (f_name d) (infer_env vars d) (f_args d) (f_result d)
         (infer (add_args (f_args d) ((f_name d, f_type d) :: vars)) (f_body d)) (f_thunk d).

  Definition env_crel (d d' : fdef) (xs : list string * list string) (ps : string -> string -> Prop) : Prop :=
    exists vars, d' = infer_local_def vars d /\
      (forall x, In x (fst xs) <-> lookup vars x <> None) /\
      ps = (fun x y => x = y /\ In x (fv (f_body d)) /\ x <> f_name d /\ ~ In x (map fst (f_args d))).

  Let lrel := fun (_ : fdef) (_ : string) => False.

  Notation vr := (vrel m env_crel lrel).
  Notation sr := (srel m env_crel lrel).

  Hypothesis Hinfos : infos_ok m.

  Lemma env_agree : agree m m' env_crel lrel.
  Proof.
    apply (agree_map m infer_global); try reflexivity; try assumption.
    intros d d' xs ps (vars & -> & _). reflexivity.
  Qed.

  (** The variables in scope are those of the first environment. *)
  Definition scoped (vars : arguments) (rho : env) : Prop :=
    forall x, lookup rho x = None <-> lookup vars x = None.

  Lemma scoped_cons vars rho x t v : scoped vars rho -> scoped ((x, t) :: vars) ((x, v) :: rho).
  Proof.
    intros H y. cbn. destruct (String.eqb y x); [split; discriminate|apply H].
  Qed.

  Lemma scoped_args args : forall vs vars rho, scoped vars rho -> length vs = length args ->
    scoped (add_args args vars) (bind_args (map fst args) vs rho).
  Proof.
    unfold add_args.
    induction args as [|[x t] args IH]; intros vs vars rho H Hlen; cbn; [assumption|].
    destruct vs as [|v vs]; [discriminate|]. rewrite <- app_assoc. cbn.
    apply IH; [|auto]. apply scoped_cons. assumption.
  Qed.

  Lemma in_infer_env_names vars d x :
    In x (map fst (infer_env vars d)) <->
    lookup vars x <> None /\ In x (fv (f_body d)) /\ x <> f_name d /\ ~ In x (map fst (f_args d)).
  Proof.
    rewrite in_map_iff. split.
    - intros ([y t] & <- & H). apply in_infer_env in H as (H & ?). cbn. split; [congruence|assumption].
    - intros (H & ?). destruct (lookup vars x) as [t|] eqn:E; [|congruence].
      exists (x, t). split; [reflexivity|]. apply in_infer_env. auto.
  Qed.

  Lemma capture_infer rho rho' vars d :
    (forall x, In x (fv (f_body d)) -> x <> f_name d -> ~ In x (map fst (f_args d)) ->
               entry m vr rho rho' x x) -> scoped vars rho ->
    exists c', capture_vars (map fst (infer_env vars d)) rho' = Some c' /\
      forall x, In x (fv (f_body d)) -> x <> f_name d -> ~ In x (map fst (f_args d)) ->
                entry m vr rho c' x x.
  Proof.
    intros H Hsc.
    destruct (capture_vars_some (map fst (infer_env vars d)) rho') as (c' & Hc').
    { intros x Hx. apply in_infer_env_names in Hx as (Hl & H1 & H2 & H3).
      destruct (H _ H1 H2 H3) as [v v' E1 E2 Hv|E1 E2|[]]; [congruence| |reflexivity].
      apply Hsc in E1. contradiction. }
    exists c'. split; [exact Hc'|]. intros x H1 H2 H3.
    pose proof (capture_vars_lookup _ _ _ x Hc') as Hl.
    destruct (H _ H1 H2 H3) as [v v' E1 E2 Hv|E1 E2|[]]; [| |reflexivity].
    - econstructor; [exact E1| |exact Hv]. rewrite Hl.
      replace (mem x (map fst (infer_env vars d))) with true; [exact E2|].
      symmetry. apply mem_In. apply in_infer_env_names. repeat split; auto.
      intros E. apply Hsc in E. congruence.
    - apply entry_none; [exact E1|]. intros Hg. destruct (E2 Hg) as [_ E3]. split; [reflexivity|].
      rewrite Hl. destruct (mem x _); [exact E3|reflexivity].
  Qed.

  Lemma scoped_in vars (c : env) x : scoped vars c -> (In x (map fst c) <-> lookup vars x <> None).
  Proof.
    intros H. assert (E : In x (map fst c) <-> lookup c x <> None).
    { clear. induction c as [|[k v] c IH]; cbn; [tauto|].
      destruct (String.eqb_spec x k) as [->|Hne]; [intuition congruence|].
      rewrite <- IH. intuition congruence. }
    rewrite E. rewrite (H x). tauto.
  Qed.

  Lemma in_scoped vars (c : env) : (forall x, In x (map fst c) <-> lookup vars x <> None) -> scoped vars c.
  Proof.
    intros H x. specialize (H x).
    assert (E : In x (map fst c) <-> lookup c x <> None).
    { clear. induction c as [|[k v] c IH]; cbn; [tauto|].
      destruct (String.eqb_spec x k) as [->|Hne]; [intuition congruence|].
      rewrite <- IH. intuition congruence. }
    rewrite E in H. destruct (lookup c x), (lookup vars x); split; intros; try congruence.
    - destruct (proj1 H); congruence.
    - destruct (proj2 H); congruence.
  Qed.

  Section Body.
    Variables call call' : state -> value -> list value -> out value.
    Hypothesis Hcall : callrel m env_crel lrel call call'.
    Notation at_ := (evrel_at m m' Lexical Declared w env_crel lrel call call').

    Lemma infer_eval e : forall vars rho rho',
      scoped vars rho -> (forall x, In x (fv e) -> entry m vr rho rho' x x) ->
      at_ rho rho' e (infer vars e).
    Proof.
      induction e as [l|x|o es IH|c t e IHc IHt IHe|a alts de IHa IHalts IHde|x t b e IHb IHe
                      |d e IHd IHe|o x t e IHo IHe|xs e IHe|xs e IHe] using expr_ind';
        intros vars rho rho' Hsc Hr; cbn [infer];
        assert (Hcons : forall k v v' S, vr v v' -> (forall x, In x (except k S) -> entry m vr rho rho' x x) ->
                          forall x, In x S -> entry m vr ((k, v) :: rho) ((k, v') :: rho') x x)
          by (intros k v v' S Hv HS y Hy; destruct (String.eqb_spec y k) as [->|Hne];
              [apply entry_cons_here; assumption|
               apply entry_cons_there; auto; apply HS; apply in_except; auto]);
        cbn [fv] in Hr.
      - apply lit_at.
      - apply var_at; [apply env_agree|apply Hr; left; reflexivity].
      - apply op_at; [apply env_agree|assumption|].
        clear -IH Hr Hsc. revert Hr. induction IH as [|e es He _ IHes]; cbn; intros Hr; constructor.
        + apply He; [assumption|]. intros x Hx. apply Hr, in_app_iff. auto.
        + apply IHes. intros x Hx. apply Hr, in_app_iff. auto.
      - apply if_at; [apply IHc|apply IHt|apply IHe]; auto; intros x Hx; apply Hr; rewrite !in_app_iff; auto.
      - apply case_at.
        + apply IHa; auto. intros x Hx. apply Hr. rewrite in_app_iff. auto.
        + assert (Hr' : forall x, In x (flat_map (fun al => except (a_name al) (fv (a_body al))) alts) ->
                                  entry m vr rho rho' x x)
            by (intros x Hx; apply Hr; rewrite !in_app_iff; auto).
          clear Hr. revert Hr'. induction IHalts as [|al alts Hal _ IH]; cbn; intros Hr'; constructor.
          * split; [reflexivity|]. intros v v' Hv. cbn. apply Hal.
            -- apply scoped_cons. assumption.
            -- apply Hcons; [assumption|]. intros x Hx. apply Hr'. rewrite in_app_iff. auto.
          * apply IH. intros x Hx. apply Hr'. rewrite in_app_iff. auto.
        + destruct de as [[x e]|]; constructor. intros v v' Hv.
          eapply IHde; [reflexivity| |].
          * apply scoped_cons. assumption.
          * apply Hcons; [assumption|]. intros y Hy. apply Hr. rewrite !in_app_iff. auto.
      - apply let_at.
        + apply IHb; auto. intros y Hy. apply Hr, in_app_iff. auto.
        + intros v v' Hv. apply IHe; [apply scoped_cons; assumption|].
          apply Hcons; [assumption|]. intros y Hy. apply Hr, in_app_iff. auto.
      - assert (Hdef : forall x, In x (fv (f_body d)) -> x <> f_name d -> ~ In x (map fst (f_args d)) ->
                                 entry m vr rho rho' x x).
        { intros x H1 H2 H3. apply Hr. apply (in_fv_letrec x d e). auto. }
        apply letrec_at; [reflexivity| |].
        + intros c Hc. cbn [capture] in Hc. injection Hc as <-.
          destruct (capture_infer rho rho' vars d Hdef Hsc) as (c' & Hc' & Hent).
          exists c'. eexists. split; [exact Hc'|]. split.
          * exists vars. split; [reflexivity|]. split; [|reflexivity].
            intros x. apply scoped_in. assumption.
          * intros x y (<- & H1 & H2 & H3). apply Hent; assumption.
        + intros v v' Hv. cbn [f_name]. apply IHe; [apply scoped_cons; assumption|].
          apply Hcons; [assumption|]. intros x Hx. apply in_except in Hx as [Hx Hne].
          apply Hr. apply (in_fv_letrec x d e). auto.
      - apply try_at.
        + apply IHo; auto. intros y Hy. apply Hr, in_app_iff. auto.
        + intros v v' Hv. apply IHe; [apply scoped_cons; assumption|].
          apply Hcons; [assumption|]. intros y Hy. apply Hr, in_app_iff. auto.
      - apply clone_at. auto.
      - apply drop_at. auto.
    Qed.
  End Body.
End Env.

Theorem infer_refines m : infos_ok m -> refines Lexical m Declared (infer_module m).
Proof.
  intros Hi. apply sim_refines with (crel := env_crel) (lrel := fun _ _ => False).
  - apply env_agree. assumption.
  - intros w call call' d d' c c' ps f f' vs vs' st st' Hcall (vars & -> & Hxs & ->) Hc Hf Hk Hvs Hlen Hs.
    cbn [f_args f_name f_body infer_local_def]. apply infer_eval; auto.
    + apply scoped_args; [|assumption]. apply scoped_cons. apply in_scoped. assumption.
    + intros x Hx. apply entry_bind_args_one; [assumption|rewrite map_length; assumption|].
      intros Ha. destruct (String.eqb_spec x (f_name d)) as [->|Hne].
      * apply entry_cons_here. assumption.
      * apply entry_cons_there; auto.
  - intros w call call' d g vs vs' st st' Hcall [].
  - intros w call call' g d d' vs vs' st st' Hcall Hd Hd' Hvs Hlen Hs.
    cbn [infer_module set_defs m_defs] in Hd'.
    rewrite find_def_map, Hd in Hd' by reflexivity. injection Hd' as <-.
    cbn [f_args f_name f_body infer_global]. apply infer_eval; auto.
    + apply scoped_args; [|assumption]. intros x. cbn. tauto.
    + intros x Hx. apply entry_bind_args_one; [assumption|rewrite map_length; assumption|].
      intros _. apply entry_nil.
Qed.
