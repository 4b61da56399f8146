(** The passes of the middle end fit together. *)
From Coq Require Import String List Bool Arith Lia.
From Verif Require Import Base Names Mir MirSpec MirScopeSpec MirNormSpec MirLiftSpec MirPipelineSpec
  MirSim MirConcat MirConcatProofs MirEnv MirEnvProofs MirAlpha MirAlphaProofs MirUniq MirLoose MirNorm MirAliasProofs
  MirNormProofs MirLift MirLiftProofs MirExamples MirLiftExamples MirPipeline.
Import ListNotations.

(** ** Modules with the same global functions *)
Definition same_head (d d' : fdef) : Prop :=
  f_name d' = f_name d /\ f_args d' = f_args d /\ f_result d' = f_result d.

Definition same_globals (m m' : mmodule) : Prop :=
  m_types m' = m_types m /\ m_declared m' = m_declared m /\ m_infos m' = m_infos m /\
  m_fallback m' = m_fallback m /\ Forall2 same_head (m_defs m) (m_defs m').

Lemma same_global_type m m' g : same_globals m m' -> global_type m' g = global_type m g.
Proof.
  intros (_ & Hd & _ & _ & H). unfold global_type. rewrite Hd. clear Hd. unfold find_def.
  induction H as [|d d' l l' (H1 & H2 & H3) _ IH]; cbn; [reflexivity|].
  rewrite H1. destruct (String.eqb g (f_name d)); [|exact IH].
  unfold f_type. rewrite H2, H3. reflexivity.
Qed.

Lemma same_infos m m' : same_globals m m' -> infos_ok m -> infos_ok m'.
Proof.
  intros H [H1 H2]. pose proof H as (_ & _ & Hi & Hf & _). split.
  - intros t g. rewrite Hi, (same_global_type m m' g H). apply H1.
  - rewrite Hf, (same_global_type m m' _ H). exact H2.
Qed.

Lemma same_map m f : (forall d, same_head d (f d)) -> same_globals m (set_defs m (map f (m_defs m))).
Proof.
  intros H. do 4 (split; [reflexivity|]). cbn. induction (m_defs m) as [|d l IH]; cbn; constructor; auto.
Qed.

Lemma same_trans a b c : same_globals a b -> same_globals b c -> same_globals a c.
Proof.
  intros (A1 & A2 & A3 & A4 & A5) (B1 & B2 & B3 & B4 & B5).
  do 4 (split; [congruence|]). clear - A5 B5. revert B5. generalize (m_defs c). intros l.
  revert l. induction A5 as [|d d' l1 l2 (H1 & H2 & H3) _ IH]; intros l Hl; inversion Hl as [|? d'' ? l3 (G1 & G2 & G3) Hl']; subst; constructor.
  - repeat split; congruence.
  - apply IH. assumption.
Qed.

Lemma arity_same m m' o k : same_globals m m' -> arity m o k -> arity m' o k.
Proof. intros (H & _). destruct o; cbn; auto. rewrite H. auto. Qed.

(** ** Lists of operations and local functions *)
Lemma operations_within o k e : In (o, k) (operations e) -> exists es, within (Op o es) e /\ length es = k.
Proof.
  induction e as [l|x|o' es IH|c t e IHc IHt IHe|a alts de IHa IHalts IHde|x t b e IHb IHe
                  |d e IHd IHe|o' x t e IHo IHe|xs e IHe|xs e IHe] using expr_ind'; cbn [operations In];
    rewrite ?in_app_iff, ?in_flat_map; intros H.
  - destruct H.
  - destruct H.
  - destruct H as [[= -> <-]|(e & He & H)]; [exists es; split; [constructor|reflexivity]|].
    rewrite Forall_forall in IH. destruct (IH e He H) as (es' & Hw & <-).
    exists es'. split; [eapply within_op; eassumption|reflexivity].
  - destruct H as [H|[H|H]]; [apply IHc in H|apply IHt in H|apply IHe in H]; destruct H as (es & Hw & <-);
      exists es; (split; [|reflexivity]).
    + apply within_if_1; assumption.
    + apply within_if_2; assumption.
    + apply within_if_3; assumption.
  - destruct H as [H|[H|H]].
    + apply IHa in H as (es & Hw & <-). exists es. split; [apply within_case_argument; assumption|reflexivity].
    + destruct H as (al & Hal & H). rewrite Forall_forall in IHalts.
      destruct (IHalts al Hal H) as (es & Hw & <-). exists es.
      split; [eapply within_case_alternative; eassumption|reflexivity].
    + destruct de as [[x e]|]; [|destruct H]. destruct (IHde x e eq_refl H) as (es & Hw & <-). exists es.
      split; [apply within_case_default; assumption|reflexivity].
  - destruct H as [H|H]; [apply IHb in H|apply IHe in H]; destruct H as (es & Hw & <-);
      exists es; (split; [|reflexivity]).
    + apply within_let_bound; assumption.
    + apply within_let_body; assumption.
  - destruct H as [H|H]; [apply IHd in H|apply IHe in H];
      destruct H as (es & Hw & <-); exists es; (split; [|reflexivity]).
    + apply within_letrec_definition; assumption.
    + apply within_letrec_body; assumption.
  - destruct H as [H|H]; [apply IHo in H|apply IHe in H]; destruct H as (es & Hw & <-);
      exists es; (split; [|reflexivity]).
    + apply within_try_operand; assumption.
    + apply within_try_body; assumption.
  - apply IHe in H as (es & Hw & <-). exists es. split; [apply within_clone; assumption|reflexivity].
  - apply IHe in H as (es & Hw & <-). exists es. split; [apply within_drop; assumption|reflexivity].
Qed.

Lemma local_defs_local d e : In d (local_defs e) -> forall vars, exists scope, local vars e scope d.
Proof.
  induction e as [l|x|o' es IH|c t e IHc IHt IHe|a alts de IHa IHalts IHde|x t b e IHb IHe
                  |d0 e IHd IHe|o' x t e IHo IHe|xs e IHe|xs e IHe] using expr_ind'; cbn [local_defs In];
    rewrite ?in_app_iff, ?in_flat_map; intros H vars.
  - destruct H.
  - destruct H.
  - destruct H as (e & He & H). rewrite Forall_forall in IH. destruct (IH e He H vars) as (s & Hs).
    exists s. eapply local_op; eassumption.
  - destruct H as [H|[H|H]]; [destruct (IHc H vars) as (s & Hs)|destruct (IHt H vars) as (s & Hs)|
      destruct (IHe H vars) as (s & Hs)]; exists s.
    + apply local_if_1; assumption.
    + apply local_if_2; assumption.
    + apply local_if_3; assumption.
  - destruct H as [H|[H|H]].
    + destruct (IHa H vars) as (s & Hs). exists s. apply local_case_argument; assumption.
    + destruct H as (al & Hal & H). rewrite Forall_forall in IHalts.
      destruct (IHalts al Hal H ((a_name al, alt_type (a_types al)) :: vars)) as (s & Hs). exists s.
      eapply local_case_alternative; eassumption.
    + destruct de as [[x e]|]; [|destruct H]. destruct (IHde x e eq_refl H ((x, TVariant) :: vars)) as (s & Hs).
      exists s. apply local_case_default; assumption.
  - destruct H as [H|H]; [destruct (IHb H vars) as (s & Hs)|destruct (IHe H ((x, t) :: vars)) as (s & Hs)]; exists s.
    + apply local_let_bound; assumption.
    + apply local_let_body; assumption.
  - destruct H as [<-|[H|H]]; [exists vars; constructor| |].
    + destruct (IHd H (rev (f_args d0) ++ (f_name d0, f_type d0) :: vars)) as (s & Hs). exists s.
      apply local_definition; assumption.
    + destruct (IHe H ((f_name d0, f_type d0) :: vars)) as (s & Hs). exists s. apply local_letrec_body; assumption.
  - destruct H as [H|H]; [destruct (IHo H vars) as (s & Hs)|destruct (IHe H ((x, t) :: vars)) as (s & Hs)]; exists s.
    + apply local_try_operand; assumption.
    + apply local_try_body; assumption.
  - destruct (IHe H vars) as (s & Hs). exists s. apply local_clone; assumption.
  - destruct (IHe H vars) as (s & Hs). exists s. apply local_drop; assumption.
Qed.

(** ** Concatenations *)
Lemma flatten_measure {A} (f : expr -> list A) es :
  (forall l, f (Op OConcat l) = flat_map f l) ->
  flat_map f (flat_map concat_operand es) = flat_map f es.
Proof.
  intros Hf. induction es as [|e es IH]; [reflexivity|]. cbn. rewrite flat_map_app, IH. f_equal.
  destruct e; cbn; try apply app_nil_r. destruct o; cbn; try apply app_nil_r. symmetry. apply Hf.
Qed.

Lemma convert_measure {A} (f : expr -> list A) e :
  (forall l, f (Op OConcat l) = flat_map f l) -> f (concat_convert e) = f e.
Proof.
  intros Hf. destruct e; try reflexivity. destruct o; try reflexivity. cbn [concat_convert].
  rewrite !Hf. apply flatten_measure. assumption.
Qed.

Lemma flat_map_map_in {A B C} (f : B -> list C) (g : A -> B) (h : A -> list C) l :
  (forall a, In a l -> f (g a) = h a) -> flat_map f (map g l) = flat_map h l.
Proof.
  intros H. induction l as [|a l IH]; cbn; [reflexivity|]. rewrite H by (left; reflexivity).
  rewrite IH; [reflexivity|]. intros b Hb. apply H. right. assumption.
Qed.

Lemma concat_binders e : binders (concat_expr e) = binders e.
Proof.
  induction e as [l|x|o es IH|c t e IHc IHt IHe|a alts de IHa IHalts IHde|x t b e IHb IHe
                  |d e IHd IHe|o x t e IHo IHe|xs e IHe|xs e IHe] using expr_ind';
    cbn [concat_expr]; rewrite ?convert_measure by reflexivity; cbn [binders f_name f_args f_body];
    rewrite ?Forall_forall in *; try congruence.
  - apply flat_map_map_in. exact IH.
  - rewrite IHa. f_equal. f_equal.
    + apply flat_map_map_in. intros al Hal. cbn. rewrite (IHalts al Hal). reflexivity.
    + destruct de as [[x e]|]; [|reflexivity]. rewrite (IHde x e eq_refl). reflexivity.
Qed.

Lemma concat_fv e : fv (concat_expr e) = fv e.
Proof.
  induction e as [l|x|o es IH|c t e IHc IHt IHe|a alts de IHa IHalts IHde|x t b e IHb IHe
                  |d e IHd IHe|o x t e IHo IHe|xs e IHe|xs e IHe] using expr_ind';
    cbn [concat_expr]; rewrite ?convert_measure by reflexivity; cbn [fv f_name f_args f_body];
    rewrite ?Forall_forall in *; try congruence.
  - apply flat_map_map_in. exact IH.
  - rewrite IHa. f_equal. f_equal.
    + apply flat_map_map_in. intros al Hal. cbn. rewrite (IHalts al Hal). reflexivity.
    + destruct de as [[x e]|]; [|reflexivity]. rewrite (IHde x e eq_refl). reflexivity.
Qed.

Lemma concat_lets e : lets (concat_expr e) = lets e.
Proof.
  induction e as [l|x|o es IH|c t e IHc IHt IHe|a alts de IHa IHalts IHde|x t b e IHb IHe
                  |d e IHd IHe|o x t e IHo IHe|xs e IHe|xs e IHe] using expr_ind';
    cbn [concat_expr]; rewrite ?convert_measure by reflexivity; cbn [lets f_name f_args f_body];
    rewrite ?Forall_forall in *; try congruence.
  - apply flat_map_map_in. exact IH.
  - rewrite IHa. f_equal. f_equal.
    + apply flat_map_map_in. intros al Hal. cbn. rewrite (IHalts al Hal). reflexivity.
    + destruct de as [[x e]|]; [|reflexivity]. rewrite (IHde x e eq_refl). reflexivity.
Qed.

Lemma concat_results e : results (concat_expr e) = results e.
Proof.
  induction e as [l|x|o es IH|c t e IHc IHt IHe|a alts de IHa IHalts IHde|x t b e IHb IHe
                  |d e IHd IHe|o x t e IHo IHe|xs e IHe|xs e IHe] using expr_ind';
    cbn [concat_expr concat_convert results f_name]; try reflexivity; try congruence.
  destruct o; reflexivity.
Qed.

Lemma concat_copies e : copies (concat_expr e) = copies e.
Proof.
  induction e as [l|x|o es IH|c t e IHc IHt IHe|a alts de IHa IHalts IHde|x t b e IHb IHe
                  |d e IHd IHe|o x t e IHo IHe|xs e IHe|xs e IHe] using expr_ind';
    cbn [concat_expr]; rewrite ?convert_measure by reflexivity; cbn [copies f_name f_args f_body];
    rewrite ?concat_results; rewrite ?Forall_forall in *; try congruence.
  - apply flat_map_map_in. exact IH.
  - rewrite IHa. f_equal. f_equal.
    + apply flat_map_map_in. intros al Hal. cbn. rewrite (IHalts al Hal). reflexivity.
    + destruct de as [[x e]|]; [|reflexivity]. rewrite (IHde x e eq_refl). reflexivity.
Qed.

Definition arg_lists (e : expr) : list arguments := map f_args (local_defs e).

Lemma map_flat_map {A B C} (g : B -> C) (f : A -> list B) l :
  map g (flat_map f l) = flat_map (fun a => map g (f a)) l.
Proof. induction l as [|a l IH]; cbn; [reflexivity|]. rewrite map_app, IH. reflexivity. Qed.

Lemma concat_args e : arg_lists (concat_expr e) = arg_lists e.
Proof.
  induction e as [l|x|o es IH|c t e IHc IHt IHe|a alts de IHa IHalts IHde|x t b e IHb IHe
                  |d e IHd IHe|o x t e IHo IHe|xs e IHe|xs e IHe] using expr_ind';
    cbn [concat_expr];
    rewrite ?(convert_measure arg_lists) by (intros l0; unfold arg_lists; cbn; apply map_flat_map);
    unfold arg_lists in *; cbn [local_defs map f_args f_body]; rewrite ?map_app;
    rewrite ?Forall_forall in *.
  - reflexivity.
  - reflexivity.
  - rewrite !map_flat_map. apply flat_map_map_in. exact IH.
  - f_equal; [exact IHc|f_equal; [exact IHt|exact IHe]].
  - f_equal; [exact IHa|]. f_equal.
    + rewrite !map_flat_map. apply flat_map_map_in. intros al Hal. cbn. apply (IHalts al Hal).
    + destruct de as [[x e]|]; [|reflexivity]. apply (IHde x e eq_refl).
  - f_equal; [exact IHb|exact IHe].
  - f_equal. f_equal; [exact IHd|exact IHe].
  - f_equal; [exact IHo|exact IHe].
  - apply IHe.
  - apply IHe.
Qed.

Lemma concat_operations o k e : In (o, k) (operations (concat_expr e)) ->
  o = OConcat \/ In (o, k) (operations e).
Proof.
  assert (Hop : forall e, In (o, k) (operations (concat_convert e)) -> o = OConcat \/ In (o, k) (operations e)).
  { intros e0 H. destruct e0; auto. destruct o0; auto. cbn [concat_convert operations] in H.
    destruct H as [[= <- _]|H]; [auto|]. right. right. clear - H. cbn [operations] in *.
    induction es as [|e es IH]; [destruct H|]. cbn in *. rewrite flat_map_app, in_app_iff in H.
    apply in_app_iff. destruct H as [H|H]; [left|right; auto].
    destruct e; cbn in H |- *; rewrite ?app_nil_r in H; auto.
    destruct o0; cbn in H |- *; rewrite ?app_nil_r in H; auto. }
  induction e as [l|x|o0 es IH|c t e IHc IHt IHe|a alts de IHa IHalts IHde|x t b e IHb IHe
                  |d e IHd IHe|o0 x t e IHo IHe|xs e IHe|xs e IHe] using expr_ind';
    cbn [concat_expr]; intros H; apply Hop in H as [->|H]; try (left; reflexivity);
    cbn [operations In f_body] in H |- *; rewrite ?in_app_iff, ?in_flat_map in H |- *;
    rewrite ?Forall_forall in *.
  - destruct H.
  - destruct H.
  - rewrite map_length in H. destruct H as [H|(e & He & H)]; [auto|].
    apply in_map_iff in He as (e0 & <- & He). destruct (IH e0 He H); [auto|]. right. right. eauto.
  - tauto.
  - destruct H as [H|[H|H]].
    + tauto.
    + destruct H as (al & Hal & H). apply in_map_iff in Hal as (al0 & <- & Hal). cbn in H.
      destruct (IHalts al0 Hal H); [auto|]. right. right. left. eauto.
    + destruct de as [[x e]|]; [|destruct H]. destruct (IHde x e eq_refl H); auto.
  - tauto.
  - tauto.
  - tauto.
  - tauto.
  - tauto.
Qed.

Lemma concat_same m : same_globals m (concat_module m).
Proof. apply (same_map m (fun d => set_body d (concat_expr (f_body d)))). repeat split. Qed.

Lemma concat_source m : proper_source m -> proper_source (concat_module m).
Proof.
  intros [H1 H2 H3 H4 [H5 H5'] H6]. pose proof (concat_same m) as Hs.
  assert (Hdefs : forall d, In d (m_defs (concat_module m)) ->
            exists d0, In d0 (m_defs m) /\ d = set_body d0 (concat_expr (f_body d0))).
  { intros d Hd. cbn in Hd. apply in_map_iff in Hd as (d0 & <- & Hd). eauto. }
  split.
  - eapply same_infos; eassumption.
  - intros d Hd b n. apply Hdefs in Hd as (d0 & Hd & ->). cbn [set_body f_body].
    rewrite concat_binders, <- !fv_free, concat_fv, (same_global_type _ _ _ Hs), fv_free.
    apply H2. assumption.
  - intros scope d (g & Hg & Hl). apply Hdefs in Hg as (g0 & Hg & ->). cbn [set_body f_args f_body] in Hl.
    apply local_local_defs in Hl. apply (in_map f_args) in Hl. fold (arg_lists (concat_expr (f_body g0))) in Hl.
    rewrite concat_args in Hl. unfold arg_lists in Hl. apply in_map_iff in Hl as (d0 & <- & Hd0).
    destruct (local_defs_local _ _ Hd0 (rev (f_args g0))) as (s & Hl). apply (H3 s d0). exists g0. auto.
  - intros d o es Hd Hw. apply Hdefs in Hd as (d0 & Hd & ->). cbn [set_body f_body] in Hw.
    apply within_operations, concat_operations in Hw as [->|Hw]; [exact I|].
    apply operations_within in Hw as (es' & Hw & <-). apply (arity_same m); [assumption|]. eapply H4; eassumption.
  - split.
    + intros g. rewrite (same_global_type _ _ _ Hs). apply H5.
    + intros d x Hd. apply Hdefs in Hd as (d0 & Hd & ->). cbn [set_body f_args f_body].
      rewrite concat_binders, <- fv_free, concat_fv, fv_free. apply H5'. assumption.
  - intros d x Hd. apply Hdefs in Hd as (d0 & Hd & ->). cbn [set_body f_args f_body].
    rewrite concat_binders, concat_lets, <- fv_free, <- in_copies, concat_fv, concat_copies, fv_free, in_copies, (same_global_type _ _ _ Hs).
    apply H6. assumption.
Qed.

(** ** Renaming *)
Lemma map_state_measure {A B S C} (f : A -> S -> B * S) (ma : A -> list C) (mb : B -> list C) l :
  (forall a s, In a l -> mb (fst (f a s)) = ma a) ->
  forall s, flat_map mb (fst (map_state f l s)) = flat_map ma l /\ length (fst (map_state f l s)) = length l.
Proof.
  induction l as [|a l IH]; intros H s; [split; reflexivity|]. cbn.
  pose proof (H a s (or_introl eq_refl)) as H1. destruct (f a s) as [b s1].
  destruct (IH (fun a s Ha => H a s (or_intror Ha)) s1) as [H2 H3].
  destruct (map_state f l s1) as [bs s2]. cbn in *. rewrite H1, H2, H3. split; reflexivity.
Qed.

Lemma alpha_operations e : forall vars cs, operations (fst (alpha vars e cs)) = operations e.
Proof.
  induction e as [l|x|o es IH|c t e IHc IHt IHe|a alts de IHa IHalts IHde|x t b e IHb IHe
                  |d e IHd IHe|o x t e IHo IHe|xs e IHe|xs e IHe] using expr_ind';
    intros vars cs; cbn [alpha]; rewrite ?Forall_forall in *.
  - reflexivity.
  - reflexivity.
  - destruct (map_state_measure (alpha vars) operations operations es (fun a s Ha => IH a Ha vars s) cs) as [H1 H2].
    destruct (map_state (alpha vars) es cs) as [es' cs']. cbn in *. rewrite H1, H2. reflexivity.
  - specialize (IHc vars cs). destruct (alpha vars c cs) as [c' cs1].
    specialize (IHt vars cs1). destruct (alpha vars t cs1) as [t' cs2].
    specialize (IHe vars cs2). destruct (alpha vars e cs2) as [e' cs3]. cbn in *. rewrite IHc, IHt, IHe. reflexivity.
  - specialize (IHa vars cs). destruct (alpha vars a cs) as [a' cs1].
    match goal with |- context [map_state ?g alts cs1] => set (h := g) end.
    destruct (map_state_measure h (fun al => operations (a_body al)) (fun al => operations (a_body al)) alts) with (s := cs1)
      as [H1 _].
    { intros al s Hal. unfold h. cbn [rename].
      match goal with |- context [alpha ?v (a_body al) ?c] => pose proof (IHalts al Hal v c) as H; destruct (alpha v (a_body al) c) end.
      exact H. }
    destruct (map_state h alts cs1) as [alts' cs2].
    destruct de as [[x e]|].
    + cbn [rename]. match goal with |- context [alpha ?v e ?c] => pose proof (IHde x e eq_refl v c) as H; destruct (alpha v e c) end.
      cbn in *. rewrite IHa, H1, H. reflexivity.
    + cbn in *. rewrite IHa, H1. reflexivity.
  - cbn [rename]. match goal with |- context [alpha vars b ?c] => specialize (IHb vars c); destruct (alpha vars b c) as [b' cs1] end.
    match goal with |- context [alpha ?v e cs1] => specialize (IHe v cs1); destruct (alpha v e cs1) end.
    cbn in *. rewrite IHb, IHe. reflexivity.
  - cbn [rename]. destruct (rename_args _ _ _) as [inner cs1].
    specialize (IHd inner cs1). destruct (alpha inner (f_body d) cs1) as [b cs2].
    match goal with |- context [alpha ?v e cs2] => specialize (IHe v cs2); destruct (alpha v e cs2) end.
    cbn in *. rewrite IHd, IHe. reflexivity.
  - cbn [rename]. match goal with |- context [alpha vars o ?c] => specialize (IHo vars c); destruct (alpha vars o c) as [b' cs1] end.
    match goal with |- context [alpha ?v e cs1] => specialize (IHe v cs1); destruct (alpha v e cs1) end.
    cbn in *. rewrite IHo, IHe. reflexivity.
  - specialize (IHe vars cs). destruct (alpha vars e cs). exact IHe.
  - specialize (IHe vars cs). destruct (alpha vars e cs). exact IHe.
Qed.

Lemma map_state_in_result {A B S} (f : A -> S -> B * S) l : forall s b,
  In b (fst (map_state f l s)) -> exists a s', In a l /\ b = fst (f a s').
Proof.
  induction l as [|a l IH]; intros s b H; [destruct H|]. cbn in H.
  destruct (f a s) as [b1 s1] eqn:E. specialize (IH s1). destruct (map_state f l s1) as [bs s2]. cbn in *.
  destruct H as [<-|H].
  - exists a, s. rewrite E. auto.
  - destruct (IH b H) as (a' & s' & Ha & ->). exists a', s'. auto.
Qed.

Lemma rename_args_other xs : forall vars cs z, ~ In z xs ->
  subst (fst (rename_args xs vars cs)) z = subst vars z.
Proof.
  induction xs as [|x xs IH]; intros vars cs z Hz; [reflexivity|]. cbn [rename_args rename].
  rewrite IH by (intros H; apply Hz; right; assumption). unfold subst. cbn.
  destruct (String.eqb_spec z x) as [->|_]; [|reflexivity]. destruct Hz. left. reflexivity.
Qed.

Lemma alpha_fv e : forall vars cs y, In y (fv (fst (alpha vars e cs))) ->
  exists x, In x (fv e) /\ y = subst vars x.
Proof.
  assert (Hbind : forall vars x y0 S y, (exists z, In z S /\ y = subst ((x, y0) :: vars) z) -> y <> y0 ->
            exists z, In z (except x S) /\ y = subst vars z).
  { intros vars x y0 S y (z & Hz & E) Hne. exists z. rewrite subst_cons in E.
    destruct (String.eqb_spec z x) as [->|Hx]; [congruence|]. rewrite in_except. auto. }
  induction e as [l|x|o es IH|c t e IHc IHt IHe|a alts de IHa IHalts IHde|x t b e IHb IHe
                  |d e IHd IHe|o x t e IHo IHe|xs e IHe|xs e IHe] using expr_ind';
    intros vars cs y; cbn [alpha]; rewrite ?Forall_forall in *.
  - intros [].
  - intros [<-|[]]. exists x. split; [left; reflexivity|reflexivity].
  - intros H. pose proof (map_state_in_result (alpha vars) es cs) as Hr.
    destruct (map_state (alpha vars) es cs) as [es' cs']. cbn in H. apply in_flat_map in H as (e' & He' & Hy).
    destruct (Hr e' He') as (e & cs1 & He & ->). destruct (IH e He _ _ _ Hy) as (x & Hx & ->).
    exists x. split; [|reflexivity]. apply in_flat_map. eauto.
  - specialize (IHc vars cs). destruct (alpha vars c cs) as [c' cs1].
    specialize (IHt vars cs1). destruct (alpha vars t cs1) as [t' cs2].
    specialize (IHe vars cs2). destruct (alpha vars e cs2) as [e' cs3]. cbn in *. rewrite !in_app_iff.
    intros [H|[H|H]]; [apply IHc in H|apply IHt in H|apply IHe in H]; destruct H as (x & Hx & ->); exists x;
      rewrite !in_app_iff; auto.
  - specialize (IHa vars cs). destruct (alpha vars a cs) as [a' cs1].
    match goal with |- context [map_state ?g alts cs1] => set (h := g) end.
    pose proof (map_state_in_result h alts cs1) as Hr.
    destruct (map_state h alts cs1) as [alts' cs2]. cbn in Hr.
    assert (Halts : In y (flat_map (fun al => except (a_name al) (fv (a_body al))) alts') ->
              exists x, In x (flat_map (fun al => except (a_name al) (fv (a_body al))) alts) /\ y = subst vars x).
    { intros H. apply in_flat_map in H as (al' & Hal & Hy). destruct (Hr al' Hal) as (al & cs3 & Hal' & ->).
      unfold h in Hy. cbn [rename] in Hy. 
      match type of Hy with context [alpha ?v (a_body al) ?c] => specialize (IHalts al Hal' v c); destruct (alpha v (a_body al) c) end.
      cbn in Hy, IHalts. apply in_except in Hy as [Hy Hne].
      destruct (Hbind _ _ _ _ _ (IHalts _ Hy) Hne) as (z & Hz & ->). exists z. split; [|reflexivity].
      apply in_flat_map. eauto. }
    destruct de as [[x e]|].
    + cbn [rename]. match goal with |- context [alpha ?v e ?c] => specialize (IHde x e eq_refl v c); destruct (alpha v e c) end.
      cbn in *. rewrite !in_app_iff. intros [H|[H|H]].
      * apply IHa in H as (z & Hz & ->). exists z. rewrite !in_app_iff. auto.
      * apply Halts in H as (z & Hz & ->). exists z. rewrite !in_app_iff. auto.
      * apply in_except in H as [H Hne]. destruct (Hbind _ _ _ _ _ (IHde _ H) Hne) as (z & Hz & ->).
        exists z. rewrite !in_app_iff. auto.
    + cbn in *. rewrite !in_app_iff. intros [H|[H|[]]].
      * apply IHa in H as (z & Hz & ->). exists z. rewrite !in_app_iff. auto.
      * apply Halts in H as (z & Hz & ->). exists z. rewrite !in_app_iff. auto.
  - cbn [rename]. match goal with |- context [alpha vars b ?c] => specialize (IHb vars c); destruct (alpha vars b c) as [b' cs1] end.
    match goal with |- context [alpha ?v e cs1] => specialize (IHe v cs1); destruct (alpha v e cs1) end.
    cbn in *. rewrite !in_app_iff. intros [H|H].
    + apply IHb in H as (z & Hz & ->). exists z. rewrite !in_app_iff. auto.
    + apply in_except in H as [H Hne]. destruct (Hbind _ _ _ _ _ (IHe _ H) Hne) as (z & Hz & ->).
      exists z. rewrite !in_app_iff. auto.
  - cbn [rename]. pose proof (rename_args_other (map fst (f_args d))) as Ho.
    match goal with |- context [rename_args ?a ?v ?c] =>
      specialize (Ho v c);
      destruct (rename_args a v c) as [inner cs1] end.
    cbn [fst] in Ho.
    specialize (IHd inner cs1). destruct (alpha inner (f_body d) cs1) as [b cs2].
    match goal with |- context [alpha ?v e cs2] => specialize (IHe v cs2); destruct (alpha v e cs2) end.
    cbn [fst] in *. rewrite in_fv_letrec. cbn [f_name f_args f_body]. intros [Hne [[H Ha]|H]].
    + apply IHd in H as (z & Hz & ->).
      assert (Hza : ~ In z (map fst (f_args d))).
      { intros Hi2. apply Ha. unfold subst_args. rewrite map_map. cbn [fst].
        apply in_map_iff in Hi2 as (p & <- & Hp). apply in_map_iff. exists p. auto. }
      pose proof (Ho z Hza) as E1. rewrite subst_cons in E1. rewrite E1 in Hne |- *.
      destruct (String.eqb_spec z (f_name d)) as [_|Hzn]; [congruence|].
      exists z. split; [|reflexivity]. apply in_fv_letrec. auto.
    + destruct (Hbind _ _ _ _ _ (IHe _ H) Hne) as (z & Hz & ->). apply in_except in Hz as [Hz Hzn].
      exists z. split; [|reflexivity]. apply in_fv_letrec. auto.
  - cbn [rename]. match goal with |- context [alpha vars o ?c] => specialize (IHo vars c); destruct (alpha vars o c) as [b' cs1] end.
    match goal with |- context [alpha ?v e cs1] => specialize (IHe v cs1); destruct (alpha v e cs1) end.
    cbn in *. rewrite !in_app_iff. intros [H|H].
    + apply IHo in H as (z & Hz & ->). exists z. rewrite !in_app_iff. auto.
    + apply in_except in H as [H Hne]. destruct (Hbind _ _ _ _ _ (IHe _ H) Hne) as (z & Hz & ->).
      exists z. rewrite !in_app_iff. auto.
  - specialize (IHe vars cs). destruct (alpha vars e cs). exact (IHe y).
  - specialize (IHe vars cs). destruct (alpha vars e cs). exact (IHe y).
Qed.

Lemma alpha_results e : forall vars cs y, In y (results (fst (alpha vars e cs))) ->
  exists x, In x (results e) /\ y = subst vars x.
Proof.
  assert (Hbind : forall vars x y0 S y, (exists z, In z S /\ y = subst ((x, y0) :: vars) z) -> y <> y0 ->
            exists z, In z (except x S) /\ y = subst vars z).
  { intros vars x y0 S y (z & Hz & E) Hne. exists z. rewrite subst_cons in E.
    destruct (String.eqb_spec z x) as [->|Hx]; [congruence|]. rewrite in_except. auto. }
  induction e as [l|x|o es IH|c t e IHc IHt IHe|a alts de IHa IHalts IHde|x t b e IHb IHe
                  |d e IHd IHe|o x t e IHo IHe|xs e IHe|xs e IHe] using expr_ind';
    intros vars cs y; cbn [alpha].
  - intros [].
  - intros [<-|[]]. exists x. split; [left; reflexivity|reflexivity].
  - destruct (map_state (alpha vars) es cs). intros [].
  - destruct (alpha vars c cs) as [c' cs1]. destruct (alpha vars t cs1) as [t' cs2].
    destruct (alpha vars e cs2) as [e' cs3]. intros [].
  - destruct (alpha vars a cs) as [a' cs1]. match goal with |- context [map_state ?g alts cs1] => destruct (map_state g alts cs1) as [alts' cs2] end.
    destruct de as [[x e]|]; [|intros []]. cbn [rename]. match goal with |- context [alpha ?v e ?c] => destruct (alpha v e c) end. intros [].
  - cbn [rename]. match goal with |- context [alpha vars b ?c] => specialize (IHb vars c); destruct (alpha vars b c) as [b' cs1] end.
    match goal with |- context [alpha ?v e cs1] => specialize (IHe v cs1); destruct (alpha v e cs1) end.
    cbn in *. rewrite !in_app_iff. intros [H|H].
    + apply IHb in H as (z & Hz & ->). exists z. rewrite !in_app_iff. auto.
    + apply in_except in H as [H Hne]. destruct (Hbind _ _ _ _ _ (IHe _ H) Hne) as (z & Hz & ->).
      exists z. rewrite !in_app_iff. auto.
  - cbn [rename]. match goal with |- context [rename_args ?a ?v ?c] => destruct (rename_args a v c) as [inner cs1] end.
    destruct (alpha inner (f_body d) cs1) as [b cs2].
    match goal with |- context [alpha ?v e cs2] => specialize (IHe v cs2); destruct (alpha v e cs2) end.
    cbn [fst results f_name] in *. intros H. apply in_except in H as [H Hne].
    exact (Hbind _ _ _ _ _ (IHe _ H) Hne).
  - cbn [rename]. match goal with |- context [alpha vars o ?c] => destruct (alpha vars o c) as [b' cs1] end.
    match goal with |- context [alpha ?v e cs1] => destruct (alpha v e cs1) end. intros [].
  - destruct (alpha vars e cs). intros [].
  - destruct (alpha vars e cs). intros [].
Qed.

Lemma alpha_copies e : forall vars cs y, In y (copies (fst (alpha vars e cs))) ->
  exists x, In x (copies e) /\ y = subst vars x.
Proof.
  assert (Hbind : forall vars x y0 S y, (exists z, In z S /\ y = subst ((x, y0) :: vars) z) -> y <> y0 ->
            exists z, In z (except x S) /\ y = subst vars z).
  { intros vars x y0 S y (z & Hz & E) Hne. exists z. rewrite subst_cons in E.
    destruct (String.eqb_spec z x) as [->|Hx]; [congruence|]. rewrite in_except. auto. }
  induction e as [l|x|o es IH|c t e IHc IHt IHe|a alts de IHa IHalts IHde|x t b e IHb IHe
                  |d e IHd IHe|o x t e IHo IHe|xs e IHe|xs e IHe] using expr_ind';
    intros vars cs y; cbn [alpha]; rewrite ?Forall_forall in *.
  - intros [].
  - intros [].
  - intros H. pose proof (map_state_in_result (alpha vars) es cs) as Hr.
    destruct (map_state (alpha vars) es cs) as [es' cs']. cbn in H. apply in_flat_map in H as (e' & He' & Hy).
    destruct (Hr e' He') as (e & cs1 & He & ->). destruct (IH e He _ _ _ Hy) as (x & Hx & ->).
    exists x. split; [|reflexivity]. apply in_flat_map. eauto.
  - specialize (IHc vars cs). destruct (alpha vars c cs) as [c' cs1].
    specialize (IHt vars cs1). destruct (alpha vars t cs1) as [t' cs2].
    specialize (IHe vars cs2). destruct (alpha vars e cs2) as [e' cs3]. cbn in *. rewrite !in_app_iff.
    intros [H|[H|H]]; [apply IHc in H|apply IHt in H|apply IHe in H]; destruct H as (x & Hx & ->); exists x;
      rewrite !in_app_iff; auto.
  - specialize (IHa vars cs). destruct (alpha vars a cs) as [a' cs1].
    match goal with |- context [map_state ?g alts cs1] => set (h := g) end.
    pose proof (map_state_in_result h alts cs1) as Hr.
    destruct (map_state h alts cs1) as [alts' cs2]. cbn in Hr.
    assert (Halts : In y (flat_map (fun al => except (a_name al) (copies (a_body al))) alts') ->
              exists x, In x (flat_map (fun al => except (a_name al) (copies (a_body al))) alts) /\ y = subst vars x).
    { intros H. apply in_flat_map in H as (al' & Hal & Hy). destruct (Hr al' Hal) as (al & cs3 & Hal' & ->).
      unfold h in Hy. cbn [rename] in Hy. 
      match type of Hy with context [alpha ?v (a_body al) ?c] => specialize (IHalts al Hal' v c); destruct (alpha v (a_body al) c) end.
      cbn in Hy, IHalts. apply in_except in Hy as [Hy Hne].
      destruct (Hbind _ _ _ _ _ (IHalts _ Hy) Hne) as (z & Hz & ->). exists z. split; [|reflexivity].
      apply in_flat_map. eauto. }
    destruct de as [[x e]|].
    + cbn [rename]. match goal with |- context [alpha ?v e ?c] => specialize (IHde x e eq_refl v c); destruct (alpha v e c) end.
      cbn in *. rewrite !in_app_iff. intros [H|[H|H]].
      * apply IHa in H as (z & Hz & ->). exists z. rewrite !in_app_iff. auto.
      * apply Halts in H as (z & Hz & ->). exists z. rewrite !in_app_iff. auto.
      * apply in_except in H as [H Hne]. destruct (Hbind _ _ _ _ _ (IHde _ H) Hne) as (z & Hz & ->).
        exists z. rewrite !in_app_iff. auto.
    + cbn in *. rewrite !in_app_iff. intros [H|[H|[]]].
      * apply IHa in H as (z & Hz & ->). exists z. rewrite !in_app_iff. auto.
      * apply Halts in H as (z & Hz & ->). exists z. rewrite !in_app_iff. auto.
  - cbn [rename]. match goal with |- context [alpha vars b ?c] => specialize (IHb vars c); pose proof (alpha_results b vars c) as Hres; destruct (alpha vars b c) as [b' cs1] end.
    match goal with |- context [alpha ?v e cs1] => specialize (IHe v cs1); destruct (alpha v e cs1) end.
    cbn in *. rewrite !in_app_iff. intros [H|[H|H]].
    + apply Hres in H as (z & Hz & ->). exists z. rewrite !in_app_iff. auto.
    + apply IHb in H as (z & Hz & ->). exists z. rewrite !in_app_iff. auto.
    + apply in_except in H as [H Hne]. destruct (Hbind _ _ _ _ _ (IHe _ H) Hne) as (z & Hz & ->).
      exists z. rewrite !in_app_iff. auto.
  - cbn [rename]. pose proof (rename_args_other (map fst (f_args d))) as Ho.
    match goal with |- context [rename_args ?a ?v ?c] =>
      specialize (Ho v c);
      destruct (rename_args a v c) as [inner cs1] end.
    cbn [fst] in Ho.
    specialize (IHd inner cs1). destruct (alpha inner (f_body d) cs1) as [b cs2].
    match goal with |- context [alpha ?v e cs2] => specialize (IHe v cs2); destruct (alpha v e cs2) end.
    cbn [fst] in *. rewrite in_copies_letrec. cbn [f_name f_args f_body]. intros [Hne [[H Ha]|H]].
    + apply IHd in H as (z & Hz & ->).
      assert (Hza : ~ In z (map fst (f_args d))).
      { intros Hi2. apply Ha. unfold subst_args. rewrite map_map. cbn [fst].
        apply in_map_iff in Hi2 as (p & <- & Hp). apply in_map_iff. exists p. auto. }
      pose proof (Ho z Hza) as E1. rewrite subst_cons in E1. rewrite E1 in Hne |- *.
      destruct (String.eqb_spec z (f_name d)) as [_|Hzn]; [congruence|].
      exists z. split; [|reflexivity]. apply in_copies_letrec. auto.
    + destruct (Hbind _ _ _ _ _ (IHe _ H) Hne) as (z & Hz & ->). apply in_except in Hz as [Hz Hzn].
      exists z. split; [|reflexivity]. apply in_copies_letrec. auto.
  - cbn [rename]. match goal with |- context [alpha vars o ?c] => specialize (IHo vars c); destruct (alpha vars o c) as [b' cs1] end.
    match goal with |- context [alpha ?v e cs1] => specialize (IHe v cs1); destruct (alpha v e cs1) end.
    cbn in *. rewrite !in_app_iff. intros [H|H].
    + apply IHo in H as (z & Hz & ->). exists z. rewrite !in_app_iff. auto.
    + apply in_except in H as [H Hne]. destruct (Hbind _ _ _ _ _ (IHe _ H) Hne) as (z & Hz & ->).
      exists z. rewrite !in_app_iff. auto.
  - specialize (IHe vars cs). destruct (alpha vars e cs). exact (IHe y).
  - specialize (IHe vars cs). destruct (alpha vars e cs). exact (IHe y).
Qed.

Lemma alpha_lets e : forall vars cs y, In y (lets (fst (alpha vars e cs))) ->
  exists x k, In x (lets e) /\ y = versioned x k.
Proof.
  induction e as [l|x|o es IH|c t e IHc IHt IHe|a alts de IHa IHalts IHde|x t b e IHb IHe
                  |d e IHd IHe|o x t e IHo IHe|xs e IHe|xs e IHe] using expr_ind';
    intros vars cs y; cbn [alpha]; rewrite ?Forall_forall in *.
  - intros [].
  - intros [].
  - intros H. pose proof (map_state_in_result (alpha vars) es cs) as Hr.
    destruct (map_state (alpha vars) es cs) as [es' cs']. cbn in H. apply in_flat_map in H as (e' & He' & Hy).
    destruct (Hr e' He') as (e & cs1 & He & ->). destruct (IH e He _ _ _ Hy) as (x & k & Hx & ->).
    exists x, k. split; [|reflexivity]. apply in_flat_map. eauto.
  - specialize (IHc vars cs). destruct (alpha vars c cs) as [c' cs1].
    specialize (IHt vars cs1). destruct (alpha vars t cs1) as [t' cs2].
    specialize (IHe vars cs2). destruct (alpha vars e cs2) as [e' cs3]. cbn in *. rewrite !in_app_iff.
    intros [H|[H|H]]; [apply IHc in H|apply IHt in H|apply IHe in H]; destruct H as (x & k & Hx & ->); exists x, k;
      rewrite !in_app_iff; auto.
  - specialize (IHa vars cs). destruct (alpha vars a cs) as [a' cs1].
    match goal with |- context [map_state ?g alts cs1] => set (h := g) end.
    pose proof (map_state_in_result h alts cs1) as Hr.
    destruct (map_state h alts cs1) as [alts' cs2]. cbn in Hr.
    assert (Halts : In y (flat_map (fun al => lets (a_body al)) alts') ->
              exists x k, In x (flat_map (fun al => lets (a_body al)) alts) /\ y = versioned x k).
    { intros H. apply in_flat_map in H as (al' & Hal & Hy). destruct (Hr al' Hal) as (al & cs3 & Hal' & ->).
      unfold h in Hy. cbn [rename] in Hy.
      match type of Hy with context [alpha ?v (a_body al) ?c] => specialize (IHalts al Hal' v c); destruct (alpha v (a_body al) c) end.
      cbn in Hy, IHalts. destruct (IHalts _ Hy) as (z & k & Hz & ->). exists z, k. split; [|reflexivity].
      apply in_flat_map. eauto. }
    destruct de as [[x e]|].
    + cbn [rename]. match goal with |- context [alpha ?v e ?c] => specialize (IHde x e eq_refl v c); destruct (alpha v e c) end.
      cbn in *. rewrite !in_app_iff. intros [H|[H|H]]; [apply IHa in H|apply Halts in H|apply IHde in H];
        destruct H as (z & k & Hz & ->); exists z, k; rewrite !in_app_iff; auto.
    + cbn in *. rewrite !in_app_iff. intros [H|[H|[]]]; [apply IHa in H|apply Halts in H];
        destruct H as (z & k & Hz & ->); exists z, k; rewrite !in_app_iff; auto.
  - cbn [rename]. match goal with |- context [alpha vars b ?c] => specialize (IHb vars c); destruct (alpha vars b c) as [b' cs1] end.
    match goal with |- context [alpha ?v e cs1] => specialize (IHe v cs1); destruct (alpha v e cs1) end.
    cbn [fst lets In] in *. rewrite !in_app_iff. intros [H|[H|H]].
    + subst y. exists x. eexists. split; [left; reflexivity|reflexivity].
    + apply IHb in H as (z & k & Hz & ->). exists z, k. rewrite !in_app_iff. auto.
    + apply IHe in H as (z & k & Hz & ->). exists z, k. rewrite !in_app_iff. auto.
  - cbn [rename]. match goal with |- context [rename_args ?a ?v ?c] => destruct (rename_args a v c) as [inner cs1] end.
    specialize (IHd inner cs1). destruct (alpha inner (f_body d) cs1) as [b cs2].
    match goal with |- context [alpha ?v e cs2] => specialize (IHe v cs2); destruct (alpha v e cs2) end.
    cbn [fst lets In f_name f_body] in *. rewrite !in_app_iff. intros [H|[H|H]].
    + subst y. exists (f_name d). eexists. split; [left; reflexivity|reflexivity].
    + apply IHd in H as (z & k & Hz & ->). exists z, k. rewrite !in_app_iff. auto.
    + apply IHe in H as (z & k & Hz & ->). exists z, k. rewrite !in_app_iff. auto.
  - cbn [rename]. match goal with |- context [alpha vars o ?c] => specialize (IHo vars c); destruct (alpha vars o c) as [b' cs1] end.
    match goal with |- context [alpha ?v e cs1] => specialize (IHe v cs1); destruct (alpha v e cs1) end.
    cbn in *. rewrite !in_app_iff. intros [H|H]; [apply IHo in H|apply IHe in H]; destruct H as (z & k & Hz & ->);
      exists z, k; rewrite !in_app_iff; auto.
  - specialize (IHe vars cs). destruct (alpha vars e cs). exact (IHe y).
  - specialize (IHe vars cs). destruct (alpha vars e cs). exact (IHe y).
Qed.

(** Names the later passes do not make. *)
Definition ordinary (x : string) : Prop := ~ lifted_name x /\ forall i, x <> anf i.

Lemma app_prefix_cons (c c' : Ascii.ascii) s t : String c s = String c' t -> c = c' /\ s = t.
Proof. intros [= -> ->]. auto. Qed.

Lemma unreserved_ordinary x : ~ reserved x -> ordinary x.
Proof.
  intros H. split.
  - intros [(y & i & ->)|(s & ->)]; apply H.
    + exists (y ++ ":" ++ decimal i)%string. right. left. reflexivity.
    + exists (":" ++ s)%string. right. right. reflexivity.
  - intros i ->. apply H. exists (":" ++ decimal i)%string. left. reflexivity.
Qed.

Lemma lift_prefix x n s : (numbered x n = "mir:lift:" ++ s)%string -> exists r, x = ("mir:lift" ++ r)%string.
Proof.
  unfold numbered. intros E.
  destruct x as [|c1 x]; [discriminate|]. cbn in E. apply app_prefix_cons in E as [-> E].
  destruct x as [|c2 x]; [discriminate|]. cbn in E. apply app_prefix_cons in E as [-> E].
  destruct x as [|c3 x]; [discriminate|]. cbn in E. apply app_prefix_cons in E as [-> E].
  destruct x as [|c4 x].
  { cbn in E. apply app_prefix_cons in E as [_ E]. pose proof (decimal_no_colon n) as H. rewrite E in H.
    cbn in H. discriminate. }
  cbn in E. apply app_prefix_cons in E as [-> E].
  destruct x as [|c5 x]; [discriminate|]. cbn in E. apply app_prefix_cons in E as [-> E].
  destruct x as [|c6 x]; [discriminate|]. cbn in E. apply app_prefix_cons in E as [-> E].
  destruct x as [|c7 x]; [discriminate|]. cbn in E. apply app_prefix_cons in E as [-> E].
  destruct x as [|c8 x]; [discriminate|]. cbn in E. apply app_prefix_cons in E as [-> E].
  exists x. reflexivity.
Qed.

Lemma versioned_ordinary x k : ~ reserved x -> ordinary (versioned x k).
Proof.
  intros H. destruct k as [|k]; [apply unreserved_ordinary; assumption|]. split.
  - intros [(y & i & E)|(s & E)]; apply H.
    + apply numbered_inj in E as [-> _]. exists y. right. left. reflexivity.
    + apply lift_prefix in E as (r & ->). exists r. right. right. reflexivity.
  - intros i E. apply numbered_inj in E as [-> _]. apply H. exists EmptyString. left. reflexivity.
Qed.

Lemma alpha_same m : same_globals m (alpha_module m).
Proof. apply (same_map m (fun d => set_body d (fst (alpha [] (f_body d) (global_counts m))))). repeat split. Qed.

Lemma alpha_defs m d : In d (m_defs (alpha_module m)) ->
  exists d0, In d0 (m_defs m) /\ d = set_body d0 (fst (alpha [] (f_body d0) (global_counts m))).
Proof. cbn. intros Hd. apply in_map_iff in Hd as (d0 & <- & Hd). eauto. Qed.

Lemma alpha_body_names m d0 : proper_source m -> In d0 (m_defs m) ->
  (forall x, In x (fv (fst (alpha [] (f_body d0) (global_counts m)))) -> In x (fv (f_body d0))) /\
  (forall x, In x (binders (fst (alpha [] (f_body d0) (global_counts m)))) ->
     exists y k, In y (binders (f_body d0)) /\ count (global_counts m) y <= k /\ x = versioned y k).
Proof.
  intros [_ Hyg Hargs _ _ _] Hd0. split.
  - intros x Hx. apply alpha_fv in Hx as (y & Hy & ->). exact Hy.
  - destruct (alpha_made (fun x => In x (binders (f_body d0)))
              (fun x => free x (f_body d0) \/ global_type m x <> None)
              (Hyg d0 Hd0) (f_body d0) (rev (f_args d0)) [] (global_counts m)) as [_ _ Hfr]; auto.
    { intros scope d Hl. apply (Hargs scope d). exists d0. auto. }
    intros x Hx. apply Hfr in Hx as (y & k & Hy & Hk & ->). exists y, k. repeat split; auto. lia.
Qed.

(** A free variable that is also bound is an argument, which is bound under its
    own name. *)
Lemma alpha_bound_argument m d0 x : proper_source m -> In d0 (m_defs m) ->
  In x (fv (f_body d0)) -> In x (binders (fst (alpha [] (f_body d0) (global_counts m)))) ->
  In x (binders (f_body d0)) /\ global_type m x = None.
Proof.
  intros Hsrc Hd0 Hf Hb. pose proof Hsrc as [_ Hyg _ _ _ _].
  destruct (alpha_body_names m d0 Hsrc Hd0) as [_ H2]. apply H2 in Hb as (y & k & Hy & Hk & ->).
  apply fv_free in Hf. destruct k as [|k].
  - cbn in *. split; [assumption|]. destruct (global_type m y) eqn:E; [|reflexivity].
    assert (Hg : global_type m y <> None) by congruence. apply global_counted in Hg. lia.
  - exfalso. apply (Hyg d0 Hd0 y (versioned y (S k)) Hy); [auto|]. exists (S k). auto.
Qed.

Lemma alpha_names_apart m : proper_source m -> names_apart (alpha_module m).
Proof.
  intros Hsrc d Hd. pose proof Hsrc as [_ Hyg Hargs _ _ Hre].
  split; [apply (alpha_distinct m d Hyg Hargs Hd)|].
  apply alpha_defs in Hd as (d0 & Hd0 & ->). cbn [set_body f_body] in *.
  destruct (alpha_body_names m d0 Hsrc Hd0) as [H1 _]. split.
  - intros x Hf Hl. apply fv_free in Hf. apply H1 in Hf.
    destruct (alpha_bound_argument m d0 x Hsrc Hd0 Hf (lets_binders _ _ Hl)) as [Hb Hg].
    apply fv_free in Hf. destruct (Hre d0 x Hd0 Hf Hb Hg) as [Hn _].
    apply alpha_lets in Hl as (y & k & Hy & E). destruct k as [|k]; [cbn in E; congruence|].
    apply (Hyg d0 Hd0 y x (lets_binders _ _ Hy)); [auto|]. exists (S k). auto.
  - intros x Hc Hb. apply in_copies, alpha_copies in Hc as (y & Hc & E). cbn in E. unfold subst in E. cbn in E. subst y.
    pose proof (copies_free _ _ Hc) as Hf. destruct (alpha_bound_argument m d0 x Hsrc Hd0 Hf Hb) as [Hb' Hg].
    apply fv_free in Hf. apply in_copies in Hc. destruct (Hre d0 x Hd0 Hf Hb' Hg) as [_ Hn]. contradiction.
Qed.

Lemma alpha_ordinary m d x : proper_source m -> In d (m_defs (alpha_module m)) ->
  In x (map fst (f_args d)) \/ In x (fv (f_body d)) \/ In x (binders (f_body d)) -> ordinary x.
Proof.
  intros Hsrc Hd Hx. pose proof Hsrc as [_ _ _ _ [_ Hres] _].
  apply alpha_defs in Hd as (d0 & Hd0 & ->). cbn [set_body f_args f_body] in *.
  destruct (alpha_body_names m d0 Hsrc Hd0) as [H1 H2].
  destruct Hx as [Hx|[Hx|Hx]].
  - apply unreserved_ordinary. eauto.
  - apply unreserved_ordinary. apply (Hres d0 x Hd0). right. left. apply fv_free, H1, Hx.
  - apply H2 in Hx as (y & k & Hy & _ & ->). apply versioned_ordinary. eauto.
Qed.

Lemma alpha_no_normal m : proper_source m -> no_normal_names (alpha_module m).
Proof.
  intros Hsrc d k Hd. split; intros Hx.
  - apply fv_free in Hx. destruct (alpha_ordinary m d _ Hsrc Hd (or_intror (or_introl Hx))) as [_ H].
    apply (H k). reflexivity.
  - destruct (alpha_ordinary m d _ Hsrc Hd (or_intror (or_intror Hx))) as [_ H]. apply (H k). reflexivity.
Qed.

Lemma alpha_shaped m : shaped m -> shaped (alpha_module m).
Proof.
  intros H d o es Hd Hw. apply alpha_defs in Hd as (d0 & Hd0 & ->). cbn [set_body f_body] in Hw.
  apply within_operations in Hw. rewrite alpha_operations in Hw. apply operations_within in Hw as (es' & Hw & <-).
  apply (arity_same m); [apply alpha_same|]. eapply H; eassumption.
Qed.

(** ** Normalization *)
Lemma alias_names e : forall s,
  (forall x, cnt x (binders (alias s e)) <= cnt x (binders e)) /\
  (forall x, In x (fv (alias s e)) -> In x (fv e) \/ In x (binders e) \/ exists y, lookup s y = Some x).
Proof.
  assert (Hforget : forall s x y z, lookup (forget x s) y = Some z -> lookup s y = Some z).
  { intros s x y z. rewrite lookup_forget. destruct (String.eqb y x); [discriminate|auto]. }
  assert (Hflat : forall {A} (f g : A -> list string) l x,
            (forall a, In a l -> cnt x (f a) <= cnt x (g a)) -> cnt x (flat_map f l) <= cnt x (flat_map g l)).
  { intros A f g l x. induction l as [|a l IH]; intros H; [apply le_n|]; cbn [flat_map]. rewrite !cnt_app.
    pose proof (H a (or_introl eq_refl)). assert (cnt x (flat_map f l) <= cnt x (flat_map g l)); [|lia].
    apply IH. intros b Hb. apply H. right. assumption. }
  assert (Hfm : forall {A B} (f : B -> list string) (g : A -> B) l, flat_map f (map g l) = flat_map (fun a => f (g a)) l).
  { intros A B f g l. apply flat_map_map_in. reflexivity. }
  induction e as [l|x|o es IH|c t e IHc IHt IHe|a alts de IHa IHalts IHde|x t b e IHb IHe
                  |d e IHd IHe|o x t e IHo IHe|xs e IHe|xs e IHe] using expr_ind';
    intros s; rewrite ?Forall_forall in *.
  - split; [intros x; apply le_n|intros x []].
  - split; [intros y; apply le_n|]. intros y [<-|[]]. unfold subst.
    destruct (lookup s x) as [y|] eqn:E; [right; right; eauto|left; left; reflexivity].
  - cbn [alias binders fv]. split.
    + intros x. rewrite Hfm. apply Hflat. intros e He. apply (IH e He s).
    + intros x Hx. apply in_flat_map in Hx as (e' & He' & Hx). apply in_map_iff in He' as (e & <- & He).
      apply (IH e He s) in Hx as [Hx|[Hx|Hx]]; [left|right; left|auto]; apply in_flat_map; eauto.
  - cbn [alias binders fv]. destruct (IHc s) as [C1 C2], (IHt s) as [T1 T2], (IHe s) as [E1 E2]. split.
    + intros x. rewrite !cnt_app. specialize (C1 x). specialize (T1 x). specialize (E1 x). lia.
    + intros x. rewrite !in_app_iff. intros [H|[H|H]]; [apply C2 in H|apply T2 in H|apply E2 in H]; tauto.
  - cbn [alias binders fv]. destruct (IHa s) as [A1 A2]. split.
    + intros x. rewrite !cnt_app, Hfm. specialize (A1 x).
      assert (cnt x (flat_map (fun a0 => a_name a0 :: binders (alias (forget (a_name a0) s) (a_body a0))) alts) <=
              cnt x (flat_map (fun al => a_name al :: binders (a_body al)) alts)) as Ha.
      { apply Hflat. intros al Hal. rewrite (cnt_cons x (a_name al) (binders (a_body al))), cnt_cons.
        destruct (IHalts al Hal (forget (a_name al) s)) as [L _]. specialize (L x). lia. }
      cbn [a_name a_body].
      assert (cnt x match match de with Some (x0, e) => Some (x0, alias (forget x0 s) e) | None => None end with
                    | Some (x0, e) => x0 :: binders e | None => [] end <=
              cnt x match de with Some (x0, e) => x0 :: binders e | None => [] end) as Hd.
      { destruct de as [[y e]|]; [|apply le_n]. rewrite (cnt_cons x y (binders e)), cnt_cons.
        destruct (IHde y e eq_refl (forget y s)) as [L _]. specialize (L x). lia. }
      lia.
    + intros x. rewrite !in_app_iff. intros [H|[H|H]].
      * apply A2 in H. tauto.
      * apply in_flat_map in H as (al' & Hal & H). apply in_map_iff in Hal as (al & <- & Hal). cbn in H.
        apply in_except in H as [H Hne]. destruct (IHalts al Hal (forget (a_name al) s)) as [_ L].
        apply L in H as [H|[H|(y & H)]].
        -- left. right. left. apply in_flat_map. exists al. rewrite in_except. auto.
        -- right. left. right. left. apply in_flat_map. exists al. cbn. auto.
        -- right. right. exists y. eauto.
      * destruct de as [[y e]|]; [|destruct H]. apply in_except in H as [H Hne].
        destruct (IHde y e eq_refl (forget y s)) as [_ L]. apply L in H as [H|[H|(z & H)]].
        -- left. right. right. apply in_except. auto.
        -- right. left. right. right. cbn. auto.
        -- right. right. exists z. eauto.
  - destruct (IHb s) as [B1 B2]. destruct (var_of (alias s b)) as [y|] eqn:Ev.
    + apply var_of_some in Ev. rewrite (alias_let_var _ _ _ _ _ _ Ev). cbn [binders fv].
      destruct (IHe ((x, y) :: s)) as [E1 E2]. split.
      * intros z. rewrite (cnt_cons z x (binders b ++ binders e)), cnt_app. specialize (E1 z). lia.
      * intros z Hz. rewrite !in_app_iff. cbn [In]. rewrite !in_app_iff.
        apply E2 in Hz as [Hz|[Hz|(u & Hz)]].
        -- destruct (string_dec z x) as [->|Hne]; [auto|]. left. right. apply in_except. auto.
        -- auto.
        -- cbn in Hz. destruct (String.eqb u x).
           ++ injection Hz as ->. assert (Hz : In z (fv (alias s b))) by (rewrite Ev; left; reflexivity).
              apply B2 in Hz. tauto.
           ++ right. right. eauto.
    + rewrite (alias_let_other _ _ _ _ _ Ev). cbn [binders fv]. destruct (IHe (forget x s)) as [E1 E2]. split.
      * intros z. rewrite (cnt_cons z x (binders b ++ binders e)), cnt_cons, !cnt_app. specialize (B1 z).
        specialize (E1 z). lia.
      * intros z. rewrite !in_app_iff. cbn [In]. rewrite !in_app_iff. intros [H|H].
        -- apply B2 in H. tauto.
        -- apply in_except in H as [H Hne]. apply E2 in H as [H|[H|(u & H)]].
           ++ left. right. apply in_except. auto.
           ++ auto.
           ++ right. right. eauto.
  - cbn [alias]. set (s1 := forget_all (map fst (f_args d)) (forget (f_name d) s)).
    destruct (IHd s1) as [D1 D2], (IHe (forget (f_name d) s)) as [E1 E2]. split.
    + intros x. cbn [binders f_name f_args f_body].
      rewrite (cnt_cons x (f_name d) (map fst (f_args d) ++ binders (f_body d) ++ binders e)), cnt_cons, !cnt_app.
      specialize (D1 x). specialize (E1 x). lia.
    + intros x. rewrite !in_fv_letrec. cbn [f_name f_args f_body binders In]. rewrite !in_app_iff.
      intros [Hne [[H Ha]|H]].
      * apply D2 in H as [H|[H|(u & H)]]; [tauto|tauto|]. right. right. exists u.
        unfold s1 in H. rewrite lookup_forget_all in H. destruct (mem u _); [discriminate|]. eauto.
      * apply E2 in H as [H|[H|(u & H)]]; [tauto|tauto|]. right. right. eauto.
  - cbn [alias binders fv]. destruct (IHo s) as [O1 O2], (IHe (forget x s)) as [E1 E2]. split.
    + intros z. rewrite (cnt_cons z x (binders o ++ binders e)), cnt_cons, !cnt_app. specialize (O1 z).
      specialize (E1 z). lia.
    + intros z. rewrite !in_app_iff. cbn [In]. rewrite !in_app_iff. intros [H|H].
      * apply O2 in H. tauto.
      * apply in_except in H as [H Hne]. apply E2 in H as [H|[H|(u & H)]].
        -- left. right. apply in_except. auto.
        -- auto.
        -- right. right. eauto.
  - apply (IHe s).
  - apply (IHe s).
Qed.

Lemma norm0_defs m d : In d (m_defs (norm0_module m)) ->
  exists d0 n, In d0 (m_defs m) /\ d = set_body d0 (fst (norm0 m (f_body d0) ret n)).
Proof.
  cbn. intros H. apply map_state_in_result in H as (d0 & n & Hd & ->). exists d0, n. split; [assumption|].
  unfold norm_def, norm0. destruct (norm m (fun e => e) (f_body d0) ret n). reflexivity.
Qed.

Lemma norm0_same m : same_globals m (norm0_module m).
Proof.
  do 4 (split; [reflexivity|]). cbn. generalize 0. induction (m_defs m) as [|d l IH]; intros n; cbn; [constructor|].
  unfold norm_def at 1. destruct (norm m (fun e => e) (f_body d) ret n) as [b n1]. specialize (IH n1).
  destruct (map_state _ l n1) as [l' n2]. constructor; [repeat split|exact IH].
Qed.

Lemma alias_same m : same_globals m (alias_module m).
Proof. apply (same_map m (fun d => set_body d (alias [] (f_body d)))). repeat split. Qed.

Lemma norm_names m d : normalizable m -> In d (m_defs (norm_module m)) ->
  exists d0, In d0 (m_defs m) /\ f_args d = f_args d0 /\ NoDup (binders (f_body d)) /\
    forall x, In x (fv (f_body d)) \/ In x (binders (f_body d)) ->
      In x (fv (f_body d0)) \/ In x (binders (f_body d0)) \/ exists i, x = anf i.
Proof.
  intros Hn Hd. rewrite (norm_module_alias m Hn) in Hd. cbn [alias_module set_defs m_defs] in Hd.
  apply in_map_iff in Hd as (d1 & <- & Hd1). pose proof (norm0_loose m Hn d1 Hd1) as [Hu _].
  apply norm0_defs in Hd1 as (d0 & n & Hd0 & ->). exists d0. split; [assumption|]. cbn [set_body f_body f_args] in *.
  split; [reflexivity|]. destruct (alias_names (fst (norm0 m (f_body d0) ret n)) []) as [A1 A2]. split.
  - apply (NoDup_count_occ string_dec). intros x. pose proof (proj1 (NoDup_count_occ string_dec _) Hu x).
    specialize (A1 x). unfold cnt in A1. lia.
  - assert (Hb : forall x, In x (binders (fst (norm0 m (f_body d0) ret n))) ->
              In x (binders (f_body d0)) \/ exists i, x = anf i).
    { intros x Hx. destruct (Hn d0 Hd0) as (_ & _ & Hs).
      destruct (norm_binders m (f_body d0) Hs _ ret n adds_ret) as [_ H]. specialize (H x).
      apply (count_occ_In string_dec) in Hx. fold (cnt x (binders (fst (norm0 m (f_body d0) ret n)))) in Hx.
      rewrite H in Hx. destruct (cnt x (binders (f_body d0))) eqn:E.
      - right. assert (Hm : In x (made n (snd (norm0 m (f_body d0) ret n)))).
        { apply (count_occ_In string_dec). unfold cnt in Hx. lia. }
        apply made_in in Hm as (i & _ & ->). eauto.
      - left. apply (count_occ_In string_dec). unfold cnt in E. lia. }
    intros x [Hx|Hx].
    + apply A2 in Hx as [Hx|[Hx|(y & Hx)]]; [|apply Hb in Hx; tauto|discriminate].
      left. eapply norm_free with (Y := fun _ => False) in Hx; [|exact adds_free_ret]. tauto.
    + assert (Hx' : In x (binders (fst (norm0 m (f_body d0) ret n)))).
      { apply (count_occ_In string_dec) in Hx. apply (count_occ_In string_dec). specialize (A1 x). unfold cnt in A1. lia. }
      apply Hb in Hx'. tauto.
Qed.

(** ** Environment inference *)
Lemma infer_same m : same_globals m (infer_module m).
Proof. apply (same_map m infer_global). repeat split. Qed.

Lemma infer_binders e : forall vars, binders (infer vars e) = binders e.
Proof.
  induction e as [l|x|o es IH|c t e IHc IHt IHe|a alts de IHa IHalts IHde|x t b e IHb IHe
                  |d e IHd IHe|o x t e IHo IHe|xs e IHe|xs e IHe] using expr_ind'; intros vars;
    rewrite ?Forall_forall in *; cbn [infer binders f_name f_args f_body].
  - reflexivity.
  - reflexivity.
  - rewrite flat_map_map_in with (f := binders) (g := infer vars) (h := binders); auto.
  - rewrite IHc, IHt, IHe. reflexivity.
  - rewrite IHa. f_equal. f_equal.
    + apply flat_map_map_in. intros al Hal. cbn. rewrite (IHalts al Hal). reflexivity.
    + destruct de as [[y e]|]; [|reflexivity]. rewrite (IHde y e eq_refl). reflexivity.
  - rewrite IHb, IHe. reflexivity.
  - rewrite IHd, IHe. reflexivity.
  - rewrite IHo, IHe. reflexivity.
  - apply IHe.
  - apply IHe.
Qed.

Lemma infer_letrec e : forall vars d e1, within (LetRec d e1) (infer vars e) ->
  exists vars' d0 e0, d = infer_local_def vars' d0 /\ within (LetRec d0 e0) e.
Proof.
  induction e as [l|x|o es IH|c t e IHc IHt IHe|a alts de IHa IHalts IHde|x t b e IHb IHe
                  |d0 e IHd IHe|o x t e IHo IHe|xs e IHe|xs e IHe] using expr_ind'; intros vars d e1 H;
    rewrite ?Forall_forall in *; cbn [infer] in H.
  - inversion H.
  - inversion H.
  - inversion H; subst. match goal with H : In _ (map _ _) |- _ => apply in_map_iff in H as (e' & <- & He) end.
    destruct (IH e' He _ _ _ ltac:(eassumption)) as (v & d0 & e0 & -> & Hw). exists v, d0, e0.
    split; [reflexivity|]. econstructor; eassumption.
  - inversion H; subst; [edestruct IHc as (v & d0 & e0 & -> & Hw)|edestruct IHt as (v & d0 & e0 & -> & Hw)
      |edestruct IHe as (v & d0 & e0 & -> & Hw)]; try eassumption; exists v, d0, e0;
      (split; [reflexivity|]); solve [econstructor; eassumption].
  - inversion H; subst.
    + edestruct IHa as (v & d0 & e0 & -> & Hw); [eassumption|]. exists v, d0, e0. split; [reflexivity|].
      econstructor; eassumption.
    + match goal with H : In _ (map _ _) |- _ => apply in_map_iff in H as (al0 & <- & He) end.
      edestruct (IHalts al0 He) as (v & d0 & e0 & -> & Hw); [eassumption|]. exists v, d0, e0. split; [reflexivity|].
      econstructor; eassumption.
    + destruct de as [[y e2]|]; [|discriminate].
      match goal with H : _ = Some _ |- _ => injection H; intros; subst end.
      edestruct (IHde _ e2 eq_refl) as (v & d0 & e0 & -> & Hw); [eassumption|]. exists v, d0, e0.
      split; [reflexivity|]. econstructor; eassumption.
  - inversion H; subst; [edestruct IHb as (v & d0 & e0 & -> & Hw)|edestruct IHe as (v & d0 & e0 & -> & Hw)];
      try eassumption; exists v, d0, e0; (split; [reflexivity|]); solve [econstructor; eassumption].
  - inversion H; subst; cbn [f_body] in *.
    + exists vars, d0, e. split; [reflexivity|constructor].
    + destruct (IHd _ _ _ H2) as (v & d1 & e0 & -> & Hw). exists v, d1, e0. split; [reflexivity|].
      apply within_letrec_definition. assumption.
    + destruct (IHe _ _ _ H2) as (v & d1 & e0 & -> & Hw). exists v, d1, e0. split; [reflexivity|].
      apply within_letrec_body. assumption.
  - inversion H; subst; [edestruct IHo as (v & d0 & e0 & -> & Hw)|edestruct IHe as (v & d0 & e0 & -> & Hw)];
      try eassumption; exists v, d0, e0; (split; [reflexivity|]); solve [econstructor; eassumption].
  - inversion H; subst. edestruct IHe as (v & d0 & e0 & -> & Hw); [eassumption|]. exists v, d0, e0.
    split; [reflexivity|]. econstructor; eassumption.
  - inversion H; subst. edestruct IHe as (v & d0 & e0 & -> & Hw); [eassumption|]. exists v, d0, e0.
    split; [reflexivity|]. econstructor; eassumption.
Qed.

Lemma within_fv a e : within a e -> forall x, In x (fv a) -> In x (fv e) \/ In x (binders e).
Proof.
  induction 1; intros z Hz; auto; try (apply IHwithin in Hz); cbn [fv binders];
    rewrite ?in_fv_letrec; cbn [In]; rewrite ?in_app_iff, ?in_flat_map, ?in_except.
  - destruct Hz as [Hz|Hz]; eauto.
  - tauto.
  - tauto.
  - tauto.
  - tauto.
  - destruct Hz as [Hz|Hz].
    + destruct (string_dec z (a_name al)) as [->|Hx].
      * right. right. left. exists al. split; [assumption|left; reflexivity].
      * left. right. left. exists al. rewrite in_except. auto.
    + right. right. left. exists al. split; [assumption|right; assumption].
  - destruct Hz as [Hz|Hz]; [|right; right; right; right; assumption].
    destruct (string_dec z x) as [->|Hx]; [right; right; right; left; reflexivity|tauto].
  - tauto.
  - destruct (string_dec z x) as [->|Hx]; [auto|tauto].
  - destruct (string_dec z (f_name d)) as [->|Hx]; [auto|].
    destruct (in_dec string_dec z (map fst (f_args d))); [tauto|]. rewrite in_app_iff, filter_In.
    destruct Hz as [Hz|Hz]; [|tauto]. left. split; [|assumption]. left. split; [assumption|].
    apply String.eqb_neq in Hx. rewrite Hx, (proj2 (mem_false _ _)); auto.
  - destruct (string_dec z (f_name d)) as [->|Hx]; [auto|]. rewrite in_app_iff. tauto.
  - tauto.
  - destruct (string_dec z x) as [->|Hx]; [auto|tauto].
Qed.

Section Stages.
  Variable m : mmodule.
  Hypothesis Hsrc : proper_source m.

  Let m1 := alpha_module m.
  Let m2 := norm_module m1.
  Let m3 := infer_module m2.

  Lemma stage_alpha : normalizable m1.
  Proof.
    apply normalizable_spec.
    - apply alpha_names_apart. assumption.
    - apply alpha_no_normal. assumption.
    - apply alpha_shaped, Hsrc.
  Qed.

  Lemma stage_same2 : same_globals m m2.
  Proof.
    eapply same_trans; [apply alpha_same|]. unfold m2. rewrite (norm_module_alias _ stage_alpha).
    eapply same_trans; [apply norm0_same|apply alias_same].
  Qed.

  Lemma stage_same3 : same_globals m m3.
  Proof. eapply same_trans; [apply stage_same2|apply infer_same]. Qed.

  Lemma stage_names2 d x : In d (m_defs m2) ->
    In x (map fst (f_args d)) \/ In x (fv (f_body d)) \/ In x (binders (f_body d)) -> ~ lifted_name x.
  Proof.
    intros Hd Hx. destruct (norm_names _ _ stage_alpha Hd) as (d0 & Hd0 & Ha & _ & Hn).
    assert (Ho : (In x (map fst (f_args d0)) \/ In x (fv (f_body d0)) \/ In x (binders (f_body d0))) \/
                 exists i, x = anf i).
    { destruct Hx as [Hx|Hx]; [rewrite <- Ha; auto|]. apply Hn in Hx. tauto. }
    destruct Ho as [Ho|(i & ->)]; [apply (alpha_ordinary m d0 x Hsrc Hd0 Ho)|].
    intros [(y & j & E)|(s & E)].
    - apply numbered_inj in E as [E _]. discriminate.
    - discriminate.
  Qed.

  Lemma stage_bound2 : bound_once m2.
  Proof. intros d Hd. destruct (norm_names _ _ stage_alpha Hd) as (d0 & _ & _ & H & _). exact H. Qed.

  Lemma stage_defs3 d : In d (m_defs m3) -> exists d0, In d0 (m_defs m2) /\ d = infer_global d0.
  Proof. cbn. intros H. apply in_map_iff in H as (d0 & <- & H). eauto. Qed.

  Lemma stage_bound3 : bound_once m3.
  Proof.
    intros d Hd. apply stage_defs3 in Hd as (d0 & Hd & ->). cbn [infer_global f_body].
    rewrite infer_binders. apply stage_bound2. assumption.
  Qed.

  Lemma stage_names3 : no_lifted_names m3.
  Proof.
    split.
    - intros g Hg. rewrite (same_global_type _ _ g stage_same3) in Hg.
      apply unreserved_ordinary. destruct Hsrc as [_ _ _ _ [H _] _]. auto.
    - intros d x Hd Hx. apply stage_defs3 in Hd as (d0 & Hd & ->).
      assert (H : In x (map fst (f_args d0)) \/ In x (fv (f_body d0)) \/ In x (binders (f_body d0)));
        [|exact (stage_names2 d0 x Hd H)].
      destruct Hx as [Hx|[Hx|[Hx|(l & e1 & Hw & Hx)]]]; cbn [infer_global f_args f_body] in *.
      + auto.
      + apply within_var in Hx. rewrite infer_fv, infer_binders in Hx. auto.
      + rewrite infer_binders in Hx. auto.
      + apply infer_letrec in Hw as (vars & l0 & e0 & -> & Hw). cbn [infer_local_def f_env] in Hx.
        apply in_infer_env_names in Hx as (_ & Hx & Hne & Ha).
        right. apply (within_fv _ _ Hw). apply in_fv_letrec. auto.
  Qed.

  Lemma stage_environments : proper_environments m3.
  Proof.
    intros g d e1 Hg Hw. apply stage_defs3 in Hg as (g0 & Hg & ->). cbn [infer_global f_body] in Hw.
    apply infer_letrec in Hw as (vars & d0 & e0 & -> & Hw). cbn [infer_local_def f_name f_args f_env].
    pose proof (within_nodup _ _ Hw (stage_bound2 _ Hg)) as Hn. cbn [binders] in Hn.
    change (f_name d0 :: map fst (f_args d0) ++ map fst (infer_env vars d0))
      with ((f_name d0 :: map fst (f_args d0)) ++ map fst (infer_env vars d0)).
    change (f_name d0 :: map fst (f_args d0) ++ binders (f_body d0) ++ binders e0)
      with ((f_name d0 :: map fst (f_args d0)) ++ binders (f_body d0) ++ binders e0) in Hn.
    apply nodup_app_iff in Hn as (Hn & _ & _). apply nodup_app_iff. split; [assumption|].
    split; [apply infer_env_nodup|]. intros x Hx Hi. apply in_infer_env_names in Hi as (_ & _ & Hne & Ha).
    destruct Hx as [Hx|Hx]; congruence.
  Qed.
End Stages.

Theorem closure_passes_refine m : proper_source m -> refines Lexical m Declared (closure_passes m).
Proof.
  intros Hsrc. unfold closure_passes. pose proof (concat_source m Hsrc) as Hc.
  eapply refines_trans; [apply concat_refines, Hsrc|].
  eapply refines_trans; [apply alpha_refines; apply Hc|].
  eapply refines_trans; [apply norm_refines|apply infer_refines].
  - eapply same_infos; [apply alpha_same|apply Hc].
  - apply stage_alpha. assumption.
  - eapply same_infos; [apply stage_same2; assumption|apply Hc].
Qed.

Theorem middle_end_refines m : proper_source m -> no_closed_thunks (closure_passes m) ->
  refines Lexical m Declared (middle_end m).
Proof.
  intros Hsrc Ht. pose proof (concat_source m Hsrc) as Hc. unfold middle_end.
  eapply refines_trans; [apply closure_passes_refine; assumption|]. apply lift_refines.
  - eapply same_infos; [apply stage_same3; eassumption|apply Hc].
  - apply stage_names3. assumption.
  - apply stage_bound3. assumption.
  - apply stage_environments. assumption.
  - assumption.
Qed.
