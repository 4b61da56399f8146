(** The validator of reference counts accepts what the transformation makes. *)
From Coq Require Import String List Bool Arith Lia.
From Verif Require Import Base Mir MirSim MirScopeSpec MirNormSpec MirEnv MirEnvProofs MirUniq MirRc MirRcSpec MirRcValidSpec
  MirRcProofs MirRcFunction MirRcBehaviour MirRcComplete.
Import ListNotations.

Lemma erase_own_binders e : own_binders (erase e) = own_binders e.
Proof.
  induction e as [l|y|op es IH|c t e IHc IHt IHe|a alts de IHa IHalts IHde|y t b e IHb IHe
                  |d e IHd IHe|a y t e IHo IHe|xs e IHe|xs e IHe] using expr_ind'; cbn [erase own_binders]; try congruence.
  - induction IH as [|e es He _ IH]; cbn; congruence.
  - f_equal; [assumption|]. f_equal.
    + induction IHalts as [|al alts H _ IH]; cbn; congruence.
    + destruct de as [[x e]|]; [|reflexivity]. rewrite (IHde _ _ eq_refl). reflexivity.
  - cbn. congruence.
Qed.

Lemma erase_empty_case a e : within (Case a [] None) e -> within (Case (erase a) [] None) (erase e).
Proof.
  remember (Case a [] None) as e0 eqn:E. intros H. revert E.
  induction H as [e|e' o es e He _ IH|e' c t e _ IH|e' c t e _ IH|e' c t e _ IH|e' a1 alts de _ IH|e' a1 alts de al Hal _ IH
                  |e' a1 alts x e _ IH|e' x t b e _ IH|e' x t b e _ IH|e' d e _ IH|e' d e _ IH
                  |e' o x t e _ IH|e' o x t e _ IH|e' xs e _ IH|e' xs e _ IH]; intros E; subst; cbn [erase];
    try (specialize (IH eq_refl)).
  - constructor.
  - eapply within_op; [apply in_map; exact He|exact IH].
  - apply within_if_1, IH.
  - apply within_if_2, IH.
  - apply within_if_3, IH.
  - apply within_case_argument, IH.
  - eapply within_case_alternative; [apply in_map; exact Hal|exact IH].
  - apply within_case_default, IH.
  - apply within_let_bound, IH.
  - apply within_let_body, IH.
  - apply within_letrec_definition, IH.
  - apply within_letrec_body, IH.
  - apply within_try_operand, IH.
  - apply within_try_body, IH.
  - exact IH.
  - exact IH.
Qed.

Lemma drop_mentioned e xs owned x : mentioned (drop_variables e xs owned) x -> mentioned e x \/ In x (map fst owned).
Proof.
  destruct xs as [|y xs]; cbn [drop_variables mentioned]; [auto|]. intros [H|H]; [|auto].
  apply restrict_names in H. tauto.
Qed.

Lemma clone_mentioned e xs owned x : mentioned (clone_variables e xs owned) x -> mentioned e x \/ In x (map fst owned).
Proof.
  destruct xs as [|y xs]; cbn [clone_variables mentioned]; [auto|]. intros [H|H]; [|auto].
  apply restrict_names in H. tauto.
Qed.

Definition mentions (f : expr -> names -> option (expr * names)) (owned : arguments) (e : expr) : Prop :=
  forall mv e' mv', f e mv = Some (e', mv') -> forall x, mentioned e' x -> mentioned e x \/ In x (map fst owned).

Lemma backward_mentions f owned es : Forall (mentions f owned) es -> forall mv es' mv', rc_backward f es mv = Some (es', mv') ->
  forall e' x, In e' es' -> mentioned e' x -> (exists e, In e es /\ mentioned e x) \/ In x (map fst owned).
Proof.
  induction 1 as [|e es He _ IH]; intros mv es' mv' H e' x Hi Hm; cbn [rc_backward] in H.
  - osome H. destruct Hi.
  - obind H. obind H. osome H. destruct Hi as [<-|Hi].
    + destruct (He _ _ _ E0 _ Hm) as [H|H]; [|auto]. left. exists e. cbn. auto.
    + destruct (IH _ _ _ E _ _ Hi Hm) as [(e2 & H1 & H2)|H]; [|auto]. left. exists e2. cbn. auto.
Qed.

Lemma forward_mentions f owned es : Forall (mentions f owned) es -> forall mv es' mv', rc_forward f es mv = Some (es', mv') ->
  forall e' x, In e' es' -> mentioned e' x -> (exists e, In e es /\ mentioned e x) \/ In x (map fst owned).
Proof.
  induction 1 as [|e es He _ IH]; intros mv es' mv' H e' x Hi Hm; cbn [rc_forward] in H.
  - osome H. destruct Hi.
  - obind H. obind H. osome H. destruct Hi as [<-|Hi].
    + destruct (He _ _ _ E _ Hm) as [H|H]; [|auto]. left. exists e. cbn. auto.
    + destruct (IH _ _ _ E0 _ _ Hi Hm) as [(e2 & H1 & H2)|H]; [|auto]. left. exists e2. cbn. auto.
Qed.

Lemma inner_mentioned y t owned x (P : Prop) : P \/ In x (map fst (own_insert y t owned)) -> x <> y ->
  P \/ In x (map fst owned).
Proof. rewrite own_insert_names. tauto. Qed.

Lemma rc_mentioned e : forall owned mv e' mv', rc owned mv e = Some (e', mv') ->
  forall x, mentioned e' x -> mentioned e x \/ In x (map fst owned).
Proof.
  induction e as [l|y|op es IH|c t e IHc IHt IHe|a alts de IHa IHalts IHde|y t b e IHb IHe
                  |d e IHd IHe|a y t e IHo IHe|xs e IHe|xs e IHe] using expr_ind';
    intros owned mv e' mv' H x Hm; cbn [rc] in H.
  - osome H. destruct Hm.
  - destruct (should_clone y owned mv); osome H; [apply clone_mentioned in Hm|]; tauto.
  - obind H. osome H. apply mentioned_op in Hm as (e2 & He2 & Hm). rewrite mentioned_op.
    assert (Hf : Forall (mentions (fun e mv => rc owned mv e) owned) es).
    { eapply Forall_impl; [|exact IH]. intros e9 He m1 e1 m2 H1. exact (He _ _ _ _ H1). }
    destruct (forward_operation op); [eapply forward_mentions|eapply backward_mentions]; eassumption.
  - obind H. obind H. obind H. osome H. cbn [mentioned] in *. destruct Hm as [Hm|[Hm|Hm]].
    + destruct (IHc _ _ _ _ E1 _ Hm); auto.
    + apply drop_mentioned in Hm as [Hm|Hm]; [|auto]. destruct (IHt _ _ _ _ E _ Hm); auto.
    + apply drop_mentioned in Hm as [Hm|Hm]; [|auto]. destruct (IHe _ _ _ _ E0 _ Hm); auto.
  - obind H. destruct (rc_alternatives _ owned mv alts) as [tuples|] eqn:Et; [|discriminate H]. cbn [opt_bind] in H.
    obind H. osome H. rewrite mentioned_case in Hm |- *. destruct Hm as [Hm|[(al & Hal & Hm & Hne)|Hm]].
    + destruct (IHa _ _ _ _ E0 _ Hm); auto.
    + apply in_map_iff in Hal as ([al2 bm] & <- & Hal). cbn [a_body a_name] in *.
      destruct (forall2_in_right _ _ _ _ (alternatives_forall2 _ _ _ _ _ Et) Hal) as (al1 & Hal1 & T1 & T2 & T3).
      cbn [fst snd] in *. rewrite Forall_forall in IHalts.
      assert (G : mentioned (a_body al1) x \/ In x (map fst owned)).
      { rewrite T2 in Hne. eapply inner_mentioned; [|exact Hne]. apply drop_mentioned in Hm as [Hm|Hm].
        - eapply IHalts; eassumption.
        - right. rewrite T2 in Hm. rewrite own_insert_names in *. exact Hm. }
      destruct G as [G|G]; [|auto]. left. right. left. exists al1. rewrite T2 in Hne. auto.
    + destruct de as [[x9 e9]|].
      2: { osome E. destruct Hm. }
      obind E. osome E. destruct Hm as [Hm Hne].
      assert (G : mentioned e9 x \/ In x (map fst owned)).
      { eapply inner_mentioned; [|exact Hne]. apply drop_mentioned in Hm as [Hm|Hm]; [|right; exact Hm].
        eapply (IHde _ _ eq_refl); eassumption. }
      destruct G as [G|G]; auto.
  - obind H. obind H. osome H. rewrite drop_unless in Hm. cbn [mentioned] in *. destruct Hm as [Hm|[Hm Hne]].
    + destruct (IHb _ _ _ _ E0 _ Hm); auto.
    + assert (G : mentioned e x \/ In x (map fst owned)).
      { eapply inner_mentioned; [|exact Hne]. apply drop_mentioned in Hm as [Hm|Hm]; [|right; exact Hm]. eapply IHe; eassumption. }
      destruct G as [G|G]; auto.
  - obind H. obind H. osome H. rewrite drop_unless in Hm. apply clone_mentioned in Hm as [Hm|Hm]; [|auto].
    cbn [mentioned f_env f_name] in *. destruct Hm as [Hm|[Hm Hne]]; [auto|].
    assert (G : mentioned e x \/ In x (map fst owned)).
    { eapply inner_mentioned; [|exact Hne]. apply drop_mentioned in Hm as [Hm|Hm]; [|right; exact Hm]. eapply IHe; eassumption. }
    destruct G as [G|G]; auto.
  - obind H. obind H. osome H. apply drop_mentioned in Hm as [Hm|Hm]; [|auto]. cbn [mentioned] in *.
    destruct Hm as [Hm|[Hm Hne]].
    + destruct (IHo _ _ _ _ E0 _ Hm); auto.
    + apply drop_mentioned in Hm as [Hm|Hm]; [|auto]. destruct (IHe _ _ _ _ E _ Hm); auto.
  - discriminate.
  - discriminate.
Qed.

Lemma function_hides global d d' : rc_function global d = Some d' ->
  parameters (negb global) d' = parameters (negb global) d /\ own_binders (f_body d') = own_binders (f_body d) /\
  forall x, mentioned (f_body d') x -> mentioned (f_body d) x \/ In x (parameters (negb global) d).
Proof.
  intros H. unfold rc_function in H. obind H. injection H as <-.
  split; [reflexivity|]. split.
  - rewrite <- erase_own_binders. cbn [f_body]. unfold close_function. rewrite erase_drop, (rc_erase _ _ _ _ _ E). reflexivity.
  - intros x Hm. cbn [f_body] in Hm. destruct (owned_by_names global d) as [_ N].
    assert (P : forall x, In x (map fst (owned_by global d)) -> In x (parameters (negb global) d)).
    { intros y Hy. apply N in Hy. unfold parameters, at_entry. rewrite map_map. rewrite map_id. exact Hy. }
    apply drop_mentioned in Hm as [Hm|Hm]; [|auto]. destruct (rc_mentioned _ _ _ _ _ E _ Hm); auto.
Qed.

(** ** Sources *)
Definition plain (e : expr) : Prop :=
  forall xs b, ~ within (CloneVars xs b) e /\ ~ within (DropVars xs b) e.

Lemma plain_within e' e : within e' e -> plain e -> plain e'.
Proof.
  intros H P xs b. destruct (P xs b) as [P1 P2]. split; intros Hw; [apply P1|apply P2]; eapply within_trans; eassumption.
Qed.

Ltac sub P := eapply plain_within; [|exact P]; eauto using within.

Lemma mentioned_uses e x : plain e -> mentioned e x -> In x (uses e).
Proof.
  induction e as [l|y|op es IH|c t e IHc IHt IHe|a alts de IHa IHalts IHde|y t b e IHb IHe
                  |d e IHd IHe|a y t e IHo IHe|xs e IHe|xs e IHe] using expr_ind'; intros P Hm.
  - destruct Hm.
  - left. symmetry. exact Hm.
  - apply mentioned_op in Hm as (e & He & Hm). cbn [uses]. apply in_flat_map. exists e. split; [assumption|].
    rewrite Forall_forall in IH. apply IH; auto. sub P.
  - cbn [uses mentioned] in *. rewrite !in_app_iff. destruct Hm as [Hm|[Hm|Hm]].
    + left. apply IHc; [sub P|assumption].
    + right. left. apply IHt; [sub P|assumption].
    + right. right. apply IHe; [sub P|assumption].
  - apply mentioned_case in Hm. cbn [uses]. rewrite !in_app_iff. destruct Hm as [Hm|[(al & Hal & Hm & Hne)|Hm]].
    + left. apply IHa; [sub P|assumption].
    + right. left. apply in_flat_map. exists al. split; [assumption|]. apply in_except. split; [|assumption].
      rewrite Forall_forall in IHalts. apply IHalts; auto. sub P.
    + right. right. destruct de as [[z e]|]; [|assumption]. destruct Hm as [Hm Hne]. apply in_except. split; [|assumption].
      eapply (IHde _ _ eq_refl); [sub P|assumption].
  - cbn [uses mentioned] in *. rewrite in_app_iff, in_except. destruct Hm as [Hm|[Hm Hne]].
    + left. apply IHb; [sub P|assumption].
    + right. split; [|assumption]. apply IHe; [sub P|assumption].
  - cbn [uses mentioned] in *. rewrite in_app_iff, in_except. destruct Hm as [Hm|[Hm Hne]]; [auto|].
    right. split; [|assumption]. apply IHe; [sub P|assumption].
  - cbn [uses mentioned] in *. rewrite in_app_iff, in_except. destruct Hm as [Hm|[Hm Hne]].
    + left. apply IHo; [sub P|assumption].
    + right. split; [|assumption]. apply IHe; [sub P|assumption].
  - exfalso. apply (proj1 (P xs e)). constructor.
  - exfalso. apply (proj2 (P xs e)). constructor.
Qed.

Lemma own_binders_binders e : incl (own_binders e) (binders e).
Proof.
  induction e as [l|y|op es IH|c t e IHc IHt IHe|a alts de IHa IHalts IHde|y t b e IHb IHe
                  |d e IHd IHe|a y t e IHo IHe|xs e IHe|xs e IHe] using expr_ind'; intros x Hx; cbn [own_binders binders] in *.
  - exact Hx.
  - exact Hx.
  - apply in_flat_map in Hx as (e & He & Hx). apply in_flat_map. exists e. rewrite Forall_forall in IH. split; [assumption|]. apply IH; assumption.
  - rewrite !in_app_iff in *. destruct Hx as [Hx|[Hx|Hx]]; auto.
  - rewrite !in_app_iff in *. destruct Hx as [Hx|[Hx|Hx]]; auto.
    + right. left. apply in_flat_map in Hx as (al & Hal & Hx). apply in_flat_map. exists al. split; [assumption|].
      rewrite Forall_forall in IHalts. destruct Hx as [Hx|Hx]; [left; assumption|right]. apply (IHalts al Hal). exact Hx.
    + right. right. destruct de as [[z e]|]; [|assumption]. destruct Hx as [Hx|Hx]; [left; assumption|right].
      apply (IHde _ _ eq_refl). exact Hx.
  - cbn in *. rewrite in_app_iff in *. destruct Hx as [Hx|[Hx|Hx]]; auto.
  - cbn in *. rewrite ?in_app_iff in *. destruct Hx as [Hx|Hx]; [auto|]. apply IHe in Hx. tauto.
  - cbn in *. rewrite in_app_iff in *. destruct Hx as [Hx|[Hx|Hx]]; auto.
  - auto.
  - auto.
Qed.

Lemma rc_total e : plain e -> forall owned mv, exists e' mv', rc owned mv e = Some (e', mv').
Proof.
  induction e as [l|y|op es IH|c t e IHc IHt IHe|a alts de IHa IHalts IHde|y t b e IHb IHe
                  |d e IHd IHe|a y t e IHo IHe|xs e IHe|xs e IHe] using expr_ind'; intros P owned mv; cbn [rc].
  - eauto.
  - destruct (should_clone y owned mv); eauto.
  - assert (Hf : Forall (fun e => forall mv, exists e' mv', rc owned mv e = Some (e', mv')) es).
    { rewrite Forall_forall in *. intros e He mv1. apply IH; auto. sub P. }
    clear IH. destruct (forward_operation op).
    + assert (G : exists es' mv', rc_forward (fun e mv => rc owned mv e) es mv = Some (es', mv')).
      { clear P. revert mv. induction Hf as [|e es He _ IH]; intros mv; cbn [rc_forward]; [eauto|].
        destruct (He mv) as (e' & m1 & ->). cbn [opt_bind]. destruct (IH m1) as (es' & m2 & ->). cbn. eauto. }
      destruct G as (es' & m1 & ->). cbn. eauto.
    + assert (G : exists es' mv', rc_backward (fun e mv => rc owned mv e) es mv = Some (es', mv')).
      { clear P. revert mv. induction Hf as [|e es He _ IH]; intros mv; cbn [rc_backward]; [eauto|].
        destruct (IH mv) as (es' & m2 & ->). cbn [opt_bind]. destruct (He m2) as (e' & m1 & ->). cbn. eauto. }
      destruct G as (es' & m1 & ->). cbn. eauto.
  - assert (P1 : plain c) by (sub P). assert (P2 : plain t) by (sub P). assert (P3 : plain e) by (sub P).
    destruct (IHt P2 owned mv) as (t' & m1 & ->). cbn [opt_bind]. destruct (IHe P3 owned mv) as (e' & m2 & ->). cbn [opt_bind].
    destruct (IHc P1 owned (m1 ++ m2)) as (c' & m3 & ->). cbn. eauto.
  - assert (G : exists de' dm, match de with
        | Some (x, e) =>
            opt_bind (rc (own_insert x TVariant owned) (except x mv) e) (fun '(e, mv) => Some (Some (x, e), mv))
        | None => Some (None, mv)
        end = Some (de', dm)).
    { destruct de as [[x e]|]; [|eauto]. assert (P1 : plain e) by (sub P).
      destruct (IHde _ _ eq_refl P1 (own_insert x TVariant owned) (except x mv)) as (e' & m1 & ->). cbn. eauto. }
    destruct G as (de' & dm & ->). cbn [opt_bind].
    assert (G : exists tuples, rc_alternatives (fun o mv e => rc o mv e) owned mv alts = Some tuples).
    { assert (Pa : Forall (fun al => plain (a_body al)) alts).
      { apply Forall_forall. intros al Hal. sub P. }
      clear P. induction IHalts as [|al alts H _ IH]; cbn [rc_alternatives]; [eauto|].
      apply Forall_cons_iff in Pa as [Pa1 Pa]. destruct (H Pa1 (own_insert (a_name al) (alt_type (a_types al)) owned)
        (except (a_name al) mv)) as (e' & m1 & ->). cbn [opt_bind]. destruct (IH Pa) as (tuples & ->). cbn. eauto. }
    destruct G as (tuples & ->). cbn [opt_bind]. assert (P1 : plain a) by (sub P).
    match goal with |- context [rc owned ?m a] => destruct (IHa P1 owned m) as (a' & m1 & ->) end. cbn. eauto.
  - assert (P1 : plain b) by (sub P). assert (P2 : plain e) by (sub P).
    destruct (IHe P2 (own_insert y t owned) (except y mv)) as (e' & m1 & ->). cbn [opt_bind].
    destruct (IHb P1 owned (mv ++ except y m1)) as (b' & m2 & ->). cbn. eauto.
  - assert (P1 : plain (f_body d)) by (sub P). assert (P2 : plain e) by (sub P).
    destruct (IHe P2 (own_insert (f_name d) (f_type d) owned) (except (f_name d) mv)) as (e' & m1 & ->). cbn [opt_bind].
    destruct (IHd P1 (owned_by false d) []) as (b' & m2 & ->). cbn. eauto.
  - assert (P1 : plain a) by (sub P). assert (P2 : plain e) by (sub P).
    destruct (IHe P2 owned []) as (e' & m1 & ->). cbn [opt_bind].
    destruct (IHo P1 owned (except y m1 ++ mv)) as (b' & m2 & ->). cbn. eauto.
  - exfalso. apply (proj1 (P xs e)). constructor.
  - exfalso. apply (proj2 (P xs e)). constructor.
Qed.

Lemma rc_module_total m : not_counted m -> exists m', rc_module m = Some m'.
Proof.
  intros H. unfold rc_module.
  assert (G : exists defs, opt_map (rc_function true) (m_defs m) = Some defs).
  { unfold not_counted in H. revert H. generalize (m_defs m). induction l as [|g l IH]; intros H; cbn [opt_map]; [eauto|].
    unfold rc_function at 1. destruct (rc_total (f_body g) (H g (or_introl eq_refl)) (owned_by true g) []) as (e' & mv & ->).
    cbn [opt_bind]. destruct IH as (defs & ->); [intros g' Hg'; apply H; right; assumption|]. cbn. eauto. }
  destruct G as (defs & ->). cbn. eauto.
Qed.

Lemma source_globals m : not_counted m -> normal m -> plain_tries m -> exact_scopes m -> distinct_binders m ->
  globals_not_hidden m.
Proof.
  intros Hc Hn Ht Hs Hd local d x Hf Hm _ Hb.
  assert (G : exists g, In g (m_defs m) /\ within (f_body d) (f_body g)).
  { destruct local; cbn [function_of] in Hf.
    - destruct Hf as (g & e & Hg & Hw). exists g. split; [assumption|].
      eapply within_trans; [|exact Hw]. apply within_letrec_definition. constructor.
    - exists d. split; [assumption|constructor]. }
  destruct G as (g & Hg & Hw). destruct (Hs g Hg) as (S1 & S2 & S3). destruct (Hd g Hg) as (D1 & D2).
  assert (F : fit (f_body g)).
  { split.
    - intros o es Hw1. eapply Hn; eassumption.
    - intros o y t e Hw1. eapply Ht; eassumption.
    - intros d1 e Hw1. destruct (S3 d1 e Hw1) as [N E]. split; [assumption|]. intros y Hy. apply fv_free. auto. }
  assert (U : uniq (f_body g)).
  { split; [assumption|]. intros y Hy Hz. apply fv_free in Hy. exact (D2 y Hy Hz). }
  apply (proj2 (uniq_within _ _ Hw U) x); [|apply own_binders_binders; exact Hb].
  apply uses_fv; [eapply fit_within; eassumption|]. apply mentioned_uses; [|exact Hm].
  eapply plain_within; [exact Hw|]. exact (Hc g Hg).
Qed.

Theorem transformation_accepted m m' : rc_module m = Some m' ->
  normal m -> plain_tries m -> exact_scopes m -> hides_nothing m -> globals_not_hidden m -> no_empty_case m ->
  reference_count m = Some m'.
Proof.
  intros H H1 H2 H3 H4 Hg He. unfold reference_count. rewrite H. cbn [opt_bind].
  rewrite balanced_validated; [reflexivity|eapply references_are_balanced; eassumption| |].
  - unfold rc_module in H. destruct (opt_map (rc_function true) (m_defs m)) as [defs|] eqn:Eo; [|discriminate].
    cbn in H. injection H as <-. apply opt_map_forall2 in Eo.
    assert (G : forall local d', function_of (set_defs m defs) local d' ->
                exists d, function_of m local d /\ rc_function (negb local) d = Some d').
    { intros [|] d' Hd; cbn [function_of negb] in *.
      - destruct Hd as (g' & b' & Hg' & Hw). cbn [set_defs m_defs] in Hg'.
        destruct (forall2_in_right _ _ _ _ Eo Hg') as (g & Hgi & Hr).
        unfold rc_function in Hr. obind Hr. injection Hr as <-. cbn [f_body] in Hw. unfold close_function in Hw. strip Hw.
        destruct (rc_traced _ _ _ _ _ E _ _ Hw) as (d & b & Hwd & Hrd). exists d. split; [|exact Hrd]. eauto.
      - cbn [set_defs m_defs] in Hd. destruct (forall2_in_right _ _ _ _ Eo Hd) as (g & Hgi & Hr). eauto. }
    intros local d' x Hd Hm Hp Hb. destruct (G _ _ Hd) as (d & Hd1 & Hr).
    destruct (function_hides _ _ _ Hr) as (P & B & M). rewrite negb_involutive in *. rewrite P in Hp. rewrite B in Hb.
    destruct (M x Hm) as [Hm1|Hm1]; [|contradiction]. exact (Hg _ _ _ Hd1 Hm1 Hp Hb).
  - unfold rc_module in H. destruct (opt_map (rc_function true) (m_defs m)) as [defs|] eqn:Eo; [|discriminate].
    cbn in H. injection H as <-. apply opt_map_forall2 in Eo. intros g' a Hg' Hw. cbn [set_defs m_defs] in Hg'.
    destruct (forall2_in_right _ _ _ _ Eo Hg') as (g & Hgi & Hr). apply (He g (erase a) Hgi).
    rewrite (function_erase _ _ _ Hr). unfold erase_def. cbn [f_body]. apply erase_empty_case. exact Hw.
Qed.

(** Reference counting succeeds. *)
Theorem reference_count_succeeds m :
  not_counted m -> normal m -> plain_tries m -> exact_scopes m -> hides_nothing m -> globals_not_hidden m -> no_empty_case m ->
  exists m', reference_count m = Some m' /\ references_balanced m'.
Proof.
  intros H0 H1 H2 H3 H4 Hg H5. destruct (rc_module_total m H0) as (m' & H). exists m'. split.
  - apply transformation_accepted; assumption.
  - eapply references_are_balanced; eassumption.
Qed.

Lemma reference_count_rc m m' : reference_count m = Some m' -> rc_module m = Some m'.
Proof.
  unfold reference_count. destruct (rc_module m) as [m1|]; cbn [opt_bind]; [|discriminate].
  destruct (validate m1); [auto|discriminate].
Qed.
