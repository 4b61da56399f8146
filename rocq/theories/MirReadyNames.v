(** The middle end keeps names apart: if no function binds the name of one of its
    arguments again, no variable hides another one. *)
From Coq Require Import String List Bool Arith Lia.
From Verif Require Import MirExamples MirRcProofs MirRcFunction MirRcHiding MirRcAccept.
From Verif Require Import Base Names Mir MirSim MirSpec MirScopeSpec MirNormSpec MirLiftSpec MirConcat MirAlpha MirAlphaProofs MirNorm MirEnv MirEnvProofs MirUniq
  MirAliasProofs MirLoose MirNormProofs MirLift MirLiftProofs MirPipeline MirPipelineSpec MirPipelineProofs MirRc MirRcSpec MirRcValidSpec MirReady MirReadySpec.
Import ListNotations.
Local Open Scope list_scope.

(** ** Alias removal *)
Lemma subst_forget_all xs vars z : subst (forget_all xs vars) z = if mem z xs then z else subst vars z.
Proof. unfold subst. rewrite lookup_forget_all. destruct (mem z xs); reflexivity. Qed.

Lemma alias_fv e : forall s x, In x (fv (alias s e)) -> exists z, In z (fv e) /\ x = subst s z.
Proof.
  induction e as [v|y|op es IH|b t e IHc IHt IHe|a alts de IHa IHalts IHde|y t b e IHb IHe
                  |d e IHd IHe|a y t e IHo IHe|xs e IHe|xs e IHe] using expr_ind'; intros s x Hx.
  - destruct Hx.
  - destruct Hx as [<-|[]]. exists y. split; [left; reflexivity|reflexivity].
  - cbn [alias fv] in *. apply in_flat_map in Hx as (e' & He' & Hx). apply in_map_iff in He' as (e & <- & He).
    rewrite Forall_forall in IH. apply (IH e He) in Hx as (z & Hz & ->). exists z. split; [apply in_flat_map; eauto|reflexivity].
  - cbn [alias fv] in *. rewrite !in_app_iff in Hx.
    destruct Hx as [Hx|[Hx|Hx]]; [apply IHc in Hx|apply IHt in Hx|apply IHe in Hx]; destruct Hx as (z & Hz & ->);
      exists z; rewrite !in_app_iff; auto.
  - cbn [alias fv] in *. rewrite !in_app_iff in Hx. destruct Hx as [Hx|[Hx|Hx]].
    + apply IHa in Hx as (z & Hz & ->). exists z. rewrite !in_app_iff. auto.
    + apply in_flat_map in Hx as (al' & Hal' & Hx). apply in_map_iff in Hal' as (al & <- & Hal). cbn [a_name a_body] in Hx.
      apply in_except in Hx as [Hx Hne]. rewrite Forall_forall in IHalts. apply (IHalts al Hal) in Hx as (z & Hz & ->).
      destruct (string_dec z (a_name al)) as [->|Hz2]; [rewrite subst_forget_same in Hne; contradiction|].
      exists z. rewrite subst_forget_other by assumption. split; [|reflexivity]. rewrite !in_app_iff. right. left.
      apply in_flat_map. exists al. rewrite in_except. auto.
    + destruct de as [[y e]|]; [|destruct Hx]. apply in_except in Hx as [Hx Hne]. apply (IHde _ _ eq_refl) in Hx as (z & Hz & ->).
      destruct (string_dec z y) as [->|Hz2]; [rewrite subst_forget_same in Hne; contradiction|].
      exists z. rewrite subst_forget_other by assumption. split; [|reflexivity]. rewrite !in_app_iff, in_except. auto.
  - destruct (var_of (alias s b)) as [v|] eqn:Ev.
    + apply var_of_some in Ev. rewrite (alias_let_var _ _ _ _ _ _ Ev) in Hx. cbn [fv].
      apply IHe in Hx as (z & Hz & ->). rewrite subst_cons. destruct (String.eqb_spec z y) as [->|Hne].
      * destruct (IHb s v) as (z & Hz' & ->); [rewrite Ev; left; reflexivity|]. exists z. rewrite in_app_iff. auto.
      * exists z. rewrite in_app_iff, in_except. auto.
    + rewrite (alias_let_other _ _ _ _ _ Ev) in Hx. cbn [fv] in *. rewrite in_app_iff, in_except in Hx.
      destruct Hx as [Hx|[Hx Hne]].
      * apply IHb in Hx as (z & Hz & ->). exists z. rewrite in_app_iff. auto.
      * apply IHe in Hx as (z & Hz & ->). destruct (string_dec z y) as [->|Hz2]; [rewrite subst_forget_same in Hne; contradiction|].
        exists z. rewrite subst_forget_other by assumption. rewrite in_app_iff, in_except. auto.
  - cbn [alias] in Hx. apply in_fv_letrec in Hx as [Hf Hx]. cbn [f_name f_args f_body] in *. destruct Hx as [[Hx Ha]|Hx].
    + apply IHd in Hx as (z & Hz & ->). rewrite subst_forget_all in *. destruct (mem z (map fst (f_args d))) eqn:Em.
      * apply mem_In in Em. contradiction.
      * apply mem_false in Em. destruct (string_dec z (f_name d)) as [->|Hz2]; [rewrite subst_forget_same in Hf; contradiction|].
        exists z. rewrite subst_forget_other by assumption. split; [|reflexivity]. apply in_fv_letrec. auto.
    + apply IHe in Hx as (z & Hz & ->). destruct (string_dec z (f_name d)) as [->|Hz2]; [rewrite subst_forget_same in Hf; contradiction|].
      exists z. rewrite subst_forget_other by assumption. split; [|reflexivity]. apply in_fv_letrec. auto.
  - cbn [alias fv] in *. rewrite in_app_iff, in_except in Hx. destruct Hx as [Hx|[Hx Hne]].
    + apply IHo in Hx as (z & Hz & ->). exists z. rewrite in_app_iff. auto.
    + apply IHe in Hx as (z & Hz & ->). destruct (string_dec z y) as [->|Hz2]; [rewrite subst_forget_same in Hne; contradiction|].
      exists z. rewrite subst_forget_other by assumption. rewrite in_app_iff, in_except. auto.
  - apply IHe. exact Hx.
  - apply IHe. exact Hx.
Qed.

(** ** Lambda lifting *)
Lemma add_binders f zs e : binders (add_arguments f zs e) = binders e.
Proof.
  induction e as [v|y|op es IH|b t e IHc IHt IHe|a alts de IHa IHalts IHde|y t b e IHb IHe
                  |d e IHd IHe|a y t e IHo IHe|xs e IHe|xs e IHe] using expr_ind'; cbn [add_arguments].
  - reflexivity.
  - reflexivity.
  - assert (Hm : forall l, Forall (fun e => binders (add_arguments f zs e) = binders e) l ->
              flat_map binders (map (add_arguments f zs) l) = flat_map binders l).
    { induction 1 as [|e l He _ IHl]; cbn; [reflexivity|]. rewrite He, IHl. reflexivity. }
    assert (Hn : binders (Op op (map (add_arguments f zs) es)) = binders (Op op es)) by (cbn; apply Hm; exact IH).
    destruct op; try exact Hn. destruct es as [|[| | | | | | | | |] es]; try exact Hn.
    destruct (String.eqb x f); [|exact Hn]. inversion IH as [|? ? _ IH']; subst. cbn.
    rewrite flat_map_app, (Hm es IH'). replace (flat_map binders (map (fun z => Var (fst z)) zs)) with (@nil string); [apply app_nil_r|].
    clear. induction zs as [|z zs IH]; [reflexivity|exact IH].
  - cbn. rewrite IHc, IHt, IHe. reflexivity.
  - cbn. rewrite IHa. f_equal. f_equal.
    + induction IHalts as [|al alts Hal _ IHl]; cbn; [reflexivity|]. rewrite IHl. do 2 f_equal. destruct (String.eqb _ _); [reflexivity|exact Hal].
    + destruct de as [[x e]|]; [|reflexivity]. f_equal. destruct (String.eqb x f); [reflexivity|]. apply (IHde _ _ eq_refl).
  - cbn. rewrite IHb. do 2 f_equal. destruct (String.eqb y f); auto.
  - cbn. do 3 f_equal. destruct (String.eqb _ f); auto.
  - cbn. rewrite IHo. do 2 f_equal. destruct (String.eqb y f); auto.
  - exact IHe.
  - exact IHe.
Qed.

Lemma add_fv_back f zs e x : In x (fv (add_arguments f zs e)) -> In x (fv e) \/ In x (map fst zs).
Proof.
  induction e as [v|y|op es IH|b t e IHc IHt IHe|a alts de IHa IHalts IHde|y t b e IHb IHe
                  |d e IHd IHe|a y t e IHo IHe|xs e IHe|xs e IHe] using expr_ind'; cbn [add_arguments]; intros H.
  - auto.
  - auto.
  - assert (Hm : forall l, (forall e, In e l -> In e es) -> In x (flat_map fv (map (add_arguments f zs) l)) ->
              In x (flat_map fv l) \/ In x (map fst zs)).
    { intros l Hl Hx. apply in_flat_map in Hx as (e' & He' & Hx). apply in_map_iff in He' as (e & <- & He).
      rewrite Forall_forall in IH. apply IH in Hx as [Hx|Hx]; [left; apply in_flat_map; eauto|auto|auto]. }
    assert (Hn : In x (fv (Op op (map (add_arguments f zs) es))) -> In x (fv (Op op es)) \/ In x (map fst zs)) by (cbn; apply Hm; auto).
    destruct op; try (apply Hn; exact H). destruct es as [|[| | | | | | | | |] es]; try (apply Hn; exact H).
    destruct (String.eqb_spec x0 f) as [->|]; [|apply Hn; exact H].
    cbn in H. destruct H as [<-|H]; [left; left; reflexivity|]. rewrite flat_map_app, in_app_iff in H. destruct H as [H|H].
    + apply Hm in H; [|intros e He; right; exact He]. destruct H as [H|H]; [|auto]. left. right. exact H.
    + right. apply in_flat_map in H as (v & Hv & H). apply in_map_iff in Hv as (z & <- & Hz). destruct H as [<-|[]]. apply in_map. exact Hz.
  - cbn [fv] in *. rewrite !in_app_iff in *. destruct H as [H|[H|H]]; [apply IHc in H|apply IHt in H|apply IHe in H]; tauto.
  - cbn [fv] in *. rewrite !in_app_iff in *. destruct H as [H|[H|H]]; [apply IHa in H; tauto| |].
    + apply in_flat_map in H as (al' & Hal' & H). apply in_map_iff in Hal' as (al & <- & Hal). cbn [a_name a_body] in H.
      apply in_except in H as [H Hne].
      assert (K : In x (fv (a_body al)) \/ In x (map fst zs)).
      { destruct (String.eqb _ _); [auto|]. rewrite Forall_forall in IHalts. apply (IHalts al Hal H). }
      destruct K as [K|K]; [|auto]. left. right. left. apply in_flat_map. exists al. rewrite in_except. auto.
    + destruct de as [[y e]|]; [|destruct H]. apply in_except in H as [H Hne].
      assert (K : In x (fv e) \/ In x (map fst zs)) by (destruct (String.eqb y f); [auto|apply (IHde _ _ eq_refl H)]).
      destruct K as [K|K]; [|auto]. left. right. right. apply in_except. auto.
  - cbn [fv] in *. rewrite !in_app_iff, !in_except in *. destruct H as [H|[H Hne]]; [apply IHb in H; tauto|].
    assert (K : In x (fv e) \/ In x (map fst zs)) by (destruct (String.eqb y f); auto). tauto.
  - rewrite in_fv_letrec in *. destruct H as [Hne [H|H]]; [tauto|].
    assert (K : In x (fv e) \/ In x (map fst zs)) by (destruct (String.eqb (f_name d) f); auto). tauto.
  - cbn [fv] in *. rewrite !in_app_iff, !in_except in *. destruct H as [H|[H Hne]]; [apply IHo in H; tauto|].
    assert (K : In x (fv e) \/ In x (map fst zs)) by (destruct (String.eqb y f); auto). tauto.
  - auto.
  - auto.
Qed.

Lemma save_fv_back env : forall zs e x, length zs = length env -> In x (fv (save_variables env zs e)) ->
  In x (map fst env) \/ In x (fv e) /\ ~ In x (map fst zs).
Proof.
  induction env as [|[y t] env IH]; intros zs e x Hl H; destruct zs as [|[z t'] zs]; try discriminate; cbn [save_variables] in H.
  - right. split; [exact H|intros []].
  - cbn in *. destruct H as [<-|H]; [auto|]. apply in_except in H as [H Hne]. apply IH in H; [|lia]. destruct H as [H|[H1 H2]]; [auto|].
    right. split; [exact H1|]. intros [E|E]; [congruence|auto].
Qed.

Definition saved_in i j x : Prop := exists y k, x = saved_name y k /\ i <= k < j.

(** What lifting does to the names: [b] are bound and [f] free before. *)
Record names_kept (b f : list string) (cx : lift_context) (b' f' : list string) (cx' : lift_context) : Prop := {
  nk_index : l_index cx <= l_index cx';
  nk_nodup : NoDup b';
  nk_bound : forall x, In x b' -> In x b \/ saved_in (l_index cx) (l_index cx') x;
  nk_free : forall x, In x f' -> In x f \/ is_lift_name x;
  nk_defs : Forall (fun d => uniq (f_body d)) (l_defs cx) -> Forall (fun d => uniq (f_body d)) (l_defs cx')
}.

Lemma names_nil cx : names_kept [] [] cx [] [] cx.
Proof. split; auto. constructor. Qed.

Lemma names_bound b cx : NoDup b -> names_kept b [] cx b [] cx.
Proof. intros H. split; auto. Qed.

Lemma names_app b1 f1 cx b1' f1' cx1 b2 f2 b2' f2' cx2 :
  names_kept b1 f1 cx b1' f1' cx1 -> names_kept b2 f2 cx1 b2' f2' cx2 ->
  NoDup (b1 ++ b2) -> (forall x, In x (b1 ++ b2) -> plain x) ->
  names_kept (b1 ++ b2) (f1 ++ f2) cx (b1' ++ b2') (f1' ++ f2') cx2.
Proof.
  intros [A1 A2 A3 A4 A5] [B1 B2 B3 B4 B5] N P. split.
  - lia.
  - apply nodup_app_iff. split; [exact A2|]. split; [exact B2|]. intros x Hx Hy. apply A3 in Hx. apply B3 in Hy.
    apply nodup_app_iff in N as (_ & _ & N).
    destruct Hx as [Hx|(y & k & -> & Hk)]; destruct Hy as [Hy|(y' & k' & E & Hk')].
    + exact (N x Hx Hy).
    + subst x. apply (saved_not_plain (saved_name y' k')); [exists y', k'; reflexivity|]. apply P, in_app_iff. auto.
    + apply (saved_not_plain (saved_name y k)); [exists y, k; reflexivity|]. apply P, in_app_iff. auto.
    + apply saved_name_inj in E. lia.
  - intros x Hx. apply in_app_iff in Hx as [Hx|Hx]; [apply A3 in Hx|apply B3 in Hx];
      (destruct Hx as [Hx|(y & k & -> & Hk)]; [left; apply in_app_iff; auto|right; exists y, k; split; [reflexivity|lia]]).
  - intros x Hx. apply in_app_iff in Hx as [Hx|Hx]; [apply A4 in Hx|apply B4 in Hx]; rewrite in_app_iff; tauto.
  - auto.
Qed.

Lemma names_cons x b f cx b' f' cx' : names_kept b f cx b' f' cx' -> NoDup (x :: b) -> plain x ->
  names_kept (x :: b) f cx (x :: b') f' cx'.
Proof.
  intros [A1 A2 A3 A4 A5] N P. inversion N as [|? ? N1 N2]; subst. split; auto.
  - constructor; [|exact A2]. intros Hx. apply A3 in Hx as [Hx|(y & k & -> & _)]; [contradiction|].
    apply (saved_not_plain (saved_name y k)); [exists y, k; reflexivity|exact P].
  - intros y [<-|Hy]; [left; left; reflexivity|]. apply A3 in Hy as [Hy|Hy]; [left; right; exact Hy|auto].
Qed.

Lemma names_except x b f cx b' f' cx' : names_kept b f cx b' f' cx' -> names_kept b (except x f) cx b' (except x f') cx'.
Proof.
  intros [A1 A2 A3 A4 A5]. split; auto. intros y Hy. apply in_except in Hy as [Hy Hne]. rewrite in_except. apply A4 in Hy. tauto.
Qed.

Lemma names_list {A B} (g : A -> lift_context -> B * lift_context) (ba fa : A -> list string) (bb fb : B -> list string) l : forall cx,
  (forall a cx, In a l -> names_kept (ba a) (fa a) cx (bb (fst (g a cx))) (fb (fst (g a cx))) (snd (g a cx))) ->
  NoDup (flat_map ba l) -> (forall x, In x (flat_map ba l) -> plain x) ->
  names_kept (flat_map ba l) (flat_map fa l) cx (flat_map bb (fst (map_state g l cx))) (flat_map fb (fst (map_state g l cx)))
    (snd (map_state g l cx)).
Proof.
  induction l as [|a l IH]; intros cx H N P; cbn [map_state].
  - apply names_nil.
  - pose proof (H a cx (or_introl eq_refl)) as K1. destruct (g a cx) as [b cx1]. cbn [fst snd] in K1.
    cbn [flat_map] in N, P. pose proof (proj1 (nodup_app_iff _ _) N) as (N1 & N2 & _).
    pose proof (IH cx1 (fun a cx Ha => H a cx (or_intror Ha)) N2 (fun x Hx => P x (proj2 (in_app_iff _ _ _) (or_intror Hx)))) as K2.
    destruct (map_state g l cx1) as [bs cx2]. cbn [fst snd flat_map] in *. eapply names_app; eassumption.
Qed.

(** A function that captures nothing is added. *)
Lemma names_add d b f cx b' f' cx' : names_kept b f cx b' f' cx' ->
  uniq (Let (f_name d) (f_type d) (Var (lift_name (length (l_defs cx')) (f_name d))) (f_body d)) ->
  names_kept b f cx b' f' (snd (add_function d cx')).
Proof.
  intros [A1 A2 A3 A4 A5] U. split; cbn [add_function snd l_index l_defs]; auto. intros F. apply Forall_app. split; [auto|].
  constructor; [exact U|constructor].
Qed.

Lemma uniq_save f t g env zs e : length zs = length env -> is_lift_name g ->
  NoDup (f :: map fst zs ++ binders e) -> plain f -> (forall z, In z (map fst zs) -> saved z) ->
  (forall x, In x (binders e) -> plain x \/ saved x) ->
  (forall x, In x (map fst env) -> plain x /\ ~ In x (binders e) /\ x <> f) ->
  (forall x, In x (fv e) -> In x (map fst zs) \/ x = f \/ ~ In x (map fst zs) /\ ~ In x (binders e)) ->
  uniq (Let f t (Var g) (save_variables env zs e)).
Proof.
  intros Hl Hg N Pf Hz Hb He Hx. split.
  - cbn [binders app]. rewrite save_binders by exact Hl. exact N.
  - intros x H1 H2. cbn [fv binders app] in *. rewrite save_binders in H2 by exact Hl.
    destruct H1 as [<-|H1].
    + destruct H2 as [H2|H2]; [subst f; exact (lift_name_not_plain g Hg Pf)|]. apply in_app_iff in H2 as [H2|H2].
      * exact (saved_not_lift _ (Hz _ H2) Hg).
      * destruct (Hb _ H2) as [H3|H3]; [exact (lift_name_not_plain g Hg H3)|exact (saved_not_lift _ H3 Hg)].
    + apply in_except in H1 as [H1 Hne]. destruct H2 as [H2|H2]; [congruence|]. apply save_fv_back in H1; [|exact Hl].
      destruct H1 as [H1|[H1 H3]].
      * destruct (He x H1) as (E1 & E2 & E3). apply in_app_iff in H2 as [H2|H2]; [exact (saved_not_plain _ (Hz _ H2) E1)|auto].
      * destruct (Hx x H1) as [H4|[H4|[H4 H5]]]; [auto|auto|]. apply in_app_iff in H2 as [H2|H2]; auto.
Qed.

Lemma lift_names e : forall cx, uniq e -> every scope_node e -> (forall x, In x (fv e) \/ In x (binders e) -> plain x) ->
  names_kept (binders e) (fv e) cx (binders (fst (lift e cx))) (fv (fst (lift e cx))) (snd (lift e cx)).
Proof.
  induction e as [v|y|op es IH|b t e IHc IHt IHe|a alts de IHa IHalts IHde|y t b e IHb IHe
                  |d e IHd IHe|a y t e IHo IHe|xs e IHe|xs e IHe] using expr_ind'; intros cx U [S0 S] P; cbn [lift].
  - apply names_nil.
  - split; cbn; auto. constructor.
  - rewrite all_in in S. rewrite Forall_forall in IH.
    pose proof (names_list lift binders fv binders fv es cx) as K.
    assert (K1 : names_kept (flat_map binders es) (flat_map fv es) cx (flat_map binders (fst (map_state lift es cx)))
              (flat_map fv (fst (map_state lift es cx))) (snd (map_state lift es cx))).
    { apply K.
      - intros e cx1 He. apply IH; [exact He|exact (uniq_op _ _ _ U He)|auto|].
        intros x Hx. apply P. cbn. rewrite !in_flat_map. destruct Hx; [left|right]; eauto.
      - apply U.
      - intros x Hx. apply P. right. exact Hx. }
    clear K. destruct (map_state lift es cx) as [es' cx1]. exact K1.
  - destruct (uniq_if _ _ _ U) as (U1 & U2 & U3 & _). destruct S as (S1 & S2 & S3). destruct U as [N _].
    assert (K1 := IHc cx U1 S1 ltac:(intros x Hx; apply P; cbn; rewrite !in_app_iff; tauto)).
    destruct (lift b cx) as [b' cx1].
    assert (K2 := IHt cx1 U2 S2 ltac:(intros x Hx; apply P; cbn; rewrite !in_app_iff; tauto)).
    destruct (lift t cx1) as [t' cx2].
    assert (K3 := IHe cx2 U3 S3 ltac:(intros x Hx; apply P; cbn; rewrite !in_app_iff; tauto)).
    destruct (lift e cx2) as [e' cx3]. cbn [fst snd binders fv] in *.
    assert (Q : forall x, In x (binders b ++ binders t ++ binders e) -> plain x) by (intros x Hx; apply P; right; exact Hx).
    eapply names_app; [exact K1| |exact N|exact Q].
    eapply names_app; [exact K2|exact K3| |].
    + apply nodup_app_iff in N. apply N.
    + intros x Hx. apply Q, in_app_iff. auto.
  - destruct S as (S1 & S2 & S3). pose proof U as [N _]. cbn [binders] in N.
    assert (Q : forall x, In x (binders (Case a alts de)) -> plain x) by (intros x Hx; apply P; auto). cbn [binders] in Q.
    assert (K1 := IHa cx (uniq_case_argument _ _ _ U) S1 ltac:(intros x Hx; apply P; cbn; rewrite !in_app_iff; tauto)).
    destruct (lift a cx) as [a' cx1]. cbn [fst snd] in K1.
    pose proof (proj1 (nodup_app_iff _ _) N) as (_ & N2 & _). pose proof (proj1 (nodup_app_iff _ _) N2) as (N3 & N4 & _).
    assert (Q2 : forall x, In x (flat_map (fun al => a_name al :: binders (a_body al)) alts) -> plain x).
    { intros x Hx. apply Q. rewrite !in_app_iff. auto. }
    match goal with |- context [map_state ?f alts cx1] =>
      assert (K2 : names_kept (flat_map (fun al => a_name al :: binders (a_body al)) alts)
                     (flat_map (fun al => except (a_name al) (fv (a_body al))) alts) cx1
                     (flat_map (fun al => a_name al :: binders (a_body al)) (fst (map_state f alts cx1)))
                     (flat_map (fun al => except (a_name al) (fv (a_body al))) (fst (map_state f alts cx1))) (snd (map_state f alts cx1)));
      [apply names_list; [|exact N3|exact Q2]|destruct (map_state f alts cx1) as [alts' cx2]] end.
    { intros al s Hal. destruct (uniq_case_alternative _ _ _ _ U Hal) as (Ua & Na & _). rewrite Forall_forall in IHalts. rewrite all_in in S2.
      assert (K := IHalts al Hal s Ua (S2 al Hal)). destruct (lift (a_body al) s) as [b' s']. cbn [fst snd a_name a_body] in *.
      apply names_cons; [apply names_except, K| |].
      - intros x Hx. destruct (string_dec x (a_name al)) as [->|Hne]; [apply Q2, in_flat_map; exists al; cbn; auto|].
        destruct Hx as [Hx|Hx]; [|apply Q2, in_flat_map; exists al; cbn; auto].
        apply P. left. cbn. rewrite !in_app_iff. right. left. apply in_flat_map. exists al. rewrite in_except. auto.
      - apply (nodup_flat_map _ _ _ N3 Hal).
      - apply Q2, in_flat_map. exists al. cbn. auto. }
    cbn [fst snd] in K2. destruct de as [[z e]|].
    + assert (Uz := uniq_case_default _ _ _ _ U). destruct Uz as (Ue & _).
      assert (K3 := IHde _ _ eq_refl cx2 Ue S3 ltac:(
        intros x Hx; destruct (string_dec x z) as [->|Hne]; [apply Q; rewrite !in_app_iff; cbn; auto|];
        destruct Hx as [Hx|Hx]; [apply P; left; cbn; rewrite !in_app_iff, in_except; auto|apply Q; rewrite !in_app_iff; cbn; auto])).
      destruct (lift e cx2) as [e' cx3]. cbn [fst snd binders fv] in *.
      eapply names_app; [exact K1| |exact N|exact Q].
      eapply names_app; [exact K2| |exact N2|intros x Hx; apply Q, in_app_iff; auto].
      apply names_cons; [apply names_except; exact K3|exact N4|]. apply Q. rewrite !in_app_iff. cbn. auto.
    + cbn [fst snd binders fv] in *. eapply names_app; [exact K1| |exact N|exact Q].
      eapply names_app; [exact K2|apply names_nil|exact N2|intros x Hx; apply Q, in_app_iff; auto].
  - destruct (uniq_let _ _ _ _ U) as (U1 & U2 & _). destruct S as (S1 & S2). pose proof U as [N _]. cbn [binders] in N.
    assert (Q : forall x, In x (y :: binders b ++ binders e) -> plain x) by (intros x Hx; apply P; right; exact Hx).
    assert (K1 := IHb cx U1 S1 ltac:(intros x Hx; apply P; cbn; rewrite !in_app_iff; tauto)).
    destruct (lift b cx) as [b' cx1].
    assert (K2 := IHe cx1 U2 S2 ltac:(
      intros x Hx; destruct (string_dec x y) as [->|Hne]; [apply Q; left; reflexivity|]; apply P; cbn; rewrite !in_app_iff, in_except; tauto)).
    destruct (lift e cx1) as [e' cx2]. cbn [fst snd binders fv] in *. inversion N as [|? ? N1 N2]; subst.
    apply names_cons; [|exact N|apply Q; left; reflexivity].
    eapply names_app; [exact K1|apply names_except; exact K2|exact N2|intros x Hx; apply Q; right; exact Hx].
  - destruct (uniq_letrec _ _ U) as ((U1 & F1 & F2) & U2 & F3 & F4 & F5 & F6). destruct S as (S1 & S2).
    destruct S0 as [S0 S0']. pose proof U as [N D]. cbn [binders] in N.
    assert (Q : forall x, In x (f_name d :: map fst (f_args d) ++ binders (f_body d) ++ binders e) -> plain x)
      by (intros x Hx; apply P; right; exact Hx).
    assert (Q1 : forall x, In x (fv (f_body d)) -> plain x).
    { intros x Hx. destruct (string_dec x (f_name d)) as [->|Hne]; [apply Q; left; reflexivity|].
      destruct (in_dec string_dec x (map fst (f_args d))) as [Hi|Hi]; [apply Q; right; apply in_app_iff; auto|].
      apply P. left. apply in_fv_letrec. auto. }
    assert (Q2 : forall x, In x (binders (f_body d)) -> plain x) by (intros x Hx; apply Q; right; rewrite !in_app_iff; auto).
    assert (Q3 : forall x, In x (fv e) -> plain x).
    { intros x Hx. destruct (string_dec x (f_name d)) as [->|Hne]; [apply Q; left; reflexivity|]. apply P. left. apply in_fv_letrec. auto. }
    assert (Q4 : forall x, In x (binders e) -> plain x) by (intros x Hx; apply Q; right; rewrite !in_app_iff; auto).
    assert (Qf : plain (f_name d)) by (apply Q; left; reflexivity).
    assert (K1 := IHd cx U1 S1 ltac:(intros x [Hx|Hx]; auto)). destruct (lift (f_body d) cx) as [b' cx1].
    assert (K2 := IHe cx1 U2 S2 ltac:(intros x [Hx|Hx]; auto)). destruct (lift e cx1) as [e' cx2]. cbn [fst snd] in *.
    inversion N as [|? ? N1 N2]; subst. pose proof (proj1 (nodup_app_iff _ _) N2) as (N3 & N4 & _).
    (* the environment *)
    assert (Ev : forall x, In x (map fst (f_env d)) -> plain x /\ ~ In x (binders (f_body d)) /\ ~ In x (binders e) /\ x <> f_name d /\ In x (fv (LetRec d e))).
    { intros x Hx. pose proof (S0' x Hx) as Hfv. inversion S0 as [|? ? M1 M2]; subst. apply nodup_app_iff in M2 as (_ & _ & M2).
      assert (Hne : x <> f_name d) by (intros ->; apply M1, in_app_iff; auto).
      assert (Hfr : In x (fv (LetRec d e))) by (apply in_fv_letrec; split; [exact Hne|]; left; split; [exact Hfv|]; intros Ha; exact (M2 x Ha Hx)).
      split; [auto|]. split; [intros Hb; exact (proj2 U1 x Hfv Hb)|]. split; [|auto]. intros Hb. apply (D x Hfr). cbn. rewrite !in_app_iff. auto. }
    pose proof K1 as [KA1 KA2 KA3 KA4 KA5]. pose proof K2 as [KB1 KB2 KB3 KB4 KB5].
    (* the body of the definition on its own *)
    assert (Ub : forall x, In x (fv b') -> ~ In x (binders b')).
    { intros x H1 H2. apply KA4 in H1. apply KA3 in H2. destruct H2 as [H2|(z & k & -> & Hk)].
      - destruct H1 as [H1|H1]; [exact (proj2 U1 x H1 H2)|exact (lift_name_not_plain x H1 (Q2 x H2))].
      - assert (Hs : saved (saved_name z k)) by (exists z, k; reflexivity).
        destruct H1 as [H1|H1]; [exact (saved_not_plain _ Hs (Q1 _ H1))|exact (saved_not_lift _ Hs H1)]. }
    assert (Pb : forall x, In x (binders b') -> plain x \/ saved x).
    { intros x Hx. apply KA3 in Hx as [Hx|(z & k & -> & Hk)]; [left; auto|right; exists z, k; reflexivity]. }
    assert (Fb : ~ In (f_name d) (binders b')).
    { intros Hx. apply KA3 in Hx as [Hx|(z & k & E & Hk)]; [contradiction|].
      apply (saved_not_plain (f_name d)); [rewrite E; exists z, k; reflexivity|exact Qf]. }
    assert (Kall : names_kept (map fst (f_args d) ++ binders (f_body d) ++ binders e)
              ([] ++ fv (f_body d) ++ fv e) cx (map fst (f_args d) ++ binders b' ++ binders e') ([] ++ fv b' ++ fv e') cx2).
    { eapply names_app; [apply names_bound; exact N3| |exact N2|intros x Hx; apply Q; right; exact Hx].
      eapply names_app; [exact K1|exact K2|exact N4|intros x Hx; apply Q; right; apply in_app_iff; auto]. }
    assert (Ke : forall f' , (forall x, In x f' -> In x (fv (LetRec d e)) \/ is_lift_name x) ->
              names_kept (binders (LetRec d e)) (fv (LetRec d e)) cx (f_name d :: binders e') f' cx2).
    { intros f' Hf. destruct Kall as [L1 L2 L3 L4 L5]. split; auto.
      - constructor.
        + intros Hx. apply KB3 in Hx as [Hx|(z & k & E & Hk)]; [contradiction|].
          apply (saved_not_plain (f_name d)); [rewrite E; exists z, k; reflexivity|exact Qf].
        + exact KB2.
      - intros x [<-|Hx]; [left; left; reflexivity|]. apply KB3 in Hx as [Hx|(z & k & -> & Hk)].
        + left. cbn. rewrite !in_app_iff. auto.
        + right. exists z, k. split; [reflexivity|lia]. }
    assert (Fe : forall x, In x (fv e') -> x <> f_name d -> In x (fv (LetRec d e)) \/ is_lift_name x).
    { intros x Hx Hne. apply KB4 in Hx as [Hx|Hx]; [|auto]. left. apply in_fv_letrec. auto. }
    assert (Glift : forall i f, is_lift_name (lift_name i f)).
    { intros i f. unfold lift_name. eexists. reflexivity. }
    unfold lift_letrec. cbn [f_env f_name f_args f_body f_result f_thunk]. destruct (f_env d) as [|p env] eqn:Ee.
    + (* a function that captures nothing *)
      unfold add_function. cbn [f_env f_name f_args f_body f_result f_thunk fst].
      match goal with |- names_kept _ _ _ _ _ (snd (?e0, Lifted (_ ++ [Fdef ?g _ _ _ (Let ?f ?t (Var ?g) ?b) _]) _)) =>
        assert (K := names_add (Fdef (f_name d) (f_env d) (f_args d) (f_result d) b' (f_thunk d)) _ _ _ _ _ _
                 (Ke (fv (Let f t (Var g) e')) ltac:(
                   intros x Hx; cbn in Hx; destruct Hx as [<-|Hx]; [right; apply Glift|];
                   apply in_except in Hx as [Hx Hne]; auto))) end.
      cbn [f_name f_body f_type f_args f_result f_thunk f_env] in K. rewrite Ee in K.
      cbn [snd fst binders app] in *. apply K. clear K.
      split.
      * cbn. constructor; assumption.
      * intros x H1 H2. cbn in H1, H2. destruct H1 as [<-|H1].
        -- destruct H2 as [H2|H2]; [apply (lift_name_not_plain _ (Glift (length (l_defs cx2)) (f_name d))); unfold lift_name; cbn; congruence|].
           destruct (Pb _ H2) as [H3|H3]; [exact (lift_name_not_plain _ (Glift _ _) H3)|exact (saved_not_lift _ H3 (Glift _ _))].
        -- apply in_except in H1 as [H1 Hne]. destruct H2 as [H2|H2]; [congruence|]. exact (Ub x H1 H2).
    + rewrite <- Ee in *. destruct (_ && _).
      * (* its variables become arguments *)
        set (zs := saved_variables (f_env d) (l_index cx2)). set (cx3 := Lifted (l_defs cx2) (l_index cx2 + length (f_env d))).
        assert (Lz : length zs = length (f_env d)) by apply saved_length.
        assert (Sz : forall z, In z (map fst zs) -> saved_in (l_index cx2) (l_index cx3) z).
        { intros z Hz. apply saved_bounds in Hz as (x & k & -> & Hk). exists x, k. split; [reflexivity|exact Hk]. }
        assert (Sz' : forall z, In z (map fst zs) -> saved z).
        { intros z Hz. apply Sz in Hz as (x & k & -> & _). exists x, k. reflexivity. }
        assert (Nz : NoDup (map fst zs)) by apply saved_nodup.
        assert (Zx : forall z i j, j <= l_index cx2 -> saved_in i j z -> ~ In z (map fst zs)).
        { intros z i j Hj (x & k & -> & Hk) Hz. apply Sz in Hz as (x' & k' & E & Hk'). apply saved_name_inj in E. cbn in Hk'. lia. }
        assert (Zb : forall z, In z (map fst zs) -> ~ In z (binders b')).
        { intros z Hz Hb. pose proof (KA3 z Hb) as [Hp|Hp]; [exact (saved_not_plain z (Sz' z Hz) (Q2 z Hp))|].
          exact (Zx z _ _ KB1 Hp Hz). }
        assert (Ze : forall z, In z (map fst zs) -> ~ In z (binders e')).
        { intros z Hz Hb. pose proof (KB3 z Hb) as [Hp|Hp]; [exact (saved_not_plain z (Sz' z Hz) (Q4 z Hp))|].
          exact (Zx z _ _ (le_n _) Hp Hz). }
        assert (Zf : ~ In (f_name d) (map fst zs)) by (intros Hz; exact (saved_not_plain _ (Sz' _ Hz) Qf)).
        cbn [add_function fst snd f_name f_args f_body f_env f_result f_thunk].
        set (g := lift_name (length (l_defs cx3)) (f_name d)).
        destruct Kall as [L1 L2 L3 L4 L5]. split; cbn [l_index l_defs].
        -- cbn. lia.
        -- cbn [binders app]. rewrite save_binders, add_binders by exact Lz. constructor.
           ++ rewrite in_app_iff. intros [Hz|Hz]; [contradiction|]. apply KB3 in Hz as [Hz|(z & k & E & Hk)]; [contradiction|].
              apply (saved_not_plain (f_name d)); [rewrite E; exists z, k; reflexivity|exact Qf].
           ++ apply nodup_app_iff. split; [exact Nz|]. split; [exact KB2|exact Ze].
        -- intros x Hx. cbn [binders app] in Hx. rewrite save_binders, add_binders in Hx by exact Lz.
           destruct Hx as [<-|Hx]; [left; left; reflexivity|]. apply in_app_iff in Hx as [Hx|Hx].
           ++ right. apply Sz in Hx as (z & k & -> & Hk). exists z, k. split; [reflexivity|]. cbn in *. lia.
           ++ apply KB3 in Hx as [Hx|(z & k & -> & Hk)]; [left; cbn; rewrite !in_app_iff; auto|].
              right. exists z, k. split; [reflexivity|]. cbn. lia.
        -- intros x Hx. cbn [fv app] in Hx. destruct Hx as [<-|Hx]; [right; apply Glift|]. apply in_except in Hx as [Hx Hne].
           apply save_fv_back in Hx; [|exact Lz]. destruct Hx as [Hx|[Hx Hz]]; [left; apply (Ev x Hx)|].
           apply add_fv_back in Hx as [Hx|Hx]; [auto|contradiction].
        -- intros Fd. apply Forall_app. split; [apply L5; exact Fd|]. constructor; [|constructor]. cbn [f_body].
           apply uniq_save; [exact Lz|apply Glift| |exact Qf|exact Sz'| | |].
           ++ rewrite add_binders. constructor.
              ** rewrite in_app_iff. intros [Hz|Hz]; contradiction.
              ** apply nodup_app_iff. split; [exact Nz|]. split; [exact KA2|exact Zb].
           ++ intros x. rewrite add_binders. apply Pb.
           ++ intros x Hx. destruct (Ev x Hx) as (E1 & E2 & E3 & E4 & _). split; [exact E1|]. split; [|exact E4].
              rewrite add_binders. intros Hb. apply KA3 in Hb as [Hb|(z & k & -> & Hk)]; [contradiction|].
              apply (saved_not_plain (saved_name z k)); [exists z, k; reflexivity|exact E1].
           ++ intros x Hx. rewrite add_binders. apply add_fv_back in Hx as [Hx|Hx]; [|auto]. right. right. split; [|exact (Ub x Hx)].
              intros Hz. pose proof (Sz' x Hz) as Hs. apply KA4 in Hx as [Hx|Hx]; [exact (saved_not_plain x Hs (Q1 x Hx))|exact (saved_not_lift x Hs Hx)].
      * (* a closure *)
        cbn [fst snd]. destruct Kall as [L1 L2 L3 L4 L5]. split; auto.
        -- cbn [binders f_name f_args f_body]. constructor; [|exact L2]. rewrite !in_app_iff. intros [Hx|[Hx|Hx]].
           ++ apply N1, in_app_iff. auto.
           ++ contradiction.
           ++ apply KB3 in Hx as [Hx|(z & k & E & Hk)]; [contradiction|].
              apply (saved_not_plain (f_name d)); [rewrite E; exists z, k; reflexivity|exact Qf].
        -- intros x Hx. cbn [binders f_name f_args f_body] in Hx. destruct Hx as [<-|Hx]; [left; left; reflexivity|].
           apply L3 in Hx as [Hx|Hx]; [left; right; exact Hx|auto].
        -- intros x Hx. apply in_fv_letrec in Hx as [Hne [[Hx Ha]|Hx]]; cbn [f_name f_args f_body] in *; [|auto].
           apply KA4 in Hx as [Hx|Hx]; [|auto]. left. apply in_fv_letrec. auto.
  - destruct (uniq_try _ _ _ _ U) as (U1 & U2 & _). destruct S as (S1 & S2). pose proof U as [N _]. cbn [binders] in N.
    assert (Q : forall x, In x (y :: binders a ++ binders e) -> plain x) by (intros x Hx; apply P; right; exact Hx).
    assert (K1 := IHo cx U1 S1 ltac:(intros x Hx; apply P; cbn; rewrite !in_app_iff; tauto)).
    destruct (lift a cx) as [b' cx1].
    assert (K2 := IHe cx1 U2 S2 ltac:(
      intros x Hx; destruct (string_dec x y) as [->|Hne]; [apply Q; left; reflexivity|]; apply P; cbn; rewrite !in_app_iff, in_except; tauto)).
    destruct (lift e cx1) as [e' cx2]. cbn [fst snd binders fv] in *. inversion N as [|? ? N1 N2]; subst.
    apply names_cons; [|exact N|apply Q; left; reflexivity].
    eapply names_app; [exact K1|apply names_except; exact K2|exact N2|intros x Hx; apply Q; right; exact Hx].
  - assert (K := IHe cx U S P). destruct (lift e cx). exact K.
  - assert (K := IHe cx U S P). destruct (lift e cx). exact K.
Qed.

(** ** Modules *)
Lemma norm_uniq m d : normalizable m -> no_normal_names m -> (forall d0, In d0 (m_defs m) -> uniq (f_body d0)) ->
  In d (m_defs (norm_module m)) -> uniq (f_body d).
Proof.
  intros Hn Hno Hu Hd. pose proof (norm_names m d Hn Hd) as (_ & _ & _ & N & _). split; [exact N|].
  rewrite (norm_module_alias m Hn) in Hd. cbn [alias_module set_defs m_defs] in Hd.
  apply in_map_iff in Hd as (d1 & <- & Hd1). apply norm0_defs in Hd1 as (d0 & n & Hd0 & ->). cbn [set_body f_body f_args] in *.
  intros x H1 H2. apply alias_fv in H1 as (z & H1 & E). cbn in E. subst z.
  eapply norm_free with (Y := fun _ => False) in H1; [|exact adds_free_ret]. destruct H1 as [H1|[]].
  destruct (alias_names (fst (norm0 m (f_body d0) ret n)) []) as [A1 _].
  apply (count_occ_In string_dec) in H2. specialize (A1 x). unfold cnt in A1.
  destruct (Hn d0 Hd0) as (_ & _ & Hs). destruct (norm_binders m (f_body d0) Hs _ ret n adds_ret) as [_ H]. specialize (H x).
  unfold cnt in H. destruct (count_occ string_dec (binders (f_body d0)) x) eqn:E.
  - assert (Hm : In x (made n (snd (norm0 m (f_body d0) ret n)))) by (apply (count_occ_In string_dec); unfold cnt in *; lia).
    apply made_in in Hm as (i & _ & ->). apply fv_free in H1. exact (proj1 (Hno d0 i Hd0) H1).
  - apply (proj2 (Hu d0 Hd0) x H1). apply (count_occ_In string_dec). lia.
Qed.

Theorem middle_end_distinct m : proper_source m -> arguments_not_rebound m -> distinct_binders (middle_end m).
Proof.
  intros Hs Hr.
  set (m0 := concat_module m). pose proof (concat_source m Hs) as Hs0. fold m0 in Hs0.
  set (m1 := alpha_module m0). set (m2 := norm_module m1). set (m3 := infer_module m2).
  assert (Hr0 : forall d x, In d (m_defs m0) -> In x (fv (f_body d)) -> In x (binders (f_body d)) -> global_type m0 x <> None).
  { intros d x Hd H1 H2. rewrite (same_global_type m m0 x (concat_same m)). apply in_map_iff in Hd as (d0 & <- & Hd).
    cbn in H1, H2. rewrite concat_fv in H1. rewrite concat_binders in H2. apply (Hr d0 x Hd); [apply fv_free; exact H1|exact H2]. }
  assert (U1 : forall d, In d (m_defs m1) -> uniq (f_body d)).
  { intros d Hd. pose proof Hs0 as [_ Hyg Hargs _ _ _]. split; [apply (alpha_distinct m0 d Hyg Hargs Hd)|].
    apply alpha_defs in Hd as (d0 & Hd0 & ->). cbn [set_body f_body]. intros x H1 H2.
    destruct (alpha_body_names m0 d0 Hs0 Hd0) as [A1 _]. apply A1 in H1.
    destruct (alpha_bound_argument m0 d0 x Hs0 Hd0 H1 H2) as [B1 B2]. exact (Hr0 d0 x Hd0 H1 B1 B2). }
  assert (U2 : forall d, In d (m_defs m2) -> uniq (f_body d)).
  { intros d. apply norm_uniq; [exact (stage_alpha m0 Hs0)|exact (alpha_no_normal m0 Hs0)|exact U1]. }
  pose proof (stage_environments m0 Hs0) as E3.
  change (infer_module (norm_module (alpha_module m0))) with m3 in E3.
  assert (U3 : forall d, In d (m_defs m3) -> uniq (f_body d)).
  { intros d Hd. apply in_map_iff in Hd as (d0 & <- & Hd). cbn [infer_global f_body]. unfold uniq. rewrite infer_binders, infer_fv. exact (U2 d0 Hd). }
  assert (Hdone : forall g, In g (m_defs (middle_end m)) -> uniq (f_body g)).
  2:{ intros g Hg. destruct (Hdone g Hg) as [D1 D2]. split; [exact D1|]. intros x Hx. apply fv_free in Hx. exact (D2 x Hx). }
  unfold middle_end, closure_passes. fold m0 m1 m2 m3. unfold lift_module.
  destruct (map_state_kept lift_global (fun g => uniq (f_body g)) (fun cx => Forall (fun g => uniq (f_body g)) (l_defs cx)) (m_defs m3) (Lifted [] 0))
    as [[K1 _] K2]; [constructor| |].
  { intros d s Hd Hc.
    assert (P : forall x, In x (fv (f_body d)) \/ In x (binders (f_body d)) -> plain x).
    { intros x Hx. apply in_map_iff in Hd as (d0 & <- & Hd). cbn [infer_global f_body] in Hx. rewrite infer_fv, infer_binders in Hx.
      exact (stage_names2 m0 Hs0 d0 x Hd (or_intror Hx)). }
    assert (S : every scope_node (f_body d)).
    { apply within_every. intros a Hw. destruct a; try exact I. split; [exact (E3 _ _ _ Hd Hw)|].
      apply in_map_iff in Hd as (g0 & <- & Hd). cbn [infer_global f_body] in Hw.
      apply infer_letrec in Hw as (vars & d1 & e1 & -> & _). cbn [infer_local_def f_env f_body]. intros x Hx.
      rewrite infer_fv. apply in_infer_env_names in Hx as (_ & Hx & _). exact Hx. }
    pose proof (lift_names (f_body d) s (U3 d Hd) S P) as [K1 K2 K3 K4 K5].
    unfold lift_global. destruct (lift (f_body d) s) as [b s']. cbn [fst snd set_body f_body] in *. split; [|auto].
    split; [exact K2|]. intros x H1 H2. apply K3 in H2. apply K4 in H1.
    destruct H1 as [H1|H1]; destruct H2 as [H2|(y & k & -> & _)].
    - exact (proj2 (U3 d Hd) x H1 H2).
    - apply (saved_not_plain (saved_name y k)); [exists y, k; reflexivity|auto].
    - exact (lift_name_not_plain x H1 (P x (or_intror H2))).
    - apply (saved_not_lift (saved_name y k)); [exists y, k; reflexivity|exact H1]. }
  destruct (map_state lift_global (m_defs m3) (Lifted [] 0)) as [ds cx]. cbn [fst snd set_defs m_defs] in *.
  intros g Hg. apply in_app_iff in Hg as [Hg|Hg].
  - rewrite all_in in K1. auto.
  - rewrite Forall_forall in K2. auto.
Qed.

Theorem middle_end_balanced m m' : proper_source m -> distinct_global_arguments m -> not_counted m -> plain_tries m ->
  arguments_not_rebound m -> reference_count (middle_end m) = Some m' -> references_balanced m'.
Proof.
  intros H1 H2 H3 H4 H5 H. destruct (middle_end_ready m H1 H2 H3 H4) as (_ & R2 & R3 & R4 & _).
  eapply references_are_balanced; [apply reference_count_rc; exact H|assumption|assumption|assumption|].
  apply distinct_binders_hide_nothing, middle_end_distinct; assumption.
Qed.

Theorem middle_end_counted m : proper_source m -> distinct_global_arguments m -> not_counted m -> plain_tries m ->
  arguments_not_rebound m -> no_empty_case m -> exists m', reference_count (middle_end m) = Some m' /\ references_balanced m'.
Proof.
  intros H1 H2 H3 H4 H5 H6. destruct (middle_end_ready m H1 H2 H3 H4) as (R1 & R2 & R3 & R4 & R5).
  pose proof (middle_end_distinct m H1 H5) as D.
  apply reference_count_succeeds; try assumption; auto; [apply distinct_binders_hide_nothing|apply source_globals]; assumption.
Qed.

Theorem plain_balanced m m' : proper_source m -> distinct_global_arguments m -> plain_module false m ->
  hides_nothing (middle_end m) -> reference_count (middle_end m) = Some m' -> references_balanced m'.
Proof.
  intros Hs Ha P Hh H.
  destruct (globals_ready false (middle_end m) (middle_end_globals false m Hs Ha P)) as (_ & R2 & R3 & R4 & _).
  eapply references_are_balanced; [apply reference_count_rc; exact H|assumption..].
Qed.

(** Checks of the conditions. *)
Definition distinct_argumentsb (m : mmodule) : bool := forallb (fun d => nodupb (map fst (f_args d))) (m_defs m).

Lemma distinct_argumentsb_ok m : distinct_argumentsb m = true -> distinct_global_arguments m.
Proof. unfold distinct_argumentsb. rewrite forallb_forall. intros H d Hd. apply nodupb_nodup. exact (H d Hd). Qed.

Definition not_reboundb (m : mmodule) : bool :=
  forallb (fun d =>
    forallb (fun x => negb (mem x (binders (f_body d))) || match global_type m x with Some _ => true | None => false end) (fv (f_body d)))
    (m_defs m).

Lemma not_reboundb_ok m : not_reboundb m = true -> arguments_not_rebound m.
Proof.
  unfold not_reboundb. rewrite forallb_forall. intros H d x Hd Hf Hb. specialize (H d Hd). rewrite forallb_forall in H.
  apply fv_free in Hf. specialize (H x Hf). apply mem_In in Hb. rewrite Hb in H. cbn in H.
  destruct (global_type m x); [discriminate|discriminate H].
Qed.
