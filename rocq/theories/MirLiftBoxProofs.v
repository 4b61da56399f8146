(** Lambda lifting keeps local functions that are used as values. *)
From Coq Require Import String List Bool Arith Lia.
From Verif Require Import Base Mir MirSim Names MirScopeSpec MirNormSpec MirLiftSpec MirAlpha MirLift
  MirLiftProofs.
Import ListNotations.

(** ** Functions used as values are found *)
Lemma boxed_op f o before e after :
  is_boxed f e = true -> (before = [] -> forall ts t x, o = OCall ts t -> e <> Var x) ->
  is_boxed f (Op o (before ++ e :: after)) = true.
Proof.
  intros H Hc.
  assert (Ha : existsb (is_boxed f) (before ++ e :: after) = true).
  { rewrite existsb_app. cbn. rewrite H, orb_true_r. reflexivity. }
  destruct o; try exact Ha. cbn [is_boxed].
  destruct before as [|b before]; cbn [app] in *.
  - destruct e; try exact Ha. destruct (Hc eq_refl arguments result x eq_refl eq_refl).
  - destruct b; try exact Ha. rewrite existsb_app. cbn. rewrite H, orb_true_r. reflexivity.
Qed.

Lemma boxed_add f g zs e : f <> g -> is_boxed f e = true -> is_boxed f (add_arguments g zs e) = true.
Proof.
  intros Hfg.
  induction e as [l|x|o es IH|c t e IHc IHt IHe|a alts de IHa IHalts IHde|x t b e IHb IHe
                  |d e IHd IHe|o x t e IHo IHe|xs e IHe|xs e IHe] using expr_ind'; intros H;
    try assumption.
  - assert (Hmap : forall l, incl l es -> existsb (is_boxed f) l = true ->
               existsb (is_boxed f) (map (add_arguments g zs) l) = true).
    { intros l Hl E. apply existsb_exists in E as (y & Hy & E). apply existsb_exists.
      exists (add_arguments g zs y). split; [apply in_map; assumption|].
      rewrite Forall_forall in IH. auto. }
    destruct o; try (cbn [is_boxed add_arguments] in *; apply Hmap; [apply incl_refl|exact H]).
    destruct es as [|e0 args]; [discriminate|].
    assert (Hargs : existsb (is_boxed f) args = true ->
                    existsb (is_boxed f) (map (add_arguments g zs) args) = true).
    { apply Hmap. intros y Hy. right. assumption. }
    assert (Hgen : existsb (is_boxed f) (e0 :: args) = true ->
                   existsb (is_boxed f) (map (add_arguments g zs) (e0 :: args)) = true).
    { apply Hmap, incl_refl. }
    destruct e0; try (specialize (Hgen H)); try exact Hgen.
    + cbn [is_boxed] in H. cbn [add_arguments]. destruct (String.eqb x g).
      * cbn [is_boxed]. rewrite existsb_app, (Hargs H). reflexivity.
      * cbn [is_boxed]. auto.
    + (* the callee is an operation *)
      cbn [add_arguments]. destruct o; try exact Hgen.
      destruct es as [|[]]; try exact Hgen. cbn [map add_arguments] in Hgen |- *.
      destruct (String.eqb x g); exact Hgen.
  - cbn [is_boxed add_arguments] in *. apply orb_true_iff in H as [H|H]; [apply orb_true_iff in H as [H|H]|].
    + rewrite IHc by assumption. reflexivity.
    + rewrite IHt by assumption. rewrite orb_true_r. reflexivity.
    + rewrite IHe by assumption. rewrite orb_true_r. reflexivity.
  - cbn [is_boxed add_arguments] in *. apply orb_true_iff in H as [H|H]; [apply orb_true_iff in H as [H|H]|].
    + rewrite IHa by assumption. reflexivity.
    + apply orb_true_iff. left. apply orb_true_iff. right.
      apply existsb_exists in H as (al & Hal & H). apply andb_true_iff in H as [H1 H2].
      apply existsb_exists. eexists. split; [apply in_map; exact Hal|]. cbn [a_name a_body].
      rewrite H1. cbn. destruct (String.eqb (a_name al) g); [assumption|].
      rewrite Forall_forall in IHalts. apply (IHalts al Hal H2).
    + apply orb_true_iff. right. destruct de as [[x e]|]; [|discriminate].
      apply andb_true_iff in H as [H1 H2]. rewrite H1. cbn. destruct (String.eqb x g); [assumption|].
      apply (IHde x e eq_refl H2).
  - cbn [is_boxed add_arguments] in *. apply orb_true_iff in H as [H|H].
    + rewrite IHb by assumption. reflexivity.
    + apply andb_true_iff in H as [H1 H2]. apply orb_true_iff. right. rewrite H1. cbn.
      destruct (String.eqb x g); auto.
  - cbn [is_boxed add_arguments] in *. apply orb_true_iff in H as [H|H].
    + rewrite H. reflexivity.
    + apply andb_true_iff in H as [H1 H2]. apply orb_true_iff. right. rewrite H1. cbn.
      destruct (String.eqb (f_name d) g); auto.
  - cbn [is_boxed add_arguments] in *. apply orb_true_iff in H as [H|H].
    + rewrite IHo by assumption. reflexivity.
    + apply orb_true_iff. right. destruct (String.eqb x g); auto.
  - cbn [is_boxed add_arguments] in *. auto.
  - cbn [is_boxed add_arguments] in *. auto.
Qed.

Lemma boxed_save f env : forall zs e, length zs = length env -> ~ In f (map fst zs) ->
  In f (map fst env) \/ is_boxed f e = true -> is_boxed f (save_variables env zs e) = true.
Proof.
  intros zs e Hl Hz H. destruct (is_boxed f (save_variables env zs e)) eqn:E; [reflexivity|].
  apply save_boxed in E as [E1 E2]; auto. destruct H; [tauto|congruence].
Qed.

Lemma map_state_app {A B S} (f : A -> S -> B * S) l1 : forall l2 s,
  exists s', fst (map_state f (l1 ++ l2) s) = fst (map_state f l1 s) ++ fst (map_state f l2 s').
Proof.
  induction l1 as [|a l1 IH]; intros l2 s; cbn.
  - exists s. reflexivity.
  - destruct (f a s) as [b s1]. destruct (IH l2 s1) as (s' & E). exists s'.
    destruct (map_state f (l1 ++ l2) s1) as [r1 ?], (map_state f l1 s1) as [r2 ?]. cbn in *. rewrite E. reflexivity.
Qed.

Lemma lift_not_var e cx x : fst (lift e cx) = Var x -> e = Var x.
Proof.
  destruct e; cbn [lift]; intros E;
    repeat match type of E with
           | context [let '(_, _) := ?t in _] => destruct t
           end; try discriminate; try assumption.
  - destruct default as [[y e']|]; [|discriminate]. destruct (lift e' _). discriminate.
  - unfold lift_letrec in E. cbn [f_env] in E. destruct (f_env d); [discriminate|].
    destruct (_ && _); cbn in E; discriminate.
Qed.

Lemma lift_boxed f e : first_class f e -> plain f -> ~ In f (binders e) ->
  forall cx, is_boxed f (fst (lift e cx)) = true.
Proof.
  intros H Hp. induction H; intros Hb cx; cbn [lift binders] in *; rewrite ?in_app_iff in Hb.
  - cbn. apply String.eqb_refl.
  - destruct (map_state lift (before ++ e :: after) cx) as [es cx'] eqn:E.
    destruct (map_state_app lift before (e :: after) cx) as (s' & Es). rewrite E in Es. cbn in Es.
    destruct (lift e s') as [e1 s1] eqn:E1. destruct (map_state lift after s1) as [af s2]. cbn in *. subst es.
    change (is_boxed f (Op o (fst (map_state lift before cx) ++ e1 :: af)) = true).
    apply boxed_op.
    + change e1 with (fst (e1, s1)). rewrite <- E1. apply IHfirst_class.
      intros Hi. apply Hb. rewrite flat_map_app, in_app_iff. cbn. rewrite in_app_iff. auto.
    + intros En ts t x Eo ->. change (Var x) with (fst (Var x, s1)) in E1.
      assert (e = Var x) by (apply lift_not_var with s'; rewrite E1; reflexivity).
      apply (H0 (match before as b return (fst (map_state lift b cx) = [] -> b = []) with
                 | [] => fun _ => eq_refl
                 | b :: bs => fun q => ltac:(exfalso; clear - q; cbn in q; destruct (lift b cx) as [? c1];
                                              destruct (map_state lift bs c1); discriminate)
                 end En) ts t x Eo H1).
  - destruct (lift c cx) as [c' cx1] eqn:E1, (lift t cx1) as [t' cx2], (lift e cx2) as [e' cx3]. cbn.
    change c' with (fst (c', cx1)). rewrite <- E1, IHfirst_class by tauto. reflexivity.
  - destruct (lift c cx) as [c' cx1], (lift t cx1) as [t' cx2] eqn:E1, (lift e cx2) as [e' cx3]. cbn.
    change t' with (fst (t', cx2)). rewrite <- E1, IHfirst_class by tauto. rewrite orb_true_r. reflexivity.
  - destruct (lift c cx) as [c' cx1], (lift t cx1) as [t' cx2], (lift e cx2) as [e' cx3] eqn:E1. cbn.
    change e' with (fst (e', cx3)). rewrite <- E1, IHfirst_class by tauto. rewrite orb_true_r. reflexivity.
  - destruct (lift a cx) as [a' cx1] eqn:E1. destruct (map_state _ alts cx1) as [alts' cx2].
    assert (Ha : is_boxed f a' = true).
    { change a' with (fst (a', cx1)). rewrite <- E1. apply IHfirst_class. tauto. }
    destruct de as [[x e]|]; [destruct (lift e cx2)|]; cbn; rewrite Ha; reflexivity.
  - destruct (lift a cx) as [a' cx1] eqn:E1.
    apply in_split in H as (l1 & l2 & ->).
    match goal with |- context [map_state ?g (l1 ++ al :: l2) cx1] => set (h := g) end.
    destruct (map_state h (l1 ++ al :: l2) cx1) as [alts' cx2] eqn:E2.
    destruct (map_state_app h l1 (al :: l2) cx1) as (s' & Es). rewrite E2 in Es. cbn in Es.
    destruct (h al s') as [al' s1] eqn:E4. destruct (map_state h l2 s1) as [r2 s2]. cbn in Es.
    unfold h in E4. destruct (lift (a_body al) s') as [b' s3] eqn:E3. injection E4 as <- <-.
    assert (Ha : existsb (fun al => negb (String.eqb (a_name al) f) && is_boxed f (a_body al)) alts' = true).
    { rewrite Es, existsb_app. cbn. rewrite flat_map_app, in_app_iff in Hb. cbn in Hb. rewrite in_app_iff in Hb.
      destruct (String.eqb_spec (a_name al) f) as [En|_]; [tauto|].
      change b' with (fst (b', s3)). rewrite <- E3, IHfirst_class by tauto. cbn. rewrite orb_true_r. reflexivity. }
    destruct de as [[x e]|]; [destruct (lift e cx2)|]; cbn; rewrite Ha, orb_true_r; reflexivity.
  - destruct (lift a cx) as [a' cx1] eqn:E1. destruct (map_state _ alts cx1) as [alts' cx2].
    destruct (lift e cx2) as [e' cx3] eqn:E2. cbn. cbn in Hb.
    destruct (String.eqb_spec x f) as [En|_]; [tauto|].
    change e' with (fst (e', cx3)). rewrite <- E2, IHfirst_class by tauto. cbn. rewrite orb_true_r. reflexivity.
  - destruct (lift b cx) as [b' cx1] eqn:E1, (lift e cx1) as [e' cx2] eqn:E2. cbn. cbn in Hb. rewrite in_app_iff in Hb.
    change b' with (fst (b', cx1)). rewrite <- E1, IHfirst_class by tauto. reflexivity.
  - destruct (lift b cx) as [b' cx1] eqn:E1, (lift e cx1) as [e' cx2] eqn:E2. cbn. cbn in Hb. rewrite in_app_iff in Hb.
    destruct (String.eqb_spec x f) as [En|_]; [tauto|].
    change e' with (fst (e', cx2)). rewrite <- E2, IHfirst_class by tauto. rewrite orb_true_r. reflexivity.
  - destruct (lift (f_body d) cx) as [b' cx1] eqn:E1, (lift e cx1) as [e' cx2] eqn:E2. cbn in Hb.
    unfold lift_letrec. cbn [f_env f_thunk f_body f_name f_args f_result].
    destruct (f_env d) as [|ev env] eqn:Ee; [destruct H|]. rewrite <- Ee in *. clear ev env Ee.
    destruct (_ && _).
    + cbn [add_function f_name f_env f_args f_result f_body f_thunk l_defs l_index fst is_boxed].
      apply orb_true_iff. right. destruct (String.eqb_spec (f_name d) f) as [En|_]; [tauto|]. cbn.
      apply boxed_save; [apply saved_length| |left; assumption].
      intros Hi. apply saved_bounds in Hi as (x & j & Ex & _). eapply saved_not_plain; [|exact Hp]. exists x, j. assumption.
    + cbn. apply orb_true_iff. left. apply mem_In. assumption.
  - destruct (lift (f_body d) cx) as [b' cx1] eqn:E1, (lift e cx1) as [e' cx2] eqn:E2. cbn in Hb.
    rewrite !in_app_iff in Hb.
    assert (He : is_boxed f e' = true).
    { change e' with (fst (e', cx2)). rewrite <- E2. apply IHfirst_class. tauto. }
    unfold lift_letrec. cbn [f_env f_thunk f_body f_name f_args f_result].
    destruct (String.eqb_spec (f_name d) f) as [En|Hn]; [tauto|]. apply String.eqb_neq in Hn.
    destruct (f_env d) as [|ev env] eqn:Ee; [cbn [add_function f_name f_env f_args f_result f_body f_thunk fst is_boxed]; rewrite Hn, He; apply orb_true_r|]. rewrite <- Ee in *. clear ev env Ee.
    destruct (_ && _).
    + cbn [add_function f_name f_env f_args f_result f_body f_thunk l_defs l_index fst is_boxed].
      rewrite Hn. apply orb_true_iff. right. cbn.
      apply boxed_save; [apply saved_length| |right].
      * intros Hi. apply saved_bounds in Hi as (x & j & Ex & _). eapply saved_not_plain; [|exact Hp]. exists x, j. assumption.
      * apply boxed_add; [|assumption]. intros ->. tauto.
    + cbn. rewrite Hn, He. apply orb_true_r.
  - destruct (lift o cx) as [o' cx1] eqn:E1, (lift e cx1) as [e' cx2] eqn:E2. cbn. cbn in Hb. rewrite in_app_iff in Hb.
    change o' with (fst (o', cx1)). rewrite <- E1, IHfirst_class by tauto. reflexivity.
  - destruct (lift o cx) as [o' cx1] eqn:E1, (lift e cx1) as [e' cx2] eqn:E2. cbn. cbn in Hb. rewrite in_app_iff in Hb.
    change e' with (fst (e', cx2)). rewrite <- E2, IHfirst_class by tauto. rewrite orb_true_r. reflexivity.
  - destruct (lift e cx) as [e' cx1] eqn:E1. cbn. change e' with (fst (e', cx1)). rewrite <- E1. auto.
  - destruct (lift e cx) as [e' cx1] eqn:E1. cbn. change e' with (fst (e', cx1)). rewrite <- E1. auto.
Qed.

(** ** Their definitions stay *)
Definition head (d : fdef) : string * arguments * arguments * mtype * bool :=
  (f_name d, f_env d, f_args d, f_result d, f_thunk d).

Fixpoint heads (e : expr) : list (string * arguments * arguments * mtype * bool) :=
  match e with
  | Lit _ | Var _ => []
  | Op o es => flat_map heads es
  | If c t e => heads c ++ heads t ++ heads e
  | Case a alts de =>
      heads a ++ flat_map (fun al => heads (a_body al)) alts ++
      match de with Some (_, e) => heads e | None => [] end
  | Let _ _ b e => heads b ++ heads e
  | LetRec d e => head d :: heads (f_body d) ++ heads e
  | Try o _ _ e => heads o ++ heads e
  | CloneVars _ e | DropVars _ e => heads e
  end.

Lemma heads_within h e : In h (heads e) -> exists d e1, within (LetRec d e1) e /\ head d = h.
Proof.
  induction e as [l|x|o es IH|c t e IHc IHt IHe|a alts de IHa IHalts IHde|x t b e IHb IHe
                  |d e IHd IHe|o x t e IHo IHe|xs e IHe|xs e IHe] using expr_ind'; cbn [heads In];
    rewrite ?in_app_iff, ?in_flat_map; intros H.
  - destruct H.
  - destruct H.
  - destruct H as (e & He & H). rewrite Forall_forall in IH. destruct (IH e He H) as (d & e1 & Hw & <-).
    exists d, e1. split; [eapply within_op; eassumption|reflexivity].
  - destruct H as [H|[H|H]]; [apply IHc in H|apply IHt in H|apply IHe in H]; destruct H as (d & e1 & Hw & <-);
      exists d, e1; (split; [|reflexivity]).
    + apply within_if_1; assumption.
    + apply within_if_2; assumption.
    + apply within_if_3; assumption.
  - destruct H as [H|[H|H]].
    + apply IHa in H as (d & e1 & Hw & <-). exists d, e1. split; [apply within_case_argument; assumption|reflexivity].
    + destruct H as (al & Hal & H). rewrite Forall_forall in IHalts.
      destruct (IHalts al Hal H) as (d & e1 & Hw & <-). exists d, e1.
      split; [eapply within_case_alternative; eassumption|reflexivity].
    + destruct de as [[x e]|]; [|destruct H]. destruct (IHde x e eq_refl H) as (d & e1 & Hw & <-). exists d, e1.
      split; [apply within_case_default; assumption|reflexivity].
  - destruct H as [H|H]; [apply IHb in H|apply IHe in H]; destruct H as (d & e1 & Hw & <-);
      exists d, e1; (split; [|reflexivity]).
    + apply within_let_bound; assumption.
    + apply within_let_body; assumption.
  - destruct H as [<-|[H|H]]; [exists d, e; split; [constructor|reflexivity]|apply IHd in H|apply IHe in H];
      destruct H as (d' & e1 & Hw & <-); exists d', e1; (split; [|reflexivity]).
    + apply within_letrec_definition; assumption.
    + apply within_letrec_body; assumption.
  - destruct H as [H|H]; [apply IHo in H|apply IHe in H]; destruct H as (d & e1 & Hw & <-);
      exists d, e1; (split; [|reflexivity]).
    + apply within_try_operand; assumption.
    + apply within_try_body; assumption.
  - apply IHe in H as (d & e1 & Hw & <-). exists d, e1. split; [apply within_clone; assumption|reflexivity].
  - apply IHe in H as (d & e1 & Hw & <-). exists d, e1. split; [apply within_drop; assumption|reflexivity].
Qed.

Lemma heads_add f zs e : heads (add_arguments f zs e) = heads e.
Proof.
  induction e as [l|x|o es IH|c t e IHc IHt IHe|a alts de IHa IHalts IHde|x t b e IHb IHe
                  |d e IHd IHe|o x t e IHo IHe|xs e IHe|xs e IHe] using expr_ind'; try reflexivity.
  - assert (Hmap : forall l, incl l es -> flat_map heads (map (add_arguments f zs) l) = flat_map heads l).
    { induction l as [|y l IHl]; [reflexivity|]. intros Hl. cbn. rewrite IHl by (intros z Hz; apply Hl; right; assumption).
      rewrite Forall_forall in IH. rewrite IH by (apply Hl; left; reflexivity). reflexivity. }
    assert (Hall := Hmap es (incl_refl _)).
    destruct o; try exact Hall. destruct es as [|e0 args]; [reflexivity|].
    assert (Hargs : flat_map heads (map (add_arguments f zs) args) = flat_map heads args).
    { apply Hmap. intros y Hy. right. assumption. }
    destruct e0; try exact Hall. cbn [add_arguments]. destruct (String.eqb x f); [|exact Hargs].
    cbn [heads flat_map]. rewrite flat_map_app, Hargs. cbn.
    assert (Hz : flat_map heads (map (fun z => Var (fst z)) zs) = []) by (clear; induction zs; auto).
    rewrite Hz, app_nil_r. reflexivity.
  - cbn [add_arguments heads]. rewrite IHc, IHt, IHe. reflexivity.
  - cbn [add_arguments heads]. rewrite IHa. f_equal. f_equal.
    + rewrite Forall_forall in IHalts. clear - IHalts. induction alts as [|al alts IH]; [reflexivity|].
      cbn. rewrite IH by (intros; apply IHalts; right; assumption). f_equal.
      destruct (String.eqb (a_name al) f); [reflexivity|]. apply IHalts. left. reflexivity.
    + destruct de as [[x e]|]; [|reflexivity]. destruct (String.eqb x f); [reflexivity|]. eauto.
  - cbn [add_arguments heads]. rewrite IHb. destruct (String.eqb x f); [|rewrite IHe]; reflexivity.
  - cbn [add_arguments heads]. destruct (String.eqb (f_name d) f); [|rewrite IHe]; reflexivity.
  - cbn [add_arguments heads]. rewrite IHo. destruct (String.eqb x f); [|rewrite IHe]; reflexivity.
  - cbn [add_arguments heads]. auto.
  - cbn [add_arguments heads]. auto.
Qed.

Lemma heads_save env : forall zs e, heads (save_variables env zs e) = heads e.
Proof. induction env as [|[x t] env IH]; intros [|[z u] zs] e; cbn; auto. Qed.

Lemma map_state_in {A B} (f : A -> lift_context -> B * lift_context) l :
  (forall a cx, In a l -> incl (l_defs cx) (l_defs (snd (f a cx)))) ->
  (forall cx, incl (l_defs cx) (l_defs (snd (map_state f l cx)))) /\
  forall a, In a l -> forall cx, exists cx1,
    In (fst (f a cx1)) (fst (map_state f l cx)) /\
    incl (l_defs (snd (f a cx1))) (l_defs (snd (map_state f l cx))).
Proof.
  induction l as [|a l IH]; intros H.
  - split; [intros cx x Hx; exact Hx|]. intros a [].
  - destruct IH as [IH1 IH2]; [intros b cx Hb; apply H; right; assumption|]. split.
    + intros cx x Hx. cbn. pose proof (H a cx (or_introl eq_refl) x Hx) as H1.
      destruct (f a cx) as [b cx1]. pose proof (IH1 cx1 x H1) as H2.
      destruct (map_state f l cx1) as [bs cx2]. exact H2.
    + intros b [->|Hb] cx; cbn.
      * exists cx. destruct (f b cx) as [b' cx1]. pose proof (IH1 cx1) as H1.
        destruct (map_state f l cx1) as [bs cx2]. split; [left; reflexivity|exact H1].
      * destruct (f a cx) as [b' cx1]. destruct (IH2 b Hb cx1) as (cx3 & H1 & H2). exists cx3.
        destruct (map_state f l cx1) as [bs cx2]. split; [right; exact H1|exact H2].
Qed.

Lemma letrec_mono d e cx : incl (l_defs cx) (l_defs (snd (lift_letrec d e cx))).
Proof.
  intros x Hx. unfold lift_letrec. destruct (f_env d); [cbn; apply in_app_iff; auto|].
  destruct (_ && _); [|exact Hx]. cbn. apply in_app_iff; auto.
Qed.

Lemma lift_mono e : forall cx, incl (l_defs cx) (l_defs (snd (lift e cx))).
Proof.
  induction e as [l|x|o es IH|c t e IHc IHt IHe|a alts de IHa IHalts IHde|x t b e IHb IHe
                  |d e IHd IHe|o x t e IHo IHe|xs e IHe|xs e IHe] using expr_ind';
    intros cx; cbn [lift]; try apply incl_refl.
  - destruct (map_state_in lift es) as [H _]; [intros a cx' Ha; rewrite Forall_forall in IH; apply IH; assumption|].
    specialize (H cx). destruct (map_state lift es cx). exact H.
  - specialize (IHc cx). destruct (lift c cx) as [c' cx1]. specialize (IHt cx1). destruct (lift t cx1) as [t' cx2].
    specialize (IHe cx2). destruct (lift e cx2) as [e' cx3]. cbn in *. eauto using incl_tran.
  - specialize (IHa cx). destruct (lift a cx) as [a' cx1].
    match goal with |- context [map_state ?g alts cx1] => set (h := g) end.
    destruct (map_state_in h alts) as [H _].
    { intros al cx' Hal. unfold h. rewrite Forall_forall in IHalts. pose proof (IHalts al Hal cx') as H.
      destruct (lift (a_body al) cx'). exact H. }
    specialize (H cx1). destruct (map_state h alts cx1) as [alts' cx2].
    destruct de as [[x e]|].
    + pose proof (IHde x e eq_refl cx2) as H3. destruct (lift e cx2). cbn in *. eauto using incl_tran.
    + cbn in *. eauto using incl_tran.
  - specialize (IHb cx). destruct (lift b cx) as [b' cx1]. specialize (IHe cx1). destruct (lift e cx1) as [e' cx2].
    cbn in *. eauto using incl_tran.
  - specialize (IHd cx). destruct (lift (f_body d) cx) as [b' cx1]. specialize (IHe cx1). destruct (lift e cx1) as [e' cx2].
    cbn in IHd, IHe. eapply incl_tran; [exact IHd|]. eapply incl_tran; [exact IHe|]. apply letrec_mono.
  - specialize (IHo cx). destruct (lift o cx) as [b' cx1]. specialize (IHe cx1). destruct (lift e cx1) as [e' cx2].
    cbn in *. eauto using incl_tran.
  - specialize (IHe cx). destruct (lift e cx). exact IHe.
  - specialize (IHe cx). destruct (lift e cx). exact IHe.
Qed.

(** The local functions in an expression and in the lifted functions. *)
Definition found (h : string * arguments * arguments * mtype * bool) (r : expr * lift_context) : Prop :=
  In h (heads (fst r)) \/ exists g, In g (l_defs (snd r)) /\ In h (heads (f_body g)).

Lemma found_letrec h d e cx :
  found h (f_body d, cx) \/ found h (e, cx) -> found h (lift_letrec d e cx).
Proof.
  intros H. unfold lift_letrec. destruct (f_env d) as [|ev env] eqn:Ee.
  - unfold found in *.
    cbn [add_function f_name f_env f_args f_result f_body f_thunk fst snd l_defs heads app] in *.
    destruct H as [[H|(g & H1 & H2)]|[H|(g & H1 & H2)]]; [| |left; assumption|];
      try (right; exists g; split; [apply in_app_iff; auto|assumption]).
    right. eexists. split; [apply in_app_iff; right; left; reflexivity|]. cbn. assumption.
  - rewrite <- Ee in *. clear ev env Ee. destruct (_ && _).
    + unfold found in *.
      cbn [add_function f_name f_env f_args f_result f_body f_thunk fst snd l_defs heads app] in *.
      rewrite heads_save, heads_add.
      destruct H as [[H|(g & H1 & H2)]|[H|(g & H1 & H2)]]; [| |left; assumption|];
        try (right; exists g; split; [apply in_app_iff; auto|assumption]).
      right. eexists. split; [apply in_app_iff; right; left; reflexivity|]. cbn.
      rewrite heads_save, heads_add. assumption.
    + unfold found in *. cbn [fst snd heads In] in *. rewrite !in_app_iff.
      destruct H as [[H|H]|[H|H]]; auto.
Qed.

Lemma found_later h e e' cx cx' :
  found h (e, cx) -> (forall x, In x (heads e) -> In x (heads e')) -> incl (l_defs cx) (l_defs cx') ->
  found h (e', cx').
Proof.
  intros [H|(g & H1 & H2)] He Hi; [left|right]; cbn in *; auto. exists g. auto.
Qed.

Definition kept_value (d : fdef) (e : expr) : Prop :=
  f_env d <> [] /\
  (f_thunk d = true \/ first_class (f_name d) (f_body d) \/ first_class (f_name d) e).

Lemma lift_keeps e d e1 : within (LetRec d e1) e -> kept_value d e1 ->
  NoDup (binders e) -> (forall x, In x (binders e) -> plain x) ->
  forall cx, found (head d) (lift e cx).
Proof.
  intros H [Henv Hk]. remember (LetRec d e1) as r eqn:Er.
  induction H; subst; intros Hn Hp cx; cbn [lift].
  - destruct (lift (f_body d) cx) as [b' cx1] eqn:E1. destruct (lift e1 cx1) as [e' cx2] eqn:E2.
    unfold lift_letrec. cbn [f_env f_thunk f_body f_name f_args f_result].
    destruct (f_env d) as [|ev env] eqn:Ee; [congruence|]. rewrite <- Ee in *. clear ev env Ee.
    assert (Hd : plain (f_name d)) by (apply Hp; left; reflexivity).
    cbn [binders] in Hn. apply NoDup_cons_iff in Hn as [Hn _]. rewrite !in_app_iff in Hn.
    assert (Hc : negb (f_thunk d) && negb (is_boxed (f_name d) b') && negb (is_boxed (f_name d) e') = false).
    { destruct Hk as [Hk|[Hk|Hk]].
      - rewrite Hk. reflexivity.
      - change b' with (fst (b', cx1)). rewrite <- E1, lift_boxed by tauto.
        rewrite andb_false_r. reflexivity.
      - change e' with (fst (e', cx2)). rewrite <- E2, lift_boxed by tauto. apply andb_false_r. }
    rewrite Hc. left. left. reflexivity.
  - specialize (IHwithin eq_refl).
    destruct (map_state_in lift es) as [_ Hms]; [intros a cx' _; apply lift_mono|].
    destruct (Hms e H cx) as (cx1 & H1 & H2). destruct (map_state lift es cx) as [es' cx'].
    assert (He : within e (Op o es)) by (eapply within_op; [exact H|constructor]).
    specialize (IHwithin (within_nodup _ _ He Hn) (fun x Hx => Hp x (within_binders _ _ He x Hx)) cx1).
    destruct (lift e cx1) as [e' cx2]. eapply found_later; [exact IHwithin| |exact H2].
    intros x Hx. cbn. apply in_flat_map. exists e'. auto.
  - specialize (IHwithin eq_refl (within_nodup c (If c t e) ltac:(apply within_if_1; constructor) Hn)
      (fun x Hx => Hp x (within_binders c (If c t e) ltac:(apply within_if_1; constructor) x Hx)) cx).
    destruct (lift c cx) as [c' cx1]. pose proof (lift_mono t cx1) as M1. destruct (lift t cx1) as [t' cx2].
    pose proof (lift_mono e cx2) as M2. destruct (lift e cx2) as [e' cx3].
    eapply found_later; [exact IHwithin| |cbn in *; eauto using incl_tran]. intros x Hx. cbn. rewrite !in_app_iff. auto.
  - specialize (IHwithin eq_refl (within_nodup t (If c t e) ltac:(apply within_if_2; constructor) Hn)
      (fun x Hx => Hp x (within_binders t (If c t e) ltac:(apply within_if_2; constructor) x Hx))).
    destruct (lift c cx) as [c' cx1]. specialize (IHwithin cx1). destruct (lift t cx1) as [t' cx2].
    pose proof (lift_mono e cx2) as M2. destruct (lift e cx2) as [e' cx3].
    eapply found_later; [exact IHwithin| |exact M2]. intros x Hx. cbn. rewrite !in_app_iff. auto.
  - specialize (IHwithin eq_refl (within_nodup e (If c t e) ltac:(apply within_if_3; constructor) Hn)
      (fun x Hx => Hp x (within_binders e (If c t e) ltac:(apply within_if_3; constructor) x Hx))).
    destruct (lift c cx) as [c' cx1]. destruct (lift t cx1) as [t' cx2]. specialize (IHwithin cx2).
    destruct (lift e cx2) as [e' cx3].
    eapply found_later; [exact IHwithin| |apply incl_refl]. intros x Hx. cbn. rewrite !in_app_iff. auto.
  - specialize (IHwithin eq_refl (within_nodup a (Case a alts de) ltac:(apply within_case_argument; constructor) Hn)
      (fun x Hx => Hp x (within_binders a (Case a alts de) ltac:(apply within_case_argument; constructor) x Hx)) cx).
    destruct (lift a cx) as [a' cx1].
    match goal with |- context [map_state ?g alts cx1] => set (h := g) end.
    destruct (map_state_in h alts) as [Hms _].
    { intros al cx' Hal. unfold h. pose proof (lift_mono (a_body al) cx') as M. destruct (lift (a_body al) cx'). exact M. }
    specialize (Hms cx1). destruct (map_state h alts cx1) as [alts' cx2].
    destruct de as [[x e]|].
    + pose proof (lift_mono e cx2) as M2. destruct (lift e cx2) as [e' cx3].
      eapply found_later; [exact IHwithin| |cbn in *; eauto using incl_tran]. intros y Hy. cbn. rewrite !in_app_iff. auto.
    + eapply found_later; [exact IHwithin| |exact Hms]. intros y Hy. cbn. rewrite !in_app_iff. auto.
  - assert (He : within (a_body al) (Case a alts de)) by (eapply within_case_alternative; [exact H|constructor]).
    specialize (IHwithin eq_refl (within_nodup _ _ He Hn) (fun x Hx => Hp x (within_binders _ _ He x Hx))).
    destruct (lift a cx) as [a' cx1].
    match goal with |- context [map_state ?g alts cx1] => set (h := g) end.
    destruct (map_state_in h alts) as [_ Hms].
    { intros al' cx' Hal. unfold h. pose proof (lift_mono (a_body al') cx') as M. destruct (lift (a_body al') cx'). exact M. }
    destruct (Hms al H cx1) as (cx3 & H1 & H2). destruct (map_state h alts cx1) as [alts' cx2].
    specialize (IHwithin cx3). unfold h in H1, H2. destruct (lift (a_body al) cx3) as [b' cx4]. cbn in H1, H2.
    assert (Hf : found (head d) (Case a' alts' None, cx2)).
    { eapply found_later; [exact IHwithin| |exact H2]. intros y Hy. cbn. rewrite !in_app_iff, in_flat_map.
      right. left. eexists. split; [exact H1|]. exact Hy. }
    destruct de as [[x e]|]; [|exact Hf].
    pose proof (lift_mono e cx2) as M2. destruct (lift e cx2) as [e' cx5].
    eapply found_later; [exact Hf| |exact M2]. intros y Hy. cbn in *. rewrite !in_app_iff in *.
    destruct Hy as [Hy|[Hy|[]]]; auto.
  - assert (He : within e (Case a alts (Some (x, e)))) by (apply within_case_default; constructor).
    specialize (IHwithin eq_refl (within_nodup _ _ He Hn) (fun x Hx => Hp x (within_binders _ _ He x Hx))).
    destruct (lift a cx) as [a' cx1]. destruct (map_state _ alts cx1) as [alts' cx2].
    specialize (IHwithin cx2). destruct (lift e cx2) as [e' cx3].
    eapply found_later; [exact IHwithin| |apply incl_refl]. intros y Hy. cbn. rewrite !in_app_iff. auto.
  - assert (He : within b (Let x t b e)) by (apply within_let_bound; constructor).
    specialize (IHwithin eq_refl (within_nodup _ _ He Hn) (fun x Hx => Hp x (within_binders _ _ He x Hx)) cx).
    destruct (lift b cx) as [b' cx1]. pose proof (lift_mono e cx1) as M. destruct (lift e cx1) as [e' cx2].
    eapply found_later; [exact IHwithin| |exact M]. intros y Hy. cbn. rewrite !in_app_iff. auto.
  - assert (He : within e (Let x t b e)) by (apply within_let_body; constructor).
    specialize (IHwithin eq_refl (within_nodup _ _ He Hn) (fun x Hx => Hp x (within_binders _ _ He x Hx))).
    destruct (lift b cx) as [b' cx1]. specialize (IHwithin cx1). destruct (lift e cx1) as [e' cx2].
    eapply found_later; [exact IHwithin| |apply incl_refl]. intros y Hy. cbn. rewrite !in_app_iff. auto.
  - assert (He : within (f_body d0) (LetRec d0 e)) by (apply within_letrec_definition; constructor).
    specialize (IHwithin eq_refl (within_nodup _ _ He Hn) (fun x Hx => Hp x (within_binders _ _ He x Hx)) cx).
    destruct (lift (f_body d0) cx) as [b' cx1]. pose proof (lift_mono e cx1) as M. destruct (lift e cx1) as [e' cx2].
    apply found_letrec. left. eapply found_later; [exact IHwithin|auto|exact M].
  - assert (He : within e (LetRec d0 e)) by (apply within_letrec_body; constructor).
    specialize (IHwithin eq_refl (within_nodup _ _ He Hn) (fun x Hx => Hp x (within_binders _ _ He x Hx))).
    destruct (lift (f_body d0) cx) as [b' cx1]. specialize (IHwithin cx1). destruct (lift e cx1) as [e' cx2].
    apply found_letrec. right. exact IHwithin.
  - assert (He : within o (Try o x t e)) by (apply within_try_operand; constructor).
    specialize (IHwithin eq_refl (within_nodup _ _ He Hn) (fun x Hx => Hp x (within_binders _ _ He x Hx)) cx).
    destruct (lift o cx) as [b' cx1]. pose proof (lift_mono e cx1) as M. destruct (lift e cx1) as [e' cx2].
    eapply found_later; [exact IHwithin| |exact M]. intros y Hy. cbn. rewrite !in_app_iff. auto.
  - assert (He : within e (Try o x t e)) by (apply within_try_body; constructor).
    specialize (IHwithin eq_refl (within_nodup _ _ He Hn) (fun x Hx => Hp x (within_binders _ _ He x Hx))).
    destruct (lift o cx) as [b' cx1]. specialize (IHwithin cx1). destruct (lift e cx1) as [e' cx2].
    eapply found_later; [exact IHwithin| |apply incl_refl]. intros y Hy. cbn. rewrite !in_app_iff. auto.
  - specialize (IHwithin eq_refl Hn Hp cx). destruct (lift e cx). exact IHwithin.
  - specialize (IHwithin eq_refl Hn Hp cx). destruct (lift e cx). exact IHwithin.
Qed.

Theorem lift_keeps_values m g d e :
  no_lifted_names m -> bound_once m ->
  In g (m_defs m) -> within (LetRec d e) (f_body g) -> f_env d <> [] ->
  f_thunk d = true \/ first_class (f_name d) (f_body d) \/ first_class (f_name d) e ->
  exists g' d' e', In g' (m_defs (lift_module m)) /\ within (LetRec d' e') (f_body g') /\
    f_name d' = f_name d /\ f_env d' = f_env d /\ f_args d' = f_args d /\ f_result d' = f_result d /\
    f_thunk d' = f_thunk d.
Proof.
  intros [_ Hp] Hn Hg Hw He Hk.
  destruct (map_state_in lift_global (m_defs m)) as [_ Hms].
  { intros a cx _. unfold lift_global. pose proof (lift_mono (f_body a) cx) as M. destruct (lift (f_body a) cx). exact M. }
  destruct (Hms g Hg (Lifted [] 0)) as (cx1 & H1 & H2). unfold lift_module.
  destruct (map_state lift_global (m_defs m) (Lifted [] 0)) as [ds cx]. cbn [m_defs set_defs].
  assert (Hf : found (head d) (lift (f_body g) cx1)).
  { eapply lift_keeps; [exact Hw|split; assumption|apply Hn; assumption|].
    intros x Hx. apply (Hp g x Hg). right. right. left. assumption. }
  unfold lift_global in H1, H2. destruct (lift (f_body g) cx1) as [b' cx2]. cbn in H1, H2.
  assert (Hr : exists g', In g' (ds ++ l_defs cx) /\ In (head d) (heads (f_body g'))).
  { destruct Hf as [Hf|(h & Hh & Hf)]; cbn in *.
    - exists (set_body g b'). split; [apply in_app_iff; left; exact H1|exact Hf].
    - exists h. split; [apply in_app_iff; right; apply H2; exact Hh|exact Hf]. }
  destruct Hr as (g' & Hg' & Hh). apply heads_within in Hh as (d' & e' & Hd & E). exists g', d', e'.
  split; [assumption|]. split; [assumption|]. injection E as E1 E2 E3 E4 E5. auto 10.
Qed.
