(** Reference-counted functions are balanced. *)
From Coq Require Import String List Bool Arith Lia.
From Verif Require Import Base Mir MirSim MirScopeSpec MirNormSpec MirEnv MirEnvProofs MirUniq MirRc MirRcSpec MirRcProofs.
Import ListNotations.

(** ** Functions *)
Lemma own_collect_names l : forall acc, NoDup (map fst acc) ->
  let r := fold_left (fun owned p => own_insert (fst p) (snd p) owned) l acc in
  NoDup (map fst r) /\ forall x, In x (map fst r) <-> In x (map fst l) \/ In x (map fst acc).
Proof.
  induction l as [|[y t] l IH]; intros acc N; cbn [fold_left].
  - split; [assumption|]. cbn. tauto.
  - destruct (IH (own_insert y t acc) (own_insert_nodup _ _ _ N)) as [N1 H1]. split; [exact N1|].
    intros x. rewrite H1, own_insert_names. cbn. intuition congruence.
Qed.

Lemma entry_good xs : NoDup xs -> good (ind xs) (map (fun x => (x, 1)) xs).
Proof.
  induction 1 as [|x xs Hx N IH]; cbn [map]; [exact I|]. cbn [good]. split.
  - symmetry. apply ind_true. left. reflexivity.
  - eapply good_ext; [exact IH|]. intros y Hy. rewrite map_map in Hy. cbn in Hy. rewrite map_id in Hy.
    unfold upd. destruct (String.eqb_spec y x) as [->|Hne]; [contradiction|]. apply ind_iff. cbn. intuition congruence.
Qed.

Definition entry_names (local : bool) (d : fdef) : list string :=
  (if local then [f_name d] else []) ++ map fst (f_env d) ++ map fst (f_args d).

Lemma owned_by_names global d :
  NoDup (map fst (owned_by global d)) /\
  forall x, In x (map fst (owned_by global d)) <-> In x (entry_names (negb global) d).
Proof.
  destruct (own_collect_names ((if global then [] else [(f_name d, f_type d)]) ++ f_env d ++ f_args d) [] (NoDup_nil _))
    as [N H]. split; [exact N|]. intros x. unfold owned_by, own_collect. rewrite H. unfold entry_names.
  rewrite !map_app. destruct global; cbn; tauto.
Qed.

Lemma function_balanced global d d' : rc_function global d = Some d' ->
  fit (f_body d) -> hides_none (fun _ => False) (f_body d) -> NoDup (entry_names (negb global) d) -> balanced (negb global) d'.
Proof.
  intros H F U N. unfold rc_function in H. obind H. injection H as <-. intros r Hr.
  cbn [f_body] in Hr.
  change (at_entry (negb global) _) with (map (fun x => (x, 1)) (entry_names (negb global) d)) in Hr.
  set (o := map (fun x => (x, 1)) (entry_names (negb global) d)) in *.
  assert (No : map fst o = entry_names (negb global) d).
  { unfold o. rewrite map_map. apply map_id. }
  destruct (owned_by_names global d) as [N1 H1].
  assert (Hc : covers (owned_by global d) o).
  { split; [exact N1|]. intros x. rewrite H1, No. reflexivity. }
  unfold close_function in Hr.
  destruct (drop_paths [] e (minus (map fst (owned_by global d)) n) (owned_by global d) _ _ (entry_good _ N) N1)
    as (o1 & E1 & S1 & G1).
  { intros x _ Hx _. rewrite ind_true; [lia|]. apply H1. assumption. }
  fold o in E1, S1. rewrite E1 in Hr.
  assert (Fr : fine [] (map fst o1) r).
  { eapply (rc_paths (f_body d)); try eassumption.
    - eapply covers_same; [|exact Hc]. congruence.
    - intros x [].
    - eapply good_ext; [exact G1|]. intros x Hx. cbv beta.
      assert (Hx' : In x (entry_names (negb global) d)) by (rewrite <- No, <- S1; assumption).
      assert (Ho : mem x (map fst (owned_by global d)) = true) by (apply mem_In, H1; assumption).
      rewrite Ho, andb_true_r, (ind_true (entry_names _ _)) by assumption.
      destruct (mem x (minus (map fst (owned_by global d)) n)) eqn:Em.
      + apply mem_In, in_minus in Em as [_ Em]. apply ind_false. assumption.
      + apply mem_false in Em. rewrite in_minus in Em. apply ind_true. apply mem_In in Ho.
        destruct (in_dec string_dec x n); tauto. }
  destruct r as [o2 h| |]; [|exact I|destruct Fr]. destruct Fr as [G2 _].
  eapply good_nothing; [exact G2|]. intros x _. reflexivity.
Qed.

(** ** Local functions of the output come from local functions of the source *)
Lemma within_drop_variables a e xs owned : within a (drop_variables e xs owned) ->
  (exists xs' e', a = DropVars xs' e') \/ within a e.
Proof. destruct xs as [|x xs]; cbn [drop_variables]; intros H; [auto|]. inversion H; subst; eauto. Qed.

Lemma within_clone_variables a e xs owned : within a (clone_variables e xs owned) ->
  (exists xs' e', a = CloneVars xs' e') \/ within a e.
Proof. destruct xs as [|x xs]; cbn [clone_variables]; intros H; [auto|]. inversion H; subst; eauto. Qed.

Ltac strip H :=
  repeat match type of H with
  | within (LetRec _ _) (drop_variables _ _ _) =>
      apply within_drop_variables in H as [(? & ? & H)|H]; [discriminate H|]
  | within (LetRec _ _) (clone_variables _ _ _) =>
      apply within_clone_variables in H as [(? & ? & H)|H]; [discriminate H|]
  end.

Ltac into H :=
  inversion H; clear H; subst; match goal with Hx : within _ _ |- _ => rename Hx into H end.

Definition traced (f : expr -> names -> option (expr * names)) (e : expr) : Prop :=
  forall mv e' mv', f e mv = Some (e', mv') -> forall d' b', within (LetRec d' b') e' ->
    exists d b, within (LetRec d b) e /\ rc_function false d = Some d'.

Lemma backward_traced f es : Forall (traced f) es -> forall mv es' mv', rc_backward f es mv = Some (es', mv') ->
  forall e' d' b', In e' es' -> within (LetRec d' b') e' ->
    exists e d b, In e es /\ within (LetRec d b) e /\ rc_function false d = Some d'.
Proof.
  induction 1 as [|e es He _ IH]; intros mv es' mv' H e' d' b' Hi Hw; cbn [rc_backward] in H.
  - osome H. destruct Hi.
  - obind H. obind H. osome H. destruct Hi as [<-|Hi].
    + destruct (He _ _ _ E0 _ _ Hw) as (d & b & H1 & H2). exists e, d, b. cbn. auto.
    + destruct (IH _ _ _ E _ _ _ Hi Hw) as (e2 & d & b & H1 & H2). exists e2, d, b. cbn. tauto.
Qed.

Lemma forward_traced f es : Forall (traced f) es -> forall mv es' mv', rc_forward f es mv = Some (es', mv') ->
  forall e' d' b', In e' es' -> within (LetRec d' b') e' ->
    exists e d b, In e es /\ within (LetRec d b) e /\ rc_function false d = Some d'.
Proof.
  induction 1 as [|e es He _ IH]; intros mv es' mv' H e' d' b' Hi Hw; cbn [rc_forward] in H.
  - osome H. destruct Hi.
  - obind H. obind H. osome H. destruct Hi as [<-|Hi].
    + destruct (He _ _ _ E _ _ Hw) as (d & b & H1 & H2). exists e, d, b. cbn. auto.
    + destruct (IH _ _ _ E0 _ _ _ Hi Hw) as (e2 & d & b & H1 & H2). exists e2, d, b. cbn. tauto.
Qed.

Lemma rc_traced e : forall owned mv e' mv', rc owned mv e = Some (e', mv') ->
  forall d' b', within (LetRec d' b') e' ->
    exists d b, within (LetRec d b) e /\ rc_function false d = Some d'.
Proof.
  induction e as [l|y|op es IH|c t e IHc IHt IHe|a alts de IHa IHalts IHde|y t b e IHb IHe
                  |d e IHd IHe|a y t e IHo IHe|xs e IHe|xs e IHe] using expr_ind';
    intros owned mv e' mv' H d' b' Hw; cbn [rc] in H.
  - osome H. inversion Hw.
  - destruct (should_clone y owned mv); osome H; strip Hw; inversion Hw.
  - obind H. osome H. inversion Hw as [|? ? ? e2 He2 Hw2| | | | | | | | | | | | | |]; subst.
    assert (Hm : Forall (traced (fun e mv => rc owned mv e)) es).
    { eapply Forall_impl; [|exact IH]. intros e9 He m1 e1 m2 H1. exact (He _ _ _ _ H1). }
    assert (Hx : exists e d b, In e es /\ within (LetRec d b) e /\ rc_function false d = Some d').
    { destruct (forward_operation op); [eapply forward_traced|eapply backward_traced]; eassumption. }
    destruct Hx as (e3 & d & b & H1 & H2 & H3). exists d, b. split; [|assumption]. econstructor; eassumption.
  - obind H. obind H. obind H. osome H. into Hw; strip Hw.
    + destruct (IHc _ _ _ _ E1 _ _ Hw) as (d & b & Ha & Hb). exists d, b. split; [apply within_if_1|]; assumption.
    + destruct (IHt _ _ _ _ E _ _ Hw) as (d & b & Ha & Hb). exists d, b. split; [apply within_if_2|]; assumption.
    + destruct (IHe _ _ _ _ E0 _ _ Hw) as (d & b & Ha & Hb). exists d, b. split; [apply within_if_3|]; assumption.
  - obind H. destruct (rc_alternatives _ owned mv alts) as [tuples|] eqn:Et; [|discriminate H]. cbn [opt_bind] in H.
    obind H. osome H. into Hw.
    + destruct (IHa _ _ _ _ E0 _ _ Hw) as (d & b & Ha & Hb). exists d, b. split; [apply within_case_argument|]; assumption.
    + match goal with Hx : In _ (map _ tuples) |- _ => apply in_map_iff in Hx as ([al2 bm] & <- & Hal) end.
      cbn [a_body] in Hw. strip Hw.
      destruct (forall2_in_right _ _ _ _ (alternatives_forall2 _ _ _ _ _ Et) Hal) as (al1 & Hal1 & T1 & T2 & T3).
      cbn [fst snd] in *. rewrite Forall_forall in IHalts.
      destruct (IHalts _ Hal1 _ _ _ _ T3 _ _ Hw) as (d & b & Ha & Hb). exists d, b.
      split; [eapply within_case_alternative|]; eassumption.
    + destruct de as [[x9 e9]|].
      2: { osome E. discriminate. }
      obind E. osome E. match goal with Hx : Some _ = Some _ |- _ => injection Hx as -> -> end. strip Hw.
      destruct (IHde _ _ eq_refl _ _ _ _ E1 _ _ Hw) as (d & b & Ha & Hb). exists d, b.
      split; [apply within_case_default|]; assumption.
  - obind H. obind H. osome H. rewrite drop_unless in Hw. into Hw; strip Hw.
    + destruct (IHb _ _ _ _ E0 _ _ Hw) as (d & b9 & Ha & Hb). exists d, b9. split; [apply within_let_bound|]; assumption.
    + destruct (IHe _ _ _ _ E _ _ Hw) as (d & b9 & Ha & Hb). exists d, b9. split; [apply within_let_body|]; assumption.
  - obind H. obind H. osome H. rewrite drop_unless in Hw. strip Hw.
    assert (Hd : rc_function false d = Some (Fdef (f_name d) (f_env d) (f_args d) (f_result d)
                                              (close_function (owned_by false d) e1 n0) (f_thunk d))).
    { unfold rc_function. rewrite E0. reflexivity. }
    inversion Hw; clear Hw; subst.
    + exists d, e. split; [constructor|exact Hd].
    + match goal with Hx : within _ _ |- _ => rename Hx into Hw end. cbn [f_body] in Hw. unfold close_function in Hw. strip Hw.
      destruct (IHd _ _ _ _ E0 _ _ Hw) as (d2 & b9 & Ha & Hb). exists d2, b9. split; [apply within_letrec_definition|]; assumption.
    + match goal with Hx : within _ _ |- _ => rename Hx into Hw end. strip Hw.
      destruct (IHe _ _ _ _ E _ _ Hw) as (d2 & b9 & Ha & Hb). exists d2, b9. split; [apply within_letrec_body|]; assumption.
  - obind H. obind H. osome H. strip Hw. into Hw; strip Hw.
    + destruct (IHo _ _ _ _ E0 _ _ Hw) as (d & b9 & Ha & Hb). exists d, b9. split; [apply within_try_operand|]; assumption.
    + destruct (IHe _ _ _ _ E _ _ Hw) as (d & b9 & Ha & Hb). exists d, b9. split; [apply within_try_body|]; assumption.
  - discriminate.
  - discriminate.
Qed.

Lemma uniq_within e' e : within e' e -> uniq e -> uniq e'.
Proof.
  induction 1 as [e|e' o es e He _ IH|e' c t e _ IH|e' c t e _ IH|e' c t e _ IH|e' a alts de _ IH|e' a alts de al Hal _ IH
                  |e' a alts x e _ IH|e' x t b e _ IH|e' x t b e _ IH|e' d e _ IH|e' d e _ IH
                  |e' o x t e _ IH|e' o x t e _ IH|e' xs e _ IH|e' xs e _ IH]; intros U.
  - assumption.
  - apply IH. eapply uniq_op; eassumption.
  - apply IH. apply (uniq_if _ _ _ U).
  - apply IH. apply (uniq_if _ _ _ U).
  - apply IH. apply (uniq_if _ _ _ U).
  - apply IH. apply (uniq_case_argument _ _ _ U).
  - apply IH. apply (uniq_case_alternative _ _ _ _ U Hal).
  - apply IH. apply (uniq_case_default _ _ _ _ U).
  - apply IH. apply (uniq_let _ _ _ _ U).
  - apply IH. apply (uniq_let _ _ _ _ U).
  - apply IH. apply (uniq_letrec _ _ U).
  - apply IH. apply (uniq_letrec _ _ U).
  - apply IH. apply (uniq_try _ _ _ _ U).
  - apply IH. apply (uniq_try _ _ _ _ U).
  - apply IH. exact U.
  - apply IH. exact U.
Qed.

Lemma opt_map_forall2 {A B} (f : A -> option B) l : forall l', opt_map f l = Some l' ->
  Forall2 (fun a b => f a = Some b) l l'.
Proof.
  induction l as [|a l IH]; intros l' H; cbn [opt_map] in H.
  - injection H as <-. constructor.
  - destruct (f a) as [b|] eqn:E; [|discriminate]. cbn [opt_bind] in H.
    destruct (opt_map f l) as [l1|]; [|discriminate]. cbn [opt_bind] in H. injection H as <-. constructor; auto.
Qed.

Theorem references_are_balanced m m' : rc_module m = Some m' ->
  normal m -> plain_tries m -> exact_scopes m -> hides_nothing m -> references_balanced m'.
Proof.
  intros H Hn Ht Hs Hd. unfold rc_module in H. destruct (opt_map (rc_function true) (m_defs m)) as [defs|] eqn:Eo; [|discriminate].
  cbn in H. injection H as <-. apply opt_map_forall2 in Eo. intros g' Hg'. cbn [set_defs m_defs] in Hg'.
  destruct (forall2_in_right _ _ _ _ Eo Hg') as (g & Hg & Hr).
  destruct (Hs g Hg) as (S1 & S2 & S3). destruct (Hd g Hg) as (D1 & D2).
  assert (F : fit (f_body g)).
  { split.
    - intros o es Hw. eapply Hn; eassumption.
    - intros o x t e Hw. eapply Ht; eassumption.
    - intros d e Hw. destruct (S3 d e Hw) as [N E]. split; [assumption|]. intros x Hx. apply fv_free. auto. }
  split.
  - apply (function_balanced true g); try assumption. unfold entry_names. cbn. rewrite S1. assumption.
  - intros d' b' Hw. unfold rc_function in Hr. obind Hr. injection Hr as <-. cbn [f_body] in Hw.
    unfold close_function in Hw. strip Hw. destruct (rc_traced _ _ _ _ _ E _ _ Hw) as (d & b & Hwd & Hrd).
    destruct (fit_env _ F _ _ Hwd) as [N _].
    apply (function_balanced false d); try assumption.
    + eapply fit_within; [|exact F]. eapply within_trans; [|exact Hwd]. apply within_letrec_definition. constructor.
    + eapply D2. exact Hwd.
    + unfold entry_names. cbn [negb app].
      apply NoDup_cons_iff in N as [N1 N2]. constructor.
      * rewrite in_app_iff in *. tauto.
      * apply nodup_app_iff in N2 as (A & B & C). apply nodup_app_iff. repeat split; auto. intros x X1 X2. exact (C x X2 X1).
Qed.
