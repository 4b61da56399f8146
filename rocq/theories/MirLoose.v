(** Expressions whose binders are distinct and shadow free variables only where
    normalization allows it. *)
From Coq Require Import String List Bool.
From Verif Require Import Base Mir MirSim MirScopeSpec MirNormSpec MirEnv MirEnvProofs MirUniq.
Import ListNotations.

Fixpoint results (e : expr) : list string :=
  match e with
  | Var x => [x]
  | Let x _ b e => results b ++ except x (results e)
  | LetRec d e => except (f_name d) (results e)
  | _ => []
  end.

Fixpoint copies (e : expr) : list string :=
  match e with
  | Lit _ | Var _ => []
  | Op _ es => flat_map copies es
  | If c t e => copies c ++ copies t ++ copies e
  | Case a alts de =>
      copies a ++ flat_map (fun al => except (a_name al) (copies (a_body al))) alts ++
      match de with
      | Some (x, e) => except x (copies e)
      | None => []
      end
  | Let x _ b e => results b ++ copies b ++ except x (copies e)
  | LetRec d e =>
      except (f_name d)
        (List.filter (fun y => negb (String.eqb y (f_name d)) && negb (mem y (map fst (f_args d))))
                     (copies (f_body d)) ++ copies e)
  | Try o x _ e => copies o ++ except x (copies e)
  | CloneVars _ e => copies e
  | DropVars _ e => copies e
  end.

Lemma in_copies_letrec x d e :
  In x (copies (LetRec d e)) <->
  x <> f_name d /\ ((In x (copies (f_body d)) /\ ~ In x (map fst (f_args d))) \/ In x (copies e)).
Proof.
  cbn [copies]. rewrite in_except, in_app_iff, filter_In, andb_true_iff, !negb_true_iff,
    String.eqb_neq, mem_false. tauto.
Qed.

Lemma in_results x e : In x (results e) <-> result x e.
Proof.
  induction e as [l|y|o es IH|c t e IHc IHt IHe|a alts de IHa IHalts IHde|y t b e IHb IHe
                  |d e IHd IHe|o y t e IHo IHe|xs e IHe|xs e IHe] using expr_ind'; cbn [results];
    try (split; [intros []|intros H; inversion H]; fail).
  - split; [intros [->|[]]; constructor|intros H; inversion H; left; reflexivity].
  - rewrite in_app_iff, in_except, IHb, IHe. split.
    + intros [H|[H Hn]]; [constructor|apply result_let_body]; assumption.
    + intros H. inversion H; subst; auto.
  - rewrite in_except, IHe. split; [intros [H Hn]; constructor; assumption|intros H; inversion H; auto].
Qed.

Lemma in_copies x e : In x (copies e) <-> copied x e.
Proof.
  induction e as [l|y|o es IH|c t e IHc IHt IHe|a alts de IHa IHalts IHde|y t b e IHb IHe
                  |d e IHd IHe|o y t e IHo IHe|xs e IHe|xs e IHe] using expr_ind'; rewrite ?Forall_forall in *.
  - split; [intros []|intros H; inversion H].
  - split; [intros []|intros H; inversion H].
  - cbn [copies]. rewrite in_flat_map. split.
    + intros (e & He & H). econstructor; [exact He|]. apply IH; assumption.
    + intros H. inversion H as [|o' es' e He Hc| | | | | | | | | | | | | |]; subst. exists e. split; [exact He|]. apply IH; assumption.
  - cbn [copies]. rewrite !in_app_iff, IHc, IHt, IHe. split.
    + intros [H|[H|H]]; [apply copied_if_1|apply copied_if_2|apply copied_if_3]; assumption.
    + intros H. inversion H; subst; auto.
  - cbn [copies]. rewrite !in_app_iff, in_flat_map, IHa. split.
    + intros [H|[(al & Hal & H)|H]].
      * apply copied_case_argument. assumption.
      * apply in_except in H as [H Hn]. eapply copied_case_alternative; [exact Hal|exact Hn|]. apply IHalts; assumption.
      * destruct de as [[y e]|]; [|destruct H]. apply in_except in H as [H Hn]. apply copied_case_default; [exact Hn|].
        apply (IHde _ _ eq_refl). assumption.
    + intros H. inversion H; subst.
      * auto.
      * right. left. exists al. split; [assumption|]. apply in_except. split; [|assumption]. apply IHalts; assumption.
      * right. right. apply in_except. split; [|assumption]. apply (IHde _ _ eq_refl). assumption.
  - cbn [copies]. rewrite !in_app_iff, in_except, IHb, IHe, in_results. split.
    + intros [H|[H|[H Hn]]]; [apply copied_here|apply copied_let_bound|apply copied_let_body]; assumption.
    + intros H. inversion H; subst; auto.
  - rewrite in_copies_letrec, IHd, IHe. split.
    + intros [Hn [[H Ha]|H]]; [apply copied_letrec_definition|apply copied_letrec_body]; assumption.
    + intros H. inversion H; subst; auto.
  - cbn [copies]. rewrite in_app_iff, in_except, IHo, IHe. split.
    + intros [H|[H Hn]]; [apply copied_try_operand|apply copied_try_body]; assumption.
    + intros H. inversion H; subst; auto.
  - cbn [copies]. rewrite IHe. split; [intros H; constructor; assumption|intros H; inversion H; assumption].
  - cbn [copies]. rewrite IHe. split; [intros H; constructor; assumption|intros H; inversion H; assumption].
Qed.

Lemma results_free e x : In x (results e) -> In x (fv e).
Proof.
  induction e as [l|y|o es IH|c t e IHc IHt IHe|a alts de IHa IHalts IHde|y t b e IHb IHe
                  |d e IHd IHe|o y t e IHo IHe|xs e IHe|xs e IHe] using expr_ind'; cbn [results]; try (intros []; fail).
  - auto.
  - cbn [fv]. rewrite !in_app_iff, !in_except. tauto.
  - rewrite in_except, in_fv_letrec. tauto.
Qed.

Lemma copies_free e : forall x, In x (copies e) -> In x (fv e).
Proof.
  induction e as [l|y|o es IH|c t e IHc IHt IHe|a alts de IHa IHalts IHde|y t b e IHb IHe
                  |d e IHd IHe|o y t e IHo IHe|xs e IHe|xs e IHe] using expr_ind'; intros x Hx; rewrite ?Forall_forall in *.
  - destruct Hx.
  - destruct Hx.
  - cbn [copies fv] in *. apply in_flat_map in Hx as (e & He & Hx). apply in_flat_map. eauto.
  - cbn [copies fv] in *. rewrite !in_app_iff in *. intuition auto.
  - cbn [copies fv] in *. rewrite !in_app_iff, !in_flat_map in *. destruct Hx as [Hx|[(al & Hal & Hx)|Hx]].
    + auto.
    + right. left. exists al. rewrite in_except in *. destruct Hx. auto.
    + destruct de as [[y e]|]; [|destruct Hx]. right. right. rewrite in_except in *. destruct Hx. split; [|assumption].
      apply (IHde _ _ eq_refl). assumption.
  - cbn [copies fv] in *. rewrite !in_app_iff, !in_except in *. pose proof (results_free b x). intuition auto.
  - rewrite in_copies_letrec in Hx. rewrite in_fv_letrec. intuition auto.
  - cbn [copies fv] in *. rewrite !in_app_iff, !in_except in *. intuition auto.
  - apply IHe. exact Hx.
  - apply IHe. exact Hx.
Qed.

Lemma lets_binders e : forall x, In x (lets e) -> In x (binders e).
Proof.
  induction e as [l|y|o es IH|c t e IHc IHt IHe|a alts de IHa IHalts IHde|y t b e IHb IHe
                  |d e IHd IHe|o y t e IHo IHe|xs e IHe|xs e IHe] using expr_ind'; intros x Hx; rewrite ?Forall_forall in *;
    cbn [lets binders] in *; auto.
  - apply in_flat_map in Hx as (e & He & Hx). apply in_flat_map. eauto.
  - rewrite !in_app_iff in *. intuition auto.
  - rewrite !in_app_iff, !in_flat_map in *. destruct Hx as [Hx|[(al & Hal & Hx)|Hx]].
    + auto.
    + right. left. exists al. split; [assumption|right; auto].
    + destruct de as [[y e]|]; [|destruct Hx]. right. right. right. apply (IHde _ _ eq_refl). assumption.
  - cbn [In] in *. rewrite !in_app_iff in *. intuition auto.
  - cbn [In] in *. rewrite !in_app_iff in *. intuition auto.
  - cbn [In] in *. rewrite !in_app_iff in *. intuition auto.
Qed.

Definition loose (e : expr) : Prop :=
  NoDup (binders e) /\ apart (fv e) (lets e) /\ apart (copies e) (binders e).

Lemma uniq_loose e : uniq e -> loose e.
Proof.
  intros [N D]. split; [assumption|]. split; intros x H1 H2; apply (D x).
  - assumption.
  - apply lets_binders. assumption.
  - apply copies_free. assumption.
  - assumption.
Qed.

(** What is bound around a part of an expression is not bound in it. *)
Lemma loose_part e e1 bs : loose e -> NoDup (binders e1) ->
  (forall x, In x (fv e1) -> In x (fv e) \/ In x bs) ->
  (forall x, In x (copies e1) -> In x (copies e) \/ In x bs) ->
  (forall x, In x (lets e1) -> In x (lets e)) ->
  (forall x, In x (binders e1) -> In x (binders e)) ->
  apart bs (binders e1) -> loose e1.
Proof.
  intros (N & D & C) N1 Hf Hc Hl Hb A. split; [assumption|]. split; intros x H1 H2.
  - destruct (Hf x H1) as [H|H]; [apply (D x); auto|]. apply (A x H). apply lets_binders. assumption.
  - destruct (Hc x H1) as [H|H]; [apply (C x); auto|]. exact (A x H H2).
Qed.

Lemma loose_op o es e : loose (Op o es) -> In e es -> loose e.
Proof.
  intros L He. apply (loose_part _ _ [] L).
  - destruct L as [N _]. eapply nodup_flat_map; eassumption.
  - intros x Hx. left. apply in_flat_map. eauto.
  - intros x Hx. left. apply in_flat_map. eauto.
  - intros x Hx. apply in_flat_map. eauto.
  - intros x Hx. apply in_flat_map. eauto.
  - intros x [].
Qed.

Lemma loose_if c t e : loose (If c t e) ->
  loose c /\ loose t /\ loose e /\ apart (fv t) (lets c) /\ apart (fv e) (lets c).
Proof.
  intros L. pose proof L as (N & D & C). cbn [binders fv lets copies] in N, D, C. apply nodup_app_iff in N as (N1 & N2 & N3).
  apply nodup_app_iff in N2 as (N2 & N4 & N5).
  repeat match goal with |- _ /\ _ => split end; try (apply (loose_part _ _ [] L); cbn [binders fv lets copies]; auto;
    intros x; rewrite ?in_app_iff; cbn [In]; tauto).
  - intros x H1 H2. apply (D x); rewrite ?in_app_iff; auto.
  - intros x H1 H2. apply (D x); rewrite ?in_app_iff; auto.
Qed.

Lemma loose_case_argument a alts de : loose (Case a alts de) -> loose a.
Proof.
  intros L. pose proof L as (N & D & C). cbn [binders] in N. apply nodup_app_iff in N as (N1 & N2 & N3).
  apply (loose_part _ _ [] L); cbn [binders fv lets copies]; auto; intros x; rewrite ?in_app_iff; cbn [In]; tauto.
Qed.

Lemma loose_case_alternative a alts de al : loose (Case a alts de) -> In al alts ->
  loose (a_body al) /\ ~ In (a_name al) (binders (a_body al)) /\ apart (fv (a_body al)) (lets a).
Proof.
  intros L Hal. pose proof L as (N & D & C). cbn [binders fv lets copies] in N, D, C. apply nodup_app_iff in N as (N1 & N2 & N3).
  apply nodup_app_iff in N2 as (N2 & _).
  pose proof (nodup_flat_map _ _ _ N2 Hal) as N4. apply NoDup_cons_iff in N4 as [N4 N5].
  repeat match goal with |- _ /\ _ => split end.
  - apply (loose_part _ _ [a_name al] L); cbn [binders fv lets copies]; auto.
    + intros x Hx. destruct (string_dec x (a_name al)) as [->|Hne]; [right; left; reflexivity|]. left.
      rewrite !in_app_iff, in_flat_map. right. left. exists al. rewrite in_except. auto.
    + intros x Hx. destruct (string_dec x (a_name al)) as [->|Hne]; [right; left; reflexivity|]. left.
      rewrite !in_app_iff, in_flat_map. right. left. exists al. rewrite in_except. auto.
    + intros x Hx. rewrite !in_app_iff, in_flat_map. right. left. eauto.
    + intros x Hx. rewrite !in_app_iff, in_flat_map. right. left. exists al. split; [assumption|right; assumption].
    + intros x [<-|[]]. assumption.
  - assumption.
  - intros x H1 H2. destruct (string_dec x (a_name al)) as [->|Hne].
    + apply (N3 (a_name al)); [apply lets_binders; assumption|]. rewrite in_app_iff, in_flat_map. left. exists al.
      split; [assumption|left; reflexivity].
    + apply (D x); rewrite !in_app_iff; [|auto]. right. left. apply in_flat_map. exists al. rewrite in_except. auto.
Qed.

Lemma loose_case_default a alts y e : loose (Case a alts (Some (y, e))) ->
  loose e /\ ~ In y (binders e) /\ apart (fv e) (lets a).
Proof.
  intros L. pose proof L as (N & D & C). cbn [binders fv lets copies] in N, D, C. apply nodup_app_iff in N as (N1 & N2 & N3).
  apply nodup_app_iff in N2 as (_ & N2 & _). apply NoDup_cons_iff in N2 as [N4 N5].
  repeat match goal with |- _ /\ _ => split end.
  - apply (loose_part _ _ [y] L); cbn [binders fv lets copies]; auto.
    + intros x Hx. destruct (string_dec x y) as [->|Hne]; [right; left; reflexivity|]. left. rewrite !in_app_iff, in_except. auto.
    + intros x Hx. destruct (string_dec x y) as [->|Hne]; [right; left; reflexivity|]. left. rewrite !in_app_iff, in_except. auto.
    + intros x Hx. rewrite !in_app_iff. auto.
    + intros x Hx. rewrite !in_app_iff. right. right. right. assumption.
    + intros x [<-|[]]. assumption.
  - assumption.
  - intros x H1 H2. destruct (string_dec x y) as [->|Hne].
    + apply (N3 y); [apply lets_binders; assumption|]. rewrite in_app_iff. right. left. reflexivity.
    + apply (D x); rewrite !in_app_iff; [|auto]. right. right. apply in_except. auto.
Qed.

Lemma loose_let x t b e : loose (Let x t b e) ->
  loose b /\ loose e /\ apart (fv e) (lets b) /\ apart (results b) (x :: binders e).
Proof.
  intros L. pose proof L as (N & D & C). cbn [binders fv lets copies] in N, D, C.
  apply NoDup_cons_iff in N as (N0 & N). rewrite in_app_iff in N0. apply nodup_app_iff in N as (N1 & N2 & N3).
  repeat match goal with |- _ /\ _ => split end.
  - apply (loose_part _ _ [] L); cbn [binders fv lets copies]; auto; intros y; cbn [In]; rewrite ?in_app_iff; tauto.
  - apply (loose_part _ _ [x] L); cbn [binders fv lets copies]; auto.
    + intros y Hy. destruct (string_dec y x) as [->|Hne]; [right; left; reflexivity|]. left. rewrite in_app_iff, in_except. auto.
    + intros y Hy. destruct (string_dec y x) as [->|Hne]; [right; left; reflexivity|]. left. rewrite !in_app_iff, in_except. auto.
    + intros y Hy. right. rewrite in_app_iff. auto.
    + intros y Hy. right. rewrite in_app_iff. auto.
    + intros y [<-|[]]. tauto.
  - intros y H1 H2. destruct (string_dec y x) as [->|Hne].
    + apply N0. left. apply lets_binders. assumption.
    + apply (D y); [rewrite in_app_iff, in_except; auto|]. right. rewrite in_app_iff. auto.
  - intros y H1 H2. apply (C y); [rewrite in_app_iff; auto|]. cbn [In] in *. rewrite in_app_iff. tauto.
Qed.

Lemma loose_try x t b e : loose (Try b x t e) ->
  loose b /\ loose e /\ apart (fv e) (lets b).
Proof.
  intros L. pose proof L as (N & D & C). cbn [binders fv lets copies] in N, D, C.
  apply NoDup_cons_iff in N as (N0 & N). rewrite in_app_iff in N0. apply nodup_app_iff in N as (N1 & N2 & N3).
  repeat match goal with |- _ /\ _ => split end.
  - apply (loose_part _ _ [] L); cbn [binders fv lets copies]; auto; intros y; cbn [In]; rewrite ?in_app_iff; tauto.
  - apply (loose_part _ _ [x] L); cbn [binders fv lets copies]; auto.
    + intros y Hy. destruct (string_dec y x) as [->|Hne]; [right; left; reflexivity|]. left. rewrite in_app_iff, in_except. auto.
    + intros y Hy. destruct (string_dec y x) as [->|Hne]; [right; left; reflexivity|]. left. rewrite !in_app_iff, in_except. auto.
    + intros y Hy. rewrite in_app_iff. auto.
    + intros y Hy. right. rewrite in_app_iff. auto.
    + intros y [<-|[]]. tauto.
  - intros y H1 H2. destruct (string_dec y x) as [->|Hne].
    + apply N0. left. apply lets_binders. assumption.
    + apply (D y); rewrite in_app_iff; [|auto]. rewrite in_except. auto.
Qed.

Lemma loose_letrec d e : loose (LetRec d e) -> loose (f_body d) /\ loose e.
Proof.
  intros L. pose proof L as (N & D & C). cbn [binders] in N.
  apply NoDup_cons_iff in N as (N0 & N). rewrite !in_app_iff in N0.
  apply nodup_app_iff in N as (N1 & N2 & N3). apply nodup_app_iff in N2 as (N2 & N4 & N5).
  split.
  - apply (loose_part _ _ (f_name d :: map fst (f_args d)) L); cbn [binders lets]; auto.
    + intros y Hy. rewrite in_fv_letrec. cbn [In]. destruct (string_dec y (f_name d)) as [->|Hne]; [auto|].
      destruct (in_dec string_dec y (map fst (f_args d))); tauto.
    + intros y Hy. rewrite in_copies_letrec. cbn [In]. destruct (string_dec y (f_name d)) as [->|Hne]; [auto|].
      destruct (in_dec string_dec y (map fst (f_args d))); tauto.
    + intros y Hy. right. rewrite in_app_iff. auto.
    + intros y Hy. right. rewrite !in_app_iff. auto.
    + intros y [<-|Hy] Hb; [tauto|]. apply (N3 y Hy). rewrite in_app_iff. auto.
  - apply (loose_part _ _ [f_name d] L); cbn [binders lets]; auto.
    + intros y Hy. rewrite in_fv_letrec. cbn [In]. destruct (string_dec y (f_name d)) as [->|Hne]; tauto.
    + intros y Hy. rewrite in_copies_letrec. cbn [In]. destruct (string_dec y (f_name d)) as [->|Hne]; tauto.
    + intros y Hy. right. rewrite in_app_iff. auto.
    + intros y Hy. right. rewrite !in_app_iff. auto.
    + intros y [<-|[]]. tauto.
Qed.
