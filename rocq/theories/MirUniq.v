(** Expressions whose binders are distinct and do not shadow free variables. *)
From Coq Require Import String List Bool.
From Verif Require Import Base Mir MirSim MirScopeSpec MirEnv MirEnvProofs.
Import ListNotations.

Lemma nodup_app_iff {A} (a b : list A) :
  NoDup (a ++ b) <-> NoDup a /\ NoDup b /\ forall x, In x a -> In x b -> False.
Proof.
  induction a as [|x a IH]; cbn.
  - split; [intros H; repeat split; [constructor|assumption|intros ? []]|tauto].
  - rewrite !NoDup_cons_iff, IH, in_app_iff. split.
    + intros (H1 & H2 & H3 & H4). repeat split; auto.
      intros y [<-|Hy] Hb; [tauto|eauto].
    + intros ((H1 & H2) & H3 & H4). repeat split; auto.
      * intros [H|H]; [auto|]. apply (H4 x); auto.
      * intros y Hy Hb. apply (H4 y); auto.
Qed.

Lemma nodup_flat_map {A} (f : A -> list string) l a : NoDup (flat_map f l) -> In a l -> NoDup (f a).
Proof.
  induction l as [|b l IH]; cbn; intros H Ha; [destruct Ha|].
  apply nodup_app_iff in H as (H1 & H2 & _). destruct Ha as [->|Ha]; auto.
Qed.

(** Distinct binders, none of which is also free. *)
Definition uniq (e : expr) : Prop :=
  NoDup (binders e) /\ forall x, In x (fv e) -> In x (binders e) -> False.

(** Neither free in nor bound by. *)
Definition apart (xs ys : list string) : Prop := forall x, In x xs -> In x ys -> False.

Lemma uniq_op o es e : uniq (Op o es) -> In e es -> uniq e.
Proof.
  intros [N D] He. cbn in *. split.
  - eapply nodup_flat_map; eassumption.
  - intros x H1 H2. apply (D x); apply in_flat_map; eauto.
Qed.

Lemma uniq_if c t e : uniq (If c t e) ->
  uniq c /\ uniq t /\ uniq e /\ apart (fv t) (binders c) /\ apart (fv e) (binders c) /\
  apart (binders c) (binders t) /\ apart (binders c) (binders e) /\ apart (binders t) (binders e).
Proof.
  intros [N D]. cbn in *. apply nodup_app_iff in N as (N1 & N2 & N3).
  apply nodup_app_iff in N2 as (N2 & N4 & N5).
  unfold uniq, apart.
  repeat split; auto; intros x H1 H2;
    try (apply (D x); rewrite !in_app_iff; auto; fail);
    try (apply (N3 x); rewrite ?in_app_iff; auto; fail).
Qed.

Lemma uniq_case_argument a alts de : uniq (Case a alts de) -> uniq a.
Proof.
  intros [N D]. cbn in *. apply nodup_app_iff in N as (N1 & N2 & N3). split; auto.
  intros x H1 H2. apply (D x); rewrite in_app_iff; auto.
Qed.

Lemma uniq_case_alternative a alts de al : uniq (Case a alts de) -> In al alts ->
  uniq (a_body al) /\ ~ In (a_name al) (binders (a_body al)) /\
  apart (fv (a_body al)) (binders a).
Proof.
  intros [N D] Hal. cbn in *. apply nodup_app_iff in N as (N1 & N2 & N3).
  apply nodup_app_iff in N2 as (N2 & _).
  pose proof (nodup_flat_map _ _ _ N2 Hal) as N4. apply NoDup_cons_iff in N4 as [N4 N5].
  assert (Hin : In (a_name al) (flat_map (fun al => a_name al :: binders (a_body al)) alts)).
  { apply in_flat_map. exists al. split; [assumption|left; reflexivity]. }
  unfold uniq, apart. repeat split; auto; intros x H1 H2; destruct (string_dec x (a_name al)) as [->|Hne]; auto.
  - apply (D x); rewrite !in_app_iff, in_flat_map.
    + right. left. exists al. split; [assumption|]. apply in_except. auto.
    + right. left. exists al. split; [assumption|right; assumption].
  - apply (N3 (a_name al)); [assumption|]. rewrite in_app_iff. auto.
  - apply (D x); rewrite !in_app_iff; auto. right. left. apply in_flat_map. exists al.
    split; [assumption|]. apply in_except. auto.
Qed.

Lemma uniq_case_default a alts y e : uniq (Case a alts (Some (y, e))) ->
  uniq e /\ ~ In y (binders e) /\ apart (fv e) (binders a).
Proof.
  intros [N D]. cbn in *. apply nodup_app_iff in N as (N1 & N2 & N3).
  apply nodup_app_iff in N2 as (_ & N2 & _). apply NoDup_cons_iff in N2 as [N4 N5].
  unfold uniq, apart. repeat split; auto; intros x H1 H2; destruct (string_dec x y) as [->|Hne]; auto.
  - apply (D x); rewrite !in_app_iff.
    + right. right. apply in_except. auto.
    + right. right. right. assumption.
  - apply (N3 y); [assumption|]. rewrite in_app_iff. right. left. reflexivity.
  - apply (D x); rewrite !in_app_iff; auto. right. right. apply in_except. auto.
Qed.

Lemma uniq_let x t b e : uniq (Let x t b e) ->
  uniq b /\ uniq e /\ ~ In x (binders b) /\ ~ In x (binders e) /\ ~ In x (fv b) /\
  apart (fv e) (binders b) /\ apart (fv b) (binders e) /\ apart (binders b) (binders e).
Proof.
  intros [N D]. cbn in *. apply NoDup_cons_iff in N as (N0 & N). rewrite in_app_iff in N0.
  apply nodup_app_iff in N as (N1 & N2 & N3).
  unfold uniq, apart. repeat split; auto.
  - intros y H1 H2. apply (D y); [rewrite in_app_iff; auto|]. right. rewrite in_app_iff. auto.
  - intros y H1 H2. destruct (string_dec y x) as [->|Hne]; [auto|].
    apply (D y); [rewrite in_app_iff, in_except; auto|]. right. rewrite in_app_iff. auto.
  - intros H. apply (D x); [rewrite in_app_iff; auto|]. left. reflexivity.
  - intros y H1 H2. destruct (string_dec y x) as [->|Hne]; [auto|].
    apply (D y); [rewrite in_app_iff, in_except; auto|]. right. rewrite in_app_iff. auto.
  - intros y H1 H2. apply (D y); [rewrite in_app_iff; auto|]. right. rewrite in_app_iff. auto.
Qed.

Lemma uniq_try x t b e : uniq (Try b x t e) ->
  uniq b /\ uniq e /\ ~ In x (binders b) /\ ~ In x (binders e) /\
  apart (fv e) (binders b) /\ apart (binders b) (binders e).
Proof.
  intros [N D]. cbn in *. apply NoDup_cons_iff in N as (N0 & N). rewrite in_app_iff in N0.
  apply nodup_app_iff in N as (N1 & N2 & N3).
  unfold uniq, apart. repeat split; auto.
  - intros y H1 H2. apply (D y); [rewrite in_app_iff; auto|]. right. rewrite in_app_iff. auto.
  - intros y H1 H2. destruct (string_dec y x) as [->|Hne]; [auto|].
    apply (D y); [rewrite in_app_iff, in_except; auto|]. right. rewrite in_app_iff. auto.
  - intros y H1 H2. destruct (string_dec y x) as [->|Hne]; [auto|].
    apply (D y); [rewrite in_app_iff, in_except; auto|]. right. rewrite in_app_iff. auto.
Qed.

(** Distinct names in a definition: its name, its arguments and the binders of
    its body. *)
Definition uniq_def (d : fdef) : Prop :=
  uniq (f_body d) /\ ~ In (f_name d) (binders (f_body d)) /\
  apart (map fst (f_args d)) (binders (f_body d)).

Lemma uniq_letrec d e : uniq (LetRec d e) ->
  uniq_def d /\ uniq e /\ ~ In (f_name d) (binders e) /\
  apart (map fst (f_args d)) (binders e) /\ apart (binders (f_body d)) (binders e) /\
  apart (fv e) (binders (f_body d)).
Proof.
  intros [N D]. cbn [binders] in *. apply NoDup_cons_iff in N as (N0 & N). rewrite !in_app_iff in N0.
  apply nodup_app_iff in N as (N1 & N2 & N3). apply nodup_app_iff in N2 as (N2 & N4 & N5).
  assert (D' : forall x, In x (fv (LetRec d e)) ->
             x = f_name d \/ In x (map fst (f_args d)) \/ In x (binders (f_body d)) \/ In x (binders e) -> False).
  { intros x H1 H2. apply (D x H1). cbn. rewrite !in_app_iff. intuition auto. }
  unfold uniq_def, uniq, apart. repeat split; auto.
  - intros x H1 H2. destruct (string_dec x (f_name d)) as [->|Hne]; [tauto|].
    destruct (in_dec string_dec x (map fst (f_args d))) as [Ha|Ha].
    + apply (N3 x Ha). rewrite in_app_iff. auto.
    + apply (D' x); [|auto]. apply in_fv_letrec. auto.
  - intros x H1 H2. apply (N3 x H1). rewrite in_app_iff. auto.
  - intros x H1 H2. destruct (string_dec x (f_name d)) as [->|Hne]; [tauto|].
    apply (D' x); [|auto]. apply in_fv_letrec. auto.
  - intros x H1 H2. apply (N3 x H1). rewrite in_app_iff. auto.
  - intros x H1 H2. destruct (string_dec x (f_name d)) as [->|Hne]; [tauto|].
    apply (D' x); [|auto]. apply in_fv_letrec. auto.
Qed.
