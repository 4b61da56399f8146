(** Modules with distinct names hide nothing. *)
From Coq Require Import String List.
From Verif Require Import Base Mir MirSim MirScopeSpec MirNormSpec MirEnv MirEnvProofs MirUniq MirRc MirRcSpec MirRcProofs MirRcFunction.
Import ListNotations.

Lemma operands_distinct es :
  Forall (fun e => uniq e -> forall L : string -> Prop, (forall x, L x -> In x (binders e) -> False) -> hides_none L e) es ->
  NoDup (flat_map binders es) -> apart (flat_map fv es) (flat_map binders es) ->
  forall L : string -> Prop, (forall x, L x -> In x (flat_map binders es) -> False) -> operands_hide_none hides_none L es.
Proof.
  induction 1 as [|e es He _ IH]; intros N D L HL; [exact I|]. cbn [flat_map] in *.
  apply nodup_app_iff in N as (N1 & N2 & N3). split.
  - apply He.
    + split; [assumption|]. intros x H1 H2. apply (D x); rewrite in_app_iff; auto.
    + intros x [Hx|(e' & He' & Hx)] Hb; [apply (HL x Hx); rewrite in_app_iff; auto|].
      apply (D x); rewrite in_app_iff; [|auto]. right. apply in_flat_map. exists e'. split; [assumption|].
      apply fv_free. assumption.
  - apply IH; [assumption| |].
    + intros x H1 H2. apply (D x); rewrite in_app_iff; auto.
    + intros x Hx Hb. apply (HL x Hx). rewrite in_app_iff. auto.
Qed.

Lemma branches_distinct (L B : string -> Prop) alts :
  (forall al, In al alts -> ~ L (a_name al) /\ ~ B (a_name al) /\ hides_none L (a_body al)) ->
  branches_hide_none hides_none L B alts.
Proof.
  induction alts as [|al alts IH]; intros H; [exact I|]. cbn [branches_hide_none].
  destruct (H al (or_introl eq_refl)) as (H1 & H2 & H3). repeat split; try assumption. apply IH. intros al1 Hal. apply H. right. assumption.
Qed.

Lemma distinct_hides_none e : uniq e -> forall L : string -> Prop, (forall x, L x -> In x (binders e) -> False) -> hides_none L e.
Proof.
  induction e as [l|y|op es IH|c t e IHc IHt IHe|a alts de IHa IHalts IHde|y t b e IHb IHe
                  |d e IHd IHe|a y t e IHo IHe|xs e IHe|xs e IHe] using expr_ind'; intros U L HL.
  - exact I.
  - exact I.
  - apply (operands_distinct es IH (proj1 U) (proj2 U) L HL).
  - destruct (uniq_if _ _ _ U) as (U1 & U2 & U3 & A1 & A2 & _). cbn [binders] in HL. repeat split.
    + apply IHc; [assumption|]. intros x [Hx|[Hx|Hx]] Hb.
      * apply (HL x Hx). rewrite in_app_iff. auto.
      * apply (A1 x); [apply fv_free|]; assumption.
      * apply (A2 x); [apply fv_free|]; assumption.
    + apply IHt; [assumption|]. intros x Hx Hb. apply (HL x Hx). rewrite !in_app_iff. auto.
    + apply IHe; [assumption|]. intros x Hx Hb. apply (HL x Hx). rewrite !in_app_iff. auto.
  - set (B := fun x => (exists al, In al alts /\ x <> a_name al /\ free x (a_body al)) \/
                       match de with Some (y, e) => x <> y /\ free x e | None => False end).
    assert (HB : forall x, B x -> In x (binders (Case a alts de)) -> False).
    { intros x Hx. apply (proj2 U x). apply fv_free. destruct Hx as [(al & H1 & H2 & H3)|Hx].
      - eapply free_case_alternative; eassumption.
      - destruct de as [[y e]|]; [|destruct Hx]. destruct Hx. apply free_case_default; assumption. }
    change (hides_none (fun x => L x \/ B x) a /\ branches_hide_none hides_none L B alts /\
            match de with Some (y, e) => ~ L y /\ ~ B y /\ hides_none L e | None => True end).
    repeat split.
    + apply IHa; [eapply uniq_case_argument; exact U|]. intros x [Hx|Hx] Hb.
      * apply (HL x Hx). cbn [binders]. rewrite in_app_iff. auto.
      * apply (HB x Hx). cbn [binders]. rewrite in_app_iff. auto.
    + apply branches_distinct. intros al Hal.
      assert (Hb : forall x, In x (a_name al :: binders (a_body al)) -> In x (binders (Case a alts de))).
      { intros x Hx. cbn [binders]. rewrite !in_app_iff. right. left. apply in_flat_map. eauto. }
      split; [intros Hx; apply (HL _ Hx), Hb; left; reflexivity|].
      split; [intros Hx; apply (HB _ Hx), Hb; left; reflexivity|].
      rewrite Forall_forall in IHalts. apply IHalts; [assumption|apply (uniq_case_alternative _ _ _ _ U Hal)|].
      intros x Hx Hi. apply (HL x Hx), Hb. right. assumption.
    + destruct de as [[y e]|]; [|exact I].
      assert (Hb : forall x, In x (y :: binders e) -> In x (binders (Case a alts (Some (y, e))))).
      { intros x Hx. cbn [binders]. rewrite !in_app_iff. auto. }
      split; [intros Hx; apply (HL _ Hx), Hb; left; reflexivity|].
      split; [intros Hx; apply (HB _ Hx), Hb; left; reflexivity|].
      apply (IHde _ _ eq_refl); [apply (uniq_case_default _ _ _ _ U)|].
      intros x Hx Hi. apply (HL x Hx), Hb. right. assumption.
  - destruct (uniq_let _ _ _ _ U) as (U1 & U2 & _). cbn [binders] in HL. repeat split.
    + intros Hx. apply (HL _ Hx). left. reflexivity.
    + apply IHb; [assumption|]. intros x [Hx|[Hne Hx]] Hb.
      * apply (HL x Hx). right. rewrite in_app_iff. auto.
      * apply (proj2 U x); cbn [fv binders].
        -- rewrite in_app_iff, in_except. right. split; [apply fv_free; assumption|congruence].
        -- right. rewrite in_app_iff. auto.
    + apply IHe; [assumption|]. intros x Hx Hb. apply (HL x Hx). right. rewrite in_app_iff. auto.
  - destruct (uniq_letrec _ _ U) as (_ & U2 & _). cbn [binders] in HL. split.
    + intros Hx. apply (HL _ Hx). left. reflexivity.
    + apply IHe; [assumption|]. intros x Hx Hb. apply (HL x Hx). right. rewrite !in_app_iff. auto.
  - destruct (uniq_try _ _ _ _ U) as (U1 & _). cbn [binders] in HL. split.
    + intros Hx. apply (HL _ Hx). left. reflexivity.
    + apply IHo; [assumption|]. intros x Hx Hb. apply (HL x Hx). right. rewrite !in_app_iff. auto.
  - apply IHe; assumption.
  - apply IHe; assumption.
Qed.

Theorem distinct_binders_hide_nothing m : distinct_binders m -> hides_nothing m.
Proof.
  intros H g Hg. destruct (H g Hg) as [D1 D2].
  assert (U : uniq (f_body g)).
  { split; [assumption|]. intros x Hx Hb. apply fv_free in Hx. exact (D2 x Hx Hb). }
  split; [apply distinct_hides_none; [assumption|intros x []]|].
  intros d e Hw. apply distinct_hides_none; [|intros x []].
  eapply uniq_within; [|exact U]. eapply within_trans; [|exact Hw]. apply within_letrec_definition. constructor.
Qed.
