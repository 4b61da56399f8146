(** The variables of exactly typed expressions are in scope. *)
From Coq Require Import String Ascii List ZArith Bool Lia.
From Verif Require Import Base Mir HirType HirTypeSpec Hir HirSpec HirParts HirExact HirModule HirMain HirMir LowerTypeSpec LowerTypeMain.
Import ListNotations.
Local Open Scope string_scope.
Local Open Scope list_scope.

Definition placed E R (ns : list string) (p : hexpr) : Prop := (exists b, p = HBuiltIn b) \/ exists G t, exact E R G p t /\ incl (map fst G) ns.

Lemma placed_intro E R ns G p t : exact E R G p t -> incl (map fst G) ns -> placed E R ns p.
Proof. right. eauto. Qed.
Lemma placed_more E R ns ns' p : placed E R ns p -> incl ns ns' -> placed E R ns' p.
Proof. intros [H|(G & t & H & I)] J; [left; exact H|right]. exists G, t. split; [exact H|]. intros x Hx. apply J, I, Hx. Qed.

Lemma fst_combine {A} (l : list string) : forall l' : list A, incl (map fst (rev (combine l l'))) l.
Proof.
  intros l' x Hx. apply in_map_iff in Hx. destruct Hx as ([y a] & <- & Hy). apply in_rev in Hy. apply in_combine_l in Hy. exact Hy.
Qed.

Lemma exact_scope E R G e t : exact E R G e t -> forall p, In p (parts e) -> placed E R (map fst G ++ bound e) p.
Proof.
  intros H.
  apply (exact_min E R (fun G e t => forall p, In p (parts e) -> placed E R (map fst G ++ bound e) p)
    (fun G bs G' => (forall p, In p (flat_map branch_parts bs) -> placed E R (map fst G ++ flat_map b_names bs) p) /\
      incl (map fst G') (map fst G ++ flat_map b_names bs))) with (v := G) (h := e) (t := t); try exact H; clear;
  unfold parts; cbn [eager_parts lazy_parts bodies map snd app bound]; try (intros; destruct H; fail); intros.
  all: rewrite ?app_nil_r in *; cbn [In app] in *; rewrite ?in_app_iff in *; cbn [In] in *.
  all: repeat match goal with X : _ \/ _ |- _ => destruct X | X : False |- _ => destruct X | X : ?a = ?b |- placed _ _ _ ?b => subst b end; auto.
  all: try (match goal with X : exact _ _ ?G' ?p _ |- placed _ _ _ ?p => solve [apply (placed_intro _ _ _ _ _ _ X); intros y; cbn [map fst In]; rewrite ?in_app_iff; cbn [In]; tauto] end).
  all: try (left; eauto; fail).
  all: try (match goal with IH : forall p, _ -> _ |- _ => apply IH; rewrite !in_app_iff; tauto end; fail).
  - destruct (combine_left args ts p) as [t Ht]; try assumption. eapply placed_intro; [eauto|apply incl_refl].
  - destruct (combine_left args ts p) as [t Ht]; try assumption. eapply placed_intro; [eauto|apply incl_refl].
  - match goal with X : In p (map snd _) |- _ => apply in_map_iff in X; destruct X as ([bt b] & <- & X) end. cbn [snd]. eapply placed_intro; [eauto|]. intros y; cbn; rewrite in_app_iff; cbn; tauto.
  - match goal with X : In p (map snd _) |- _ => apply in_map_iff in X; destruct X as ([bt b] & <- & X) end. cbn [snd]. eapply placed_intro; [eauto|]. intros y; cbn; rewrite in_app_iff; cbn; tauto.
  - eapply placed_intro; [eassumption|]. intros y. rewrite map_app, map_rev, !in_app_iff, <- in_rev. tauto.
  - match goal with X : In p (flat_map _ _) |- _ => apply in_flat_map in X; destruct X as ([a|a] & X & [<-|[]]) end; (eapply placed_intro; [eauto|apply incl_refl]).
  - match goal with X : _ /\ _ |- _ => destruct X as [X1 X2] end. auto.
  - match goal with X : _ /\ _ |- _ => destruct X as [X1 X2] end. eapply placed_intro; eassumption.
  - match goal with X : In p (flat_map _ _) |- _ => apply in_flat_map in X; destruct X as ([a b|a] & X & Hp) end; cbn [map_parts In] in Hp;
      repeat destruct Hp as [<-|Hp]; try destruct Hp; (eapply placed_intro; [eauto|apply incl_refl]).
  - match goal with X : In p (map snd _) |- _ => apply in_map_iff in X; destruct X as ([x b] & <- & X) end. cbn [snd].
    destruct (lookup fts x) as [ft|] eqn:L; [eapply placed_intro; [eauto|apply incl_refl]|]. exfalso. eapply H1; eassumption.
  - match goal with X : In p (map snd _) |- _ => apply in_map_iff in X; destruct X as ([x b] & <- & X) end. cbn [snd].
    destruct (lookup fts x) as [ft|] eqn:L; [eapply placed_intro; [eauto|apply incl_refl]|]. exfalso. match goal with X : forall x e, In (x, e) fs -> _ <> None |- _ => eapply X; eassumption end.
  - split; [intros p []|]. intros y Hy. rewrite ?app_nil_r. exact Hy.
  - match goal with X : _ /\ _ |- _ => destruct X as [X1 X2] end. pose proof (fst_combine names (map (TFunction []) ets)) as Fc.
    assert (I : forall ns : list string, incl (map fst (rev (combine names (map (TFunction []) ets)) ++ G) ++ ns) (map fst G ++ names ++ ns)).
    { intros ns y. rewrite map_app, !in_app_iff. intros [[Hy|Hy]|Hy]; auto. }
    split.
    + cbn [flat_map b_names]. intros p Hp. apply in_app_or in Hp. destruct Hp as [Hp|Hp]; [|eapply placed_more; [apply X1, Hp|apply I]].
      unfold branch_parts in Hp. cbn [b_iteratees b_condition] in Hp. apply in_app_or in Hp. destruct Hp as [Hp|Hp].
      * apply in_map_iff in Hp. destruct Hp as ([t e] & <- & Hp). destruct (combine_left its ets (t, e)) as [et Het]; [congruence|assumption|].
        eapply placed_intro; [eauto|]. intros y Hy. apply in_or_app. auto.
      * destruct cond as [c|]; [|destruct Hp]. destruct Hp as [<-|[]]. eapply placed_intro; [eauto|]. intros y Hy. specialize (I [] y). rewrite !app_nil_r in I. apply I in Hy.
        rewrite !in_app_iff in *. tauto.
    + intros y Hy. apply X2, I in Hy. exact Hy.
Qed.

(** Every expression in an exactly typed one is exactly typed, in the scope of
    the names bound around it. *)
Lemma occurs_placed E R e : forall x ns, placed E R ns e -> occurs x e -> placed E R ns x \/
  exists G t, exact E R G x t /\ forall y, In y (map fst G) -> In y ns \/ exists b, occurs b e /\ In y (bound b).
Proof.
  induction e as [e IH] using parts_ind. intros x ns P H. destruct (occurs_cases _ _ H) as [->|(p & Hp & Hx)].
  - left. exact P.
  - destruct P as [(b & ->)|(G & t & He & I)]; [destruct Hp|]. pose proof (exact_scope E R G e t He p Hp) as Pp.
    destruct (IH p Hp x _ Pp Hx) as [[Q|(G' & t' & H' & I')]|(G' & t' & H' & I')]; [left; left; exact Q| |]; right; exists G', t'; (split; [exact H'|]); intros y Hy.
    + apply I' in Hy. apply in_app_or in Hy. destruct Hy as [Hy|Hy]; [left; apply I, Hy|right]. exists e. split; [exists None, None; constructor|exact Hy].
    + apply I' in Hy. destruct Hy as [Hy|(b & Hb & Hy)]; [|right; exists b; split; [eapply occurs_in_part; eassumption|exact Hy]].
      apply in_app_or in Hy. destruct Hy as [Hy|Hy]; [left; apply I, Hy|right]. exists e. split; [exists None, None; constructor|exact Hy].
Qed.

Lemma occurs_scope E R G e t x : exact E R G e t -> occurs x e -> (exists b, x = HBuiltIn b) \/
  exists G' t', exact E R G' x t' /\ forall y, In y (map fst G') -> In y (map fst G) \/ exists b, occurs b e /\ In y (bound b).
Proof.
  intros H Hx. destruct (occurs_placed E R e x (map fst G)) as [[Q|(G' & t' & H' & I')]|H']; [eapply placed_intro; [exact H|apply incl_refl]|exact Hx|left; exact Q| |right; exact H'].
  right. exists G', t'. split; [exact H'|]. intros y Hy. apply I' in Hy. auto.
Qed.

Lemma exact_variable E R G e t : exact E R G e t -> forall x, e = HVariable x -> In x (map fst G).
Proof.
  induction 1; intros y Q; try discriminate; try (eapply IHexact; exact Q); try (eapply IHexact1; exact Q). injection Q as <-.
  apply lookup_In in H. apply in_map_iff. exists (x, t). auto.
Qed.

Lemma exact_record E R G e t : exact E R G e t -> forall u, accessed e = Some u ->
  exists v name o, u = Some v /\ teq E v (TRecord name o) /\ lookup R name <> None.
Proof.
  induction 1; intros u0 Q; try discriminate; try (eapply IHexact; exact Q); cbn in Q; injection Q as <-; exists t, name, o; (split; [reflexivity|split; [assumption|congruence]]).
Qed.

(** The variables of an exactly typed expression are bound in it or around it. *)
Lemma variable_scope E R G e t x : exact E R G e t -> occurs (HVariable x) e -> In x (map fst G) \/ exists b, occurs b e /\ In x (bound b).
Proof.
  intros H Hx. destruct (occurs_scope E R G e t _ H Hx) as [(b & Q)|(G' & t' & H' & I')]; [discriminate|]. apply I'. eapply exact_variable; [exact H'|reflexivity].
Qed.
Lemma record_scope E R G e t x u : exact E R G e t -> occurs x e -> accessed x = Some u ->
  exists v name o, u = Some v /\ teq E v (TRecord name o) /\ lookup R name <> None.
Proof.
  intros H Hx Hu. destruct (occurs_scope E R G e t _ H Hx) as [(b & ->)|(G' & t' & H' & _)]; [discriminate|]. eapply exact_record; eassumption.
Qed.
