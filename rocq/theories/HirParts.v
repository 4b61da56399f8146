(** Induction over the parts of an expression, and the validators that walk
    over them. *)
From Coq Require Import String List ZArith Bool Lia.
From Verif Require Import Base HirType HirTypeSpec HirTypeSub Hir HirCheck HirCoerce HirInfer HirValidate HirSpec.
Import ListNotations.

Fixpoint size (e : hexpr) : nat :=
  let sum := fun l => fold_right Nat.add 0 l in
  S match e with
    | HCall _ f args => size f + sum (map size args)
    | HIf c a b => size c + size a + size b
    | HIfList _ l _ _ a b => size l + size a + size b
    | HIfMap _ _ _ m k a b => size m + size k + size a + size b
    | HIfType _ a bs els =>
        size a + sum (map (fun b => size (snd b)) bs) + match els with None => 0 | Some (_, b) => size b end
    | HCoerce _ _ a => size a
    | HLambda _ _ b => size b
    | HLet _ _ b e' => size b + size e'
    | HList _ es => sum (map (fun el => match el with Single a => size a | Multiple a => size a end) es)
    | HComprehension _ el bs =>
        size el + sum (map (fun b => match b with
                                     | CompBranch _ its cond =>
                                         sum (map (fun it => size (snd it)) its) +
                                         match cond with None => 0 | Some c => size c end
                                     end) bs)
    | HMap _ _ es => sum (map (fun el => match el with Entry a b => size a + size b | Spread m => size m end) es)
    | HBinary _ l r => size l + size r
    | HNot a => size a
    | HTry _ a => size a
    | HRecord _ fs => sum (map (fun f => size (snd f)) fs)
    | HField _ r _ => size r
    | HUpdate _ r fs => size r + sum (map (fun f => size (snd f)) fs)
    | HThunk _ a => size a
    | HBoolean _ | HBuiltIn _ | HNone | HNumber _ | HString _ | HVariable _ => 0
    end.

Lemma sum_In {A} (f : A -> nat) l x : In x l -> f x <= fold_right Nat.add 0 (map f l).
Proof. induction l as [|y l IH]; [intros []|]. cbn. intros [->|H]; [lia|]. specialize (IH H). lia. Qed.

Lemma parts_size e p : In p (parts e) -> size p < size e.
Proof.
  unfold parts. intros H. rewrite !in_app_iff in H.
  destruct e; cbn [eager_parts lazy_parts bodies map snd In] in H; cbn [size];
    try (intuition (subst; lia)).
  - destruct H as [[->|H]|[[]|[]]]; [lia|]. pose proof (sum_In size _ _ H). lia.
  - destruct H as [[->|H]|[[]|[]]]; [lia|]. apply in_app_or in H. destruct H as [H|H].
    + apply in_map_iff in H. destruct H as (b & <- & Hb). pose proof (sum_In (fun b : ty * hexpr => size (snd b)) _ _ Hb). cbn in *. lia.
    + destruct else_ as [[o b]|]; [|destruct H]. destruct H as [<-|[]]. lia.
  - destruct H as [[]|[H|[]]]. apply in_flat_map in H. destruct H as (el & Hel & H).
    pose proof (sum_In (fun el => match el with Single a => size a | Multiple a => size a end) _ _ Hel) as X.
    destruct el; cbn in H; destruct H as [<-|[]]; cbn in X; lia.
  - destruct H as [[]|[H|[]]]. apply in_app_or in H. destruct H as [H|[<-|[]]]; [|lia].
    apply in_flat_map in H. destruct H as (b & Hb & H).
    pose proof (sum_In (fun b => match b with
                                 | CompBranch _ its cond =>
                                     fold_right Nat.add 0 (map (fun it : option ty * hexpr => size (snd it)) its) +
                                     match cond with None => 0 | Some c => size c end
                                 end) _ _ Hb) as X.
    destruct b as [names its cond]. unfold branch_parts in H. cbn [b_iteratees b_condition] in H.
    apply in_app_or in H. destruct H as [H|H].
    + apply in_map_iff in H. destruct H as (it & <- & Hit). pose proof (sum_In (fun it : option ty * hexpr => size (snd it)) _ _ Hit). cbn in *. lia.
    + destruct cond as [c|]; [|destruct H]. destruct H as [<-|[]]. cbn in X. lia.
  - destruct H as [H|[[]|[]]]. apply in_flat_map in H. destruct H as (el & Hel & H).
    pose proof (sum_In (fun el => match el with Entry a b => size a + size b | Spread m => size m end) _ _ Hel) as X.
    destruct el; cbn in H; [destruct H as [<-|[<-|[]]]|destruct H as [<-|[]]]; cbn in X; lia.
  - destruct H as [H|[[]|[]]]. apply in_map_iff in H. destruct H as (b & <- & Hb).
    pose proof (sum_In (fun b : string * hexpr => size (snd b)) _ _ Hb). cbn in *. lia.
  - destruct H as [[->|H]|[[]|[]]]; [lia|]. apply in_map_iff in H. destruct H as (b & <- & Hb).
    pose proof (sum_In (fun b : string * hexpr => size (snd b)) _ _ Hb). cbn in *. lia.
  - destruct type; cbn in H; intuition (subst; lia).
Qed.

Theorem parts_ind (P : hexpr -> Prop) :
  (forall e, (forall p, In p (parts e) -> P p) -> P e) -> forall e, P e.
Proof.
  intros H. assert (G : forall k e, size e < k -> P e).
  { induction k as [|k IH]; [lia|]. intros e He. apply H. intros p Hp. apply IH. apply parts_size in Hp. lia. }
  intros e. apply (G (S (size e))). lia.
Qed.

Lemma eager_part e p : In p (eager_parts e) -> In p (parts e).
Proof. unfold parts. intros H. apply in_or_app. auto. Qed.
Lemma lazy_part e p : In p (lazy_parts e) -> In p (parts e).
Proof. unfold parts. intros H. apply in_or_app. right. apply in_or_app. auto. Qed.
Lemma body_part e t p : In (t, p) (bodies e) -> In p (parts e).
Proof. unfold parts. intros H. apply in_or_app. right. apply in_or_app. right. apply (in_map snd) in H. exact H. Qed.

(** ** Types written in parts *)
Ltac in_apps := repeat (first [rewrite in_app_iff | progress cbn [In]]).

Lemma part_written e p : In p (parts e) -> incl (written p) (written e).
Proof.
  unfold parts. intros H u Hu. rewrite !in_app_iff in H.
  destruct e; cbn [eager_parts lazy_parts bodies map snd In] in H; cbn [written]; in_apps;
    try (intuition (subst; tauto)).
  - destruct H as [[->|H]|[[]|[]]]; [tauto|]. right. right. apply in_flat_map. eauto.
  - destruct H as [[->|H]|[[]|[]]]; [tauto|]. apply in_app_or in H. destruct H as [H|H].
    + apply in_map_iff in H. destruct H as (b & <- & Hb). right. left. apply in_flat_map. exists b. split; [exact Hb|right; exact Hu].
    + destruct else_ as [[o b]|]; [|destruct H]. destruct H as [<-|[]]. right. right. apply in_or_app. right. exact Hu.
  - destruct H as [[]|[H|[]]]. apply in_flat_map in H. destruct H as (el & Hel & H). right. apply in_flat_map.
    exists el. split; [exact Hel|]. destruct el; cbn in H; destruct H as [<-|[]]; exact Hu.
  - destruct H as [[]|[H|[]]]. apply in_app_or in H. destruct H as [H|[<-|[]]]; [|tauto].
    apply in_flat_map in H. destruct H as (b & Hb & H). right. right. apply in_flat_map. exists b. split; [exact Hb|].
    destruct b as [names its cond]. unfold branch_parts in H. cbn [b_iteratees b_condition] in H.
    apply in_or_app. apply in_app_or in H. destruct H as [H|H].
    + left. apply in_map_iff in H. destruct H as (it & <- & Hit). apply in_flat_map. exists it. split; [exact Hit|apply in_or_app; right; exact Hu].
    + right. destruct cond as [c|]; [|destruct H]. destruct H as [<-|[]]. exact Hu.
  - destruct H as [H|[[]|[]]]. apply in_flat_map in H. destruct H as (el & Hel & H). right. right. apply in_flat_map.
    exists el. split; [exact Hel|]. destruct el; cbn in H; [destruct H as [<-|[<-|[]]]; apply in_or_app; auto|destruct H as [<-|[]]; exact Hu].
  - destruct H as [H|[[]|[]]]. apply in_map_iff in H. destruct H as (b & <- & Hb). right. apply in_flat_map. eauto.
  - destruct H as [[->|H]|[[]|[]]]; [tauto|]. apply in_map_iff in H. destruct H as (b & <- & Hb). right. right. apply in_flat_map. eauto.
  - destruct type; cbn in H; intuition (subst; tauto).
Qed.

Lemma body_written e t p : In (t, p) (bodies e) -> In t (written e).
Proof.
  destruct e; cbn [bodies]; try (intros []; fail).
  - intros [H|[]]. injection H as <- <-. cbn [written]. apply in_or_app. right. left. reflexivity.
  - destruct type; [|intros []]. intros [H|[]]. injection H as <- <-. left. reflexivity.
Qed.

Lemma within_written c e t e' : within c e (Some t) e' -> c = Some t \/ In t (written e).
Proof.
  remember (Some t) as c' eqn:Hc. intros H. induction H as [c e|c e p c' e' Hp _ IH|c e p c' e' Hp _ IH|c e s p c' e' Hp _ IH].
  - auto.
  - destruct (IH Hc) as [H|H]; [auto|]. right. eapply part_written; [apply eager_part, Hp|exact H].
  - destruct (IH Hc) as [H|H]; [congruence|]. right. eapply part_written; [apply lazy_part, Hp|exact H].
  - destruct (IH Hc) as [H|H].
    + assert (s = t) as -> by congruence. right. eapply body_written, Hp.
    + right. eapply part_written; [eapply body_part, Hp|exact H].
Qed.

Lemma within_any c e c' e' : within c e c' e' -> forall d, exists d', within d e d' e'.
Proof.
  induction 1 as [c e|c e p c' e' Hp _ IH|c e p c' e' Hp H _|c e s p c' e' Hp H _]; intros d.
  - exists d. apply within_self.
  - destruct (IH d) as [d' H]. exists d'. eapply within_eager; eassumption.
  - exists c'. eapply within_lazy; eassumption.
  - exists c'. eapply within_body; eassumption.
Qed.

(** ** Try operations *)
Lemma each_ok {A} (f : A -> res unit) l : each f l = Ok tt <-> forall x, In x l -> f x = Ok tt.
Proof.
  induction l as [|x l IH]; cbn [each]; [split; [intros _ y []|reflexivity]|]. split.
  - intros H. apply bind_ok in H. destruct H as ([] & Hx & H). intros y [<-|Hy]; [exact Hx|]. apply IH; assumption.
  - intros H. rewrite (H x (or_introl eq_refl)). cbn. apply IH. intros y Hy. apply H. right. exact Hy.
Qed.

Ltac inv_bind H := let x := fresh "u" in let Hx := fresh "Hu" in apply bind_ok in H; destruct H as (x & Hx & H);
  try match type of x with unit => destruct x end.

Lemma validate_try_parts n E c e : validate_try n E c e = Ok tt ->
  (forall p, In p (eager_parts e) -> validate_try n E c p = Ok tt) /\
  (forall p, In p (lazy_parts e) -> validate_try n E None p = Ok tt) /\
  (forall t p, In (t, p) (bodies e) -> validate_try n E (Some t) p = Ok tt) /\
  (forall t a, e = HTry t a -> exists r, c = Some r /\ subsumes n E TError r = Ok true).
Proof.
  intros H. destruct e; cbn [validate_try] in H; cbn [eager_parts lazy_parts bodies];
    try (split; [|split; [|split]]; try (intros ? []; fail); try (intros ? ? []; fail); intros; discriminate).
  - inv_bind H. rewrite each_ok in H. split; [intros p [<-|Hp]; auto|]. split; [intros ? []|]. split; [intros ? ? []|discriminate].
  - inv_bind H. inv_bind H. split; [intros p [<-|[<-|[<-|[]]]]; auto|]. split; [intros ? []|]. split; [intros ? ? []|discriminate].
  - inv_bind H. inv_bind H. split; [intros p [<-|[<-|[<-|[]]]]; auto|]. split; [intros ? []|]. split; [intros ? ? []|discriminate].
  - inv_bind H. inv_bind H. inv_bind H. split; [intros p [<-|[<-|[<-|[<-|[]]]]]; auto|]. split; [intros ? []|]. split; [intros ? ? []|discriminate].
  - inv_bind H. inv_bind H. rewrite each_ok in Hu0. split.
    + intros p [<-|Hp]; [auto|]. apply in_app_or in Hp. destruct Hp as [Hp|Hp].
      * apply in_map_iff in Hp. destruct Hp as (b & <- & Hb). apply (Hu0 b Hb).
      * destruct else_ as [[o b]|]; [|destruct Hp]. destruct Hp as [<-|[]]. exact H.
    + split; [intros ? []|]. split; [intros ? ? []|discriminate].
  - split; [intros ? []|]. split; [intros ? []|]. split; [|discriminate]. intros t p [X|[]]. injection X as <- <-. exact H.
  - inv_bind H. split; [intros p [<-|[<-|[]]]; auto|]. split; [intros ? []|]. split; [intros ? ? []|discriminate].
  - rewrite each_ok in H. split; [intros ? []|]. split; [|split; [intros ? ? []|discriminate]].
    intros p Hp. apply in_flat_map in Hp. destruct Hp as (el & Hel & Hp). specialize (H el Hel).
    destruct el; cbn in Hp; destruct Hp as [<-|[]]; exact H.
  - inv_bind H. rewrite each_ok in Hu. split; [intros ? []|]. split; [|split; [intros ? ? []|discriminate]].
    intros p Hp. apply in_app_or in Hp. destruct Hp as [Hp|[<-|[]]]; [|exact H].
    apply in_flat_map in Hp. destruct Hp as (b & Hb & Hp). specialize (Hu b Hb). destruct b as [names its cond].
    unfold branch_parts in Hp. cbn [b_iteratees b_condition] in Hp. inv_bind Hu. rewrite each_ok in Hu0.
    apply in_app_or in Hp. destruct Hp as [Hp|Hp].
    + apply in_map_iff in Hp. destruct Hp as (it & <- & Hit). apply (Hu0 it Hit).
    + destruct cond as [b|]; [|destruct Hp]. destruct Hp as [<-|[]]. exact Hu.
  - rewrite each_ok in H. split; [|split; [intros ? []|split; [intros ? ? []|discriminate]]].
    intros p Hp. apply in_flat_map in Hp. destruct Hp as (el & Hel & Hp). specialize (H el Hel).
    destruct el; cbn in Hp.
    + inv_bind H. destruct Hp as [<-|[<-|[]]]; assumption.
    + destruct Hp as [<-|[]]; exact H.
  - inv_bind H. split; [intros p [<-|[<-|[]]]; auto|]. split; [intros ? []|]. split; [intros ? ? []|discriminate].
  - split; [intros p [<-|[]]; auto|]. split; [intros ? []|]. split; [intros ? ? []|discriminate].
  - inv_bind H. split; [intros p [<-|[]]; auto|]. split; [intros ? []|]. split; [intros ? ? []|].
    intros t a _. destruct c as [r|]; [|discriminate]. exists r. split; [reflexivity|]. inv_bind Hu.
    destruct u; [exact Hu0|discriminate].
  - rewrite each_ok in H. split; [|split; [intros ? []|split; [intros ? ? []|discriminate]]].
    intros p Hp. apply in_map_iff in Hp. destruct Hp as (b & <- & Hb). apply (H b Hb).
  - split; [intros p [<-|[]]; auto|]. split; [intros ? []|]. split; [intros ? ? []|discriminate].
  - inv_bind H. rewrite each_ok in H. split; [|split; [intros ? []|split; [intros ? ? []|discriminate]]].
    intros p [<-|Hp]; [auto|]. apply in_map_iff in Hp. destruct Hp as (b & <- & Hb). apply (H b Hb).
  - inv_bind H. destruct type as [t|]; [|discriminate Hu]. injection Hu as <-. split; [intros ? []|]. split; [intros ? []|]. split; [|discriminate].
    intros t' p [X|[]]. injection X as <- <-. exact H.
  - split; [intros p [<-|[]]; auto|]. split; [intros ? []|]. split; [intros ? ? []|discriminate].
Qed.

Theorem validate_try_sound f E n c e :
  wf f E -> types_known f E (opt_types c ++ written e) ->
  validate_try n E c e = Ok tt ->
  forall c' t a, within c e c' (HTry t a) -> exists r, c' = Some r /\ sub E TError r.
Proof.
  intros W K H c' t a Hw. remember (HTry t a) as e' eqn:He'.
  assert (G : exists r, c' = Some r /\ subsumes n E TError r = Ok true).
  { clear K. revert H. induction Hw as [c e|c e p c' e' Hp _ IH|c e p c' e' Hp _ IH|c e s p c' e' Hp _ IH]; intros H;
      destruct (validate_try_parts n E _ e H) as (H1 & H2 & H3 & H4); auto.
    - eapply H4, He'. }
  destruct G as (r & -> & G). exists r. split; [reflexivity|].
  apply (subsumes_correct f E W n TError r true); [| |exact G|reflexivity].
  - split; [intros x []|constructor].
  - unfold types_known in K. rewrite Forall_forall in K. apply K. apply in_or_app.
    apply within_written in Hw. destruct Hw as [->|Hw]; [left; left; reflexivity|right; exact Hw].
Qed.

(** Eventually: with enough fuel *)
Definition ev (P : nat -> Prop) : Prop := exists N, forall n, N <= n -> P n.

Lemma ev_all (P : nat -> Prop) : (forall n, P n) -> ev P.
Proof. intros H. exists 0. auto. Qed.
Lemma ev_and P Q : ev P -> ev Q -> ev (fun n => P n /\ Q n).
Proof. intros [N H] [M G]. exists (N + M). intros n Hn. split; [apply H; lia|apply G; lia]. Qed.
Lemma ev_impl (P Q : nat -> Prop) : (forall n, P n -> Q n) -> ev P -> ev Q.
Proof. intros H [N G]. exists N. auto. Qed.
Lemma ev_list {A} (P : A -> nat -> Prop) l : (forall x, In x l -> ev (P x)) -> ev (fun n => forall x, In x l -> P x n).
Proof.
  induction l as [|x l IH]; intros H; [apply ev_all; intros n y []|].
  destruct (ev_and _ _ (H x (or_introl eq_refl)) (IH (fun y Hy => H y (or_intror Hy)))) as [N G].
  exists N. intros n Hn y [<-|Hy]; destruct (G n Hn) as [G1 G2]; [exact G1|exact (G2 y Hy)].
Qed.

Lemma validate_try_all n E c e :
  (forall p, In p (eager_parts e) -> validate_try n E c p = Ok tt) ->
  (forall p, In p (lazy_parts e) -> validate_try n E None p = Ok tt) ->
  (forall t p, In (t, p) (bodies e) -> validate_try n E (Some t) p = Ok tt) ->
  (forall t a, e = HTry t a -> exists r, c = Some r /\ subsumes n E TError r = Ok true) ->
  (forall a, e <> HThunk None a) ->
  validate_try n E c e = Ok tt.
Proof.
  intros H1 H2 H3 H4 H5. destruct e; cbn [validate_try]; cbn [eager_parts lazy_parts bodies] in H1, H2, H3;
    try reflexivity;
    repeat (rewrite H1; [cbn [bind]|cbn; tauto]); try reflexivity.
  - apply each_ok. intros x Hx. apply H1. right. exact Hx.
  - rewrite (proj2 (each_ok _ _)).
    + cbn [bind]. destruct else_ as [[o b]|]; [|reflexivity]. apply H1. right. apply in_or_app. right. left. reflexivity.
    + intros b Hb. apply H1. right. apply in_or_app. left. apply in_map, Hb.
  - apply H3. left. reflexivity.
  - apply each_ok. intros el Hel. destruct el as [a|a]; apply H2; apply in_flat_map; eexists; (split; [exact Hel|left; reflexivity]).
  - rewrite (proj2 (each_ok _ _)).
    + cbn [bind]. apply H2. apply in_or_app. right. left. reflexivity.
    + intros [names its cond] Hb. rewrite (proj2 (each_ok _ _)).
      * cbn [bind]. destruct cond as [b|]; [|reflexivity]. apply H2. apply in_or_app. left. apply in_flat_map. eexists. split; [exact Hb|].
        unfold branch_parts. apply in_or_app. right. left. reflexivity.
      * intros it Hit. apply H2. apply in_or_app. left. apply in_flat_map. eexists. split; [exact Hb|].
        unfold branch_parts. apply in_or_app. left. apply in_map, Hit.
  - apply each_ok. intros el Hel. destruct el as [a b|m].
    + rewrite H1; [cbn [bind]; apply H1|]; apply in_flat_map; eexists; (split; [exact Hel|cbn; tauto]).
    + apply H1. apply in_flat_map. eexists. split; [exact Hel|left; reflexivity].
  - destruct (H4 _ _ eq_refl) as (r & -> & Hr). rewrite Hr. reflexivity.
  - apply each_ok. intros f Hf. apply H1. apply in_map, Hf.
  - apply each_ok. intros f Hf. apply H1. right. apply in_map, Hf.
  - destruct type as [t|]; [|exfalso; eapply H5; reflexivity]. cbn [annotated bind]. apply H3. left. reflexivity.
Qed.

Theorem validate_try_complete f E :
  wf f E -> forall e c, types_known f E (opt_types c ++ written e) ->
  (forall a, ~ occurs (HThunk None a) e) ->
  (forall c' t a, within c e c' (HTry t a) -> exists r, c' = Some r /\ sub E TError r) ->
  exists N, forall n, N <= n -> validate_try n E c e = Ok tt.
Proof.
  intros W. apply (parts_ind (fun e => forall c, types_known f E (opt_types c ++ written e) ->
    (forall a, ~ occurs (HThunk None a) e) ->
    (forall c' t a, within c e c' (HTry t a) -> exists r, c' = Some r /\ sub E TError r) ->
    ev (fun n => validate_try n E c e = Ok tt))).
  intros e IH c K T H.
  unfold types_known in K. rewrite Forall_app in K. destruct K as [Kc Ke].
  assert (Kp : forall p, In p (parts e) -> Forall (ok f E) (written p)).
  { intros p Hp. rewrite Forall_forall in *. intros u Hu. apply Ke. eapply part_written; eassumption. }
  assert (A1 : ev (fun n => forall p, In p (eager_parts e) -> validate_try n E c p = Ok tt)).
  { apply (ev_list (fun p n => validate_try n E c p = Ok tt)). intros p Hp. apply IH; [apply eager_part, Hp| | |].
    - apply Forall_app. split; [exact Kc|apply Kp, eager_part, Hp].
    - intros a (c1 & c2 & X). apply (T a). exists c1, c2. eapply within_eager; eassumption.
    - intros c' t a X. apply (H c' t a). eapply within_eager; eassumption. }
  assert (A2 : ev (fun n => forall p, In p (lazy_parts e) -> validate_try n E None p = Ok tt)).
  { apply (ev_list (fun p n => validate_try n E None p = Ok tt)). intros p Hp. apply IH; [apply lazy_part, Hp| | |].
    - cbn. apply Kp, lazy_part, Hp.
    - intros a (c1 & c2 & X). apply (T a). destruct (within_any _ _ _ _ X None) as [d X']. exists None, d.
      eapply within_lazy; eassumption.
    - intros c' t a X. apply (H c' t a). eapply within_lazy; eassumption. }
  assert (A3 : ev (fun n => forall b, In b (bodies e) -> validate_try n E (Some (fst b)) (snd b) = Ok tt)).
  { apply (ev_list (fun b n => validate_try n E (Some (fst b)) (snd b) = Ok tt)). intros [t p] Hp. cbn [fst snd].
    apply IH; [eapply body_part, Hp| | |].
    - constructor; [|eapply Kp, body_part, Hp]. rewrite Forall_forall in Ke. apply Ke. eapply body_written, Hp.
    - intros a (c1 & c2 & X). apply (T a). destruct (within_any _ _ _ _ X (Some t)) as [d X']. exists None, d.
      eapply within_body; eassumption.
    - intros c' t' a X. apply (H c' t' a). eapply within_body; eassumption. }
  assert (A4 : ev (fun n => forall t a, e = HTry t a -> exists r, c = Some r /\ subsumes n E TError r = Ok true)).
  { destruct e; try (apply ev_all; intros; discriminate).
    destruct (H c type e (within_self _ _)) as (r & -> & Hr).
    assert (O : ok f E TError) by (split; [intros x []|constructor]).
    assert (Or : ok f E r) by (inversion Kc; assumption).
    destruct (subsumes_total f E W TError r O Or) as (N & b & Hb).
    assert (b = true) as -> by (apply (subsumes_correct f E W N TError r b O Or Hb), Hr).
    exists N. intros n Hn t a _. exists r. split; [reflexivity|]. eapply subsumes_mono; eassumption. }
  eapply ev_impl; [|exact (ev_and _ _ (ev_and _ _ A1 A2) (ev_and _ _ A3 A4))].
  intros n [[B1 B2] [B3 B4]]. apply validate_try_all; auto.
  - intros t p Hp. apply (B3 _ Hp).
  - intros a ->. apply (T a). exists None, None. apply within_self.
Qed.


(** ** Visited expressions *)
Lemma visit_self e : In e (visit e).
Proof. destruct e; left; reflexivity. Qed.

Lemma visit_parts e x : In x (visit e) <-> x = e \/ exists p, In p (parts_outside e) /\ In x (visit p).
Proof.
  assert (L : forall A (g : A -> list hexpr) l,
    (forall a, In a l -> forall y, In y (g a) -> In y (parts_outside e)) ->
    In x (flat_map (fun a => flat_map visit (g a)) l) -> exists p, In p (parts_outside e) /\ In x (visit p)).
  { intros A g l H Hx. apply in_flat_map in Hx. destruct Hx as (a & Ha & Hx). apply in_flat_map in Hx.
    destruct Hx as (y & Hy & Hx). eauto. }
  assert (G : visit e = e :: flat_map visit (parts_outside e)).
  { clear L. destruct e; unfold parts_outside, parts; cbn [visit eager_parts lazy_parts bodies map snd app flat_map];
      rewrite ?app_nil_r; try reflexivity.
    - rewrite flat_map_app. f_equal. f_equal. f_equal; [|destruct else_ as [[o b]|]; cbn; rewrite ?app_nil_r; reflexivity].
      rewrite flat_map_concat_map, (flat_map_concat_map visit), map_map. reflexivity.
    - f_equal. induction elements as [|el es IH]; [reflexivity|]. cbn [flat_map]. rewrite flat_map_app, <- IH. f_equal.
      destruct el; cbn; rewrite app_nil_r; reflexivity.
    - rewrite flat_map_app. cbn [flat_map]. rewrite app_nil_r. f_equal. f_equal.
      induction branches as [|b bs IH]; [reflexivity|]. cbn [flat_map]. rewrite flat_map_app, <- IH. f_equal.
      destruct b as [names its cond]. cbn [b_iteratees]. rewrite flat_map_concat_map, (flat_map_concat_map visit), map_map. reflexivity.
    - f_equal. induction elements as [|el es IH]; [reflexivity|]. cbn [flat_map]. rewrite flat_map_app, <- IH. f_equal.
      destruct el; cbn; rewrite app_nil_r; reflexivity.
    - f_equal. rewrite flat_map_concat_map, (flat_map_concat_map visit), map_map. reflexivity.
    - f_equal. f_equal. rewrite flat_map_concat_map, (flat_map_concat_map visit), map_map. reflexivity.
    - destruct type; cbn; rewrite ?app_nil_r; reflexivity. }
  rewrite G. cbn [In]. rewrite in_flat_map. intuition.
Qed.

Lemma outside_part e p : In p (parts_outside e) -> In p (parts e).
Proof.
  destruct e; cbn [parts_outside]; auto. intros H. apply lazy_part. cbn [lazy_parts]. apply in_or_app.
  apply in_app_or in H. destruct H as [H|H]; [left|right; exact H]. apply in_flat_map in H. destruct H as (b & Hb & H).
  apply in_flat_map. exists b. split; [exact Hb|]. unfold branch_parts. apply in_or_app. left. exact H.
Qed.

Theorem visit_outside e : forall x, In x (visit e) <-> outside_conditions e x.
Proof.
  induction e as [e IH] using parts_ind. intros x. rewrite visit_parts. split.
  - intros [->|(p & Hp & Hx)]; [apply out_self|]. eapply out_part; [exact Hp|]. apply (IH p); [apply outside_part, Hp|exact Hx].
  - intros H. inversion H as [|e0 p x0 Hp Hx]; subst; [left; reflexivity|]. right. exists p. split; [exact Hp|].
    apply (IH p); [apply outside_part, Hp|exact Hx].
Qed.

Lemma outside_written e x : outside_conditions e x -> incl (written x) (written e).
Proof.
  induction 1 as [e|e p x Hp _ IH]; [apply incl_refl|]. eapply incl_tran; [exact IH|]. apply part_written, outside_part, Hp.
Qed.

Lemma written_known f E e x : types_known f E (written e) -> outside_conditions e x -> types_known f E (written x).
Proof. unfold types_known. rewrite !Forall_forall. intros H Hx t Ht. apply H. eapply outside_written; eassumption. Qed.

(** ** Unused errors *)
Lemma discards_iff f E n t c b : wf f E -> ok f E t ->
  canonicalize n E t = Ok c -> is_any c = false -> subsumes n E TError t = Ok b ->
  b = true <-> discards_error E t.
Proof.
  intros W Ht Hc Ha Hb.
  assert (O : ok f E TError) by (split; [intros x []|constructor]).
  assert (Na : ~ has_alt E t TAny).
  { rewrite (has_alt_any f E W t c); [|apply Ht|exists n; exact Hc]. intros ->. discriminate. }
  rewrite (subsumes_correct f E W n TError t b O Ht Hb), (sub_alts f E W TError t); [|apply O|apply Ht].
  unfold discards_error. split.
  - intros [X|X]; [contradiction|]. split; [|exact Na]. apply X; [intros x []|]. exists TError. split; [|apply teq_refl].
    apply alt_self; discriminate.
  - intros [X _]. right. intros a Da (b' & A & T). inversion A; subst. destruct X as (b'' & A' & T'). exists b''. split; [exact A'|].
    eapply teq_trans; eassumption.
Qed.

Lemma validate_unused_sound f E n e : wf f E -> types_known f E (written e) ->
  validate_unused n E e = Ok tt ->
  forall t b k, e = HLet None t b k -> exists s, t = Some s /\ ~ discards_error E s.
Proof.
  intros W K H t b k ->. cbn [validate_unused] in H. inv_bind H. destruct t as [s|]; [|discriminate Hu].
  injection Hu as <-. exists s. split; [reflexivity|]. inv_bind H.
  assert (Os : ok f E s) by (inversion K; assumption).
  destruct (is_any u) eqn:Ha.
  - intros [_ N]. apply N. apply (has_alt_any f E W s u); [apply Os|exists n; exact Hu|]. destruct u; try discriminate; reflexivity.
  - inv_bind H. rewrite <- (discards_iff f E n s u u0 W Os Hu Ha Hu0). destruct u0; [discriminate|discriminate].
Qed.

Lemma validate_unused_complete f E e : wf f E -> types_known f E (written e) ->
  (forall x t b k, e = HLet x t b k -> exists s, t = Some s /\ (x = None -> ~ discards_error E s)) ->
  ev (fun n => validate_unused n E e = Ok tt).
Proof.
  intros W K H. destruct e; try (apply ev_all; reflexivity).
  destruct (H _ _ _ _ eq_refl) as (s & -> & Hs). destruct name as [x|]; [apply ev_all; reflexivity|]. specialize (Hs eq_refl).
  assert (Os : ok f E s) by (inversion K; assumption).
  assert (O : ok f E TError) by (split; [intros x []|constructor]).
  destruct (canon_ex f E W s (proj1 Os)) as [c [N Hc]]. destruct (subsumes_total f E W TError s O Os) as (M & b & Hb).
  exists (N + M). intros n Hn. cbn [validate_unused annotated bind].
  apply (HirTypeTermination.canon_mono N n) in Hc; [|lia]. apply (subsumes_mono E M n) in Hb; [|lia].
  rewrite Hc. cbn [bind]. destruct (is_any c) eqn:Ha; [reflexivity|]. rewrite Hb. cbn [bind]. destruct b; [|reflexivity].
  exfalso. apply Hs. apply (discards_iff f E n s c true W Os Hc Ha Hb). reflexivity.
Qed.

(** ** Private fields *)
Lemma validate_record_sound n E open e : validate_record n E open e = Ok tt ->
  forall t, accessed e = Some t -> exists s, t = Some s /\ record_among E open s.
Proof.
  assert (C : forall t u, canonical_record n E t = Ok u -> mem u open = true -> record_among E open t).
  { intros t u Hc Hm. unfold canonical_record in Hc. inv_bind Hc. destruct u0; try discriminate. injection Hc as ->.
    exists u, original_name. split; [apply HirTypeEq.canon_sound; exists n; exact Hu|apply mem_In, Hm]. }
  intros H t Ha. destruct e; try discriminate; cbn [accessed validate_record] in *; injection Ha as <-.
  - inv_bind H. exists type. split; [reflexivity|]. destruct (mem u open) eqn:Hm; [eapply C; eassumption|]. destruct fields; discriminate.
  - inv_bind H. destruct type as [s|]; [|discriminate]. injection Hu as <-. exists s. split; [reflexivity|]. inv_bind H.
    destruct (mem u open) eqn:Hm; [eapply C; eassumption|discriminate].
  - inv_bind H. exists type. split; [reflexivity|]. destruct (mem u open) eqn:Hm; [eapply C; eassumption|]. destruct fields; discriminate.
Qed.

Lemma validate_record_complete f E open e : wf f E ->
  (forall t, accessed e = Some t -> exists s, t = Some s /\ record_among E open s) ->
  ev (fun n => validate_record n E open e = Ok tt).
Proof.
  intros W H.
  assert (C : forall t, record_among E open t -> ev (fun n => exists u, canonical_record n E t = Ok u /\ mem u open = true)).
  { intros t (name & o & Ht & Hin).
    assert (Hc : HirTypeTermination.canon E t (TRecord name o)).
    { apply (HirTypeEq.teq_canon E t (TRecord name o)); [apply W|apply W|exact Ht|exists 1; reflexivity]. }
    destruct Hc as [N Hc]. exists N. intros n Hn. exists name. split; [|apply mem_In, Hin]. unfold canonical_record.
    rewrite (HirTypeTermination.canon_mono N n E t _ Hn Hc). reflexivity. }
  destruct e; try (apply ev_all; reflexivity); cbn [accessed validate_record] in *;
    destruct (H _ eq_refl) as (s & Hs & Hr); [injection Hs as <-|subst|injection Hs as <-];
    (eapply ev_impl; [|exact (C _ Hr)]); intros n (u & Hu & Hm); cbn [annotated bind]; rewrite Hu; cbn [bind]; rewrite Hm; reflexivity.
Qed.
