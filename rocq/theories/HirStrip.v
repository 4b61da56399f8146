(** The analyses only add annotations and conversions. *)
From Coq Require Import String List ZArith Bool Lia.
From Verif Require Import Base HirType HirTypeSpec Hir HirCheck HirCoerce HirInfer HirValidate HirSpec HirParts.
Import ListNotations.

Lemma ok_inj {A} (a b : A) : Ok a = Ok b -> a = b.
Proof. intros H. injection H as H. exact H. Qed.

Ltac inv_ok :=
  repeat match goal with
    | H : bind _ _ = Ok _ |- _ => let x := fresh "y" in let Hx := fresh "Hy" in apply bind_ok in H; destruct H as (x & Hx & H)
    | H : rmap _ _ = Ok _ |- _ => unfold rmap in H
    | H : (fun _ => _) _ = Ok _ |- _ => cbv beta in H
    | H : Ok _ = Ok _ |- _ => apply ok_inj in H; subst
    | H : annotated ?t = Ok _ |- _ => destruct t; cbn [annotated] in H; [|discriminate H]
    | H : reject _ = Ok _ |- _ => discriminate H
    | H : Panic = Ok _ |- _ => discriminate H
    end.

Lemma forall2_map {A B C} (g : A -> C) (h : B -> C) l l' :
  Forall2 (fun x y => g x = h y) l l' -> map g l = map h l'.
Proof. induction 1 as [|x y l l' H _ IH]; [reflexivity|]. cbn. f_equal; assumption. Qed.

Lemma mapM_map {A B C} (F : A -> res B) (g : A -> C) (h : B -> C) l l' :
  mapM F l = Ok l' -> (forall x y, In x l -> F x = Ok y -> h y = g x) -> map h l' = map g l.
Proof.
  intros H G. apply mapM_ok in H. induction H as [|x y l l' H _ IH]; [reflexivity|]. cbn. f_equal.
  - apply G; [left; reflexivity|exact H].
  - apply IH. intros x' y' Hx. apply G. right. exact Hx.
Qed.

Lemma coerce_to_strip n E R G e t e' : coerce_to n E R G e t = Ok e' -> strip e' = strip e.
Proof. unfold coerce_to. intros H. inv_ok. destruct y0; reflexivity. Qed.

Lemma coerce_into_strip n E R F G t e e' :
  (forall G' a, F G' e = Ok a -> strip a = strip e) ->
  coerce_into n E R F G t e = Ok e' -> strip e' = strip e.
Proof.
  unfold coerce_into. intros H X. inv_ok. rewrite (coerce_to_strip _ _ _ _ _ _ _ X). eapply H; eassumption.
Qed.

Lemma mapM_snd {A} (F : hexpr -> res hexpr) (l : list (A * hexpr)) l' :
  mapM (fun b => bind (F (snd b)) (fun a => Ok (fst b, a))) l = Ok l' ->
  Forall2 (fun b b' => fst b' = fst b /\ F (snd b) = Ok (snd b')) l l'.
Proof.
  intros H. apply mapM_ok in H. induction H as [|x y l l' H _ IH]; constructor; [|exact IH]. inv_ok. auto.
Qed.

Ltac part_of IH := match goal with |- In ?p (parts _) => first [apply eager_part; cbn; tauto | apply lazy_part; cbn; tauto | eapply body_part; cbn; left; reflexivity] end.

Lemma branch_iteratee_part t el bs b it : In b bs -> In it (b_iteratees b) -> In (snd it) (parts (HComprehension t el bs)).
Proof.
  intros Hb Hi. apply lazy_part. cbn [lazy_parts]. apply in_or_app. left. apply in_flat_map. exists b. split; [exact Hb|].
  unfold branch_parts. apply in_or_app. left. apply in_map, Hi.
Qed.
Lemma branch_condition_part t el bs b c : In b bs -> b_condition b = Some c -> In c (parts (HComprehension t el bs)).
Proof.
  intros Hb Hc. apply lazy_part. cbn [lazy_parts]. apply in_or_app. left. apply in_flat_map. exists b. split; [exact Hb|].
  unfold branch_parts. rewrite Hc. apply in_or_app. right. left. reflexivity.
Qed.
Lemma comprehension_element_part t el bs : In el (parts (HComprehension t el bs)).
Proof. apply lazy_part. cbn [lazy_parts]. apply in_or_app. right. left. reflexivity. Qed.
Lemma if_type_branch_part x a bs els b : In b bs -> In (snd b) (parts (HIfType x a bs els)).
Proof. intros H. apply eager_part. right. apply in_or_app. left. apply in_map, H. Qed.
Lemma if_type_else_part x a bs t b : In b (parts (HIfType x a bs (Some (t, b)))).
Proof. apply eager_part. right. apply in_or_app. right. left. reflexivity. Qed.
Lemma single_part t es a : In (Single a) es -> In a (parts (HList t es)).
Proof. intros H. apply lazy_part. apply in_flat_map. exists (Single a). split; [exact H|left; reflexivity]. Qed.
Lemma multiple_part t es a : In (Multiple a) es -> In a (parts (HList t es)).
Proof. intros H. apply lazy_part. apply in_flat_map. exists (Multiple a). split; [exact H|left; reflexivity]. Qed.
Lemma entry_parts k v es a b : In (Entry a b) es -> In a (parts (HMap k v es)) /\ In b (parts (HMap k v es)).
Proof. intros H. split; apply eager_part; apply in_flat_map; exists (Entry a b); (split; [exact H|cbn; tauto]). Qed.
Lemma spread_part k v es a : In (Spread a) es -> In a (parts (HMap k v es)).
Proof. intros H. apply eager_part. apply in_flat_map. exists (Spread a). split; [exact H|left; reflexivity]. Qed.
Lemma record_part t fs f : In f fs -> In (snd f) (parts (HRecord t fs)).
Proof. intros H. apply eager_part. apply in_map, H. Qed.
Lemma update_part t r fs f : In f fs -> In (snd f) (parts (HUpdate t r fs)).
Proof. intros H. apply eager_part. right. apply in_map, H. Qed.
Lemma argument_part ft f args a : In a args -> In a (parts (HCall ft f args)).
Proof. intros H. apply eager_part. right. exact H. Qed.
Lemma function_part ft f args : In f (parts (HCall ft f args)).
Proof. apply eager_part. left. reflexivity. Qed.
Lemma lambda_part args r b : In b (parts (HLambda args r b)).
Proof. eapply body_part. left. reflexivity. Qed.
Lemma thunk_part t a : In a (parts (HThunk t a)).
Proof. destruct t; [eapply body_part; left; reflexivity|apply lazy_part; left; reflexivity]. Qed.

Ltac spart := first [apply eager_part; cbn [eager_parts In]; tauto | apply lambda_part | apply thunk_part | apply comprehension_element_part | apply function_part].

(** ** Parts of a checked expression are checked *)
Definition checked n E R (p : hexpr) : Prop := (exists b, p = HBuiltIn b) \/ exists G s, check n E R G p = Ok s.

Lemma check_arguments_parts n E R G es : forall ts, List.length es = List.length ts ->
  check_arguments n E (check n E R) G es ts = Ok tt -> forall a, In a es -> checked n E R a.
Proof.
  induction es as [|e es IH]; intros [|t ts] L H a Ha; try discriminate; [destruct Ha|]. cbn [check_arguments] in H. inv_ok.
  destruct Ha as [<-|Ha]; [right; eauto|]. eapply IH; [|exact H|exact Ha]. cbn in L. lia.
Qed.

Lemma check_branches_parts n E R G x u bs :
  check_branches n E (check n E R) G x u bs = Ok tt -> forall b, In b bs -> checked n E R (snd b).
Proof.
  induction bs as [|[t e] bs IH]; intros H b Hb; [destruct Hb|]. cbn [check_branches] in H. inv_ok.
  destruct (is_any y1); [discriminate|]. destruct Hb as [<-|Hb]; [right; eauto|]. eapply IH; eassumption.
Qed.

Lemma check_elements_parts n E R G t es :
  check_elements n E (check n E R) G t es = Ok tt -> forall p, In p (flat_map element_parts es) -> checked n E R p.
Proof.
  induction es as [|[e|e] es IH]; intros H b Hb; [destruct Hb| |]; cbn [check_elements] in H; inv_ok; cbn in Hb;
    (destruct Hb as [<-|Hb]; [right; eauto|]; eapply IH; eassumption).
Qed.

Lemma check_iteratees_parts n E R its : forall G names G', List.length names = List.length its ->
  check_iteratees n E (check n E R) G names its = Ok G' -> forall it, In it its -> checked n E R (snd it).
Proof.
  induction its as [|[t e] its IH]; intros G [|x names] G' L H it Hi; try discriminate; [destruct Hi|].
  cbn [check_iteratees] in H. inv_ok. destruct Hi as [<-|Hi]; [right; eauto|]. eapply IH; [|eassumption|eassumption]. cbn in L. lia.
Qed.

Lemma check_comp_branches_parts n E R bs : forall G G',
  check_comp_branches n E (check n E R) G bs = Ok G' -> forall p, In p (flat_map branch_parts bs) -> checked n E R p.
Proof.
  induction bs as [|[names its cond] bs IH]; intros G G' H p Hp; [destruct Hp|]. cbn [check_comp_branches] in H.
  destruct (Nat.eqb (List.length names) (List.length its)) eqn:L; [|discriminate]. apply Nat.eqb_eq in L. inv_ok.
  cbn [flat_map] in Hp. apply in_app_or in Hp. destruct Hp as [Hp|Hp]; [|eapply IH; eassumption].
  unfold branch_parts in Hp. cbn [b_iteratees b_condition] in Hp. apply in_app_or in Hp. destruct Hp as [Hp|Hp].
  - apply in_map_iff in Hp. destruct Hp as (it & <- & Hi). eapply check_iteratees_parts; eassumption.
  - destruct cond as [c|]; [|destruct Hp]. destruct Hp as [<-|[]]. inv_ok. right. eauto.
Qed.

Lemma check_map_elements_parts n E R G k v es :
  check_map_elements n E (check n E R) G k v es = Ok tt -> forall p, In p (flat_map map_parts es) -> checked n E R p.
Proof.
  induction es as [|[a b|m] es IH]; intros H p Hp; [destruct Hp| |]; cbn [check_map_elements] in H; inv_ok; cbn in Hp.
  - destruct Hp as [<-|[<-|Hp]]; [right; eauto|right; eauto|]. eapply IH; eassumption.
  - destruct Hp as [<-|Hp]; [right; eauto|]. eapply IH; eassumption.
Qed.

Lemma check_fields_parts n E R G fts fs :
  check_fields n E (check n E R) G fts fs = Ok tt -> forall f, In f fs -> checked n E R (snd f).
Proof.
  induction fs as [|[x e] fs IH]; intros H f Hf; [destruct Hf|]. cbn [check_fields] in H. inv_ok.
  destruct Hf as [<-|Hf]; [right; eauto|]. eapply IH; eassumption.
Qed.

Ltac solve_parts := intros ? ?; repeat match goal with
  | H : In _ (parts _) |- _ => unfold parts in H; rewrite !in_app_iff in H; cbn [eager_parts lazy_parts bodies map snd In] in H
  | H : _ \/ _ |- _ => destruct H
  | H : False |- _ => destruct H
  end; subst; try (right; eauto; fail).

Lemma unit_eta (u : unit) : u = tt.
Proof. destruct u; reflexivity. Qed.

Lemma check_parts n E R G e s : check n E R G e = Ok s -> forall p, In p (parts e) -> checked n E R p.
Proof.
  intros H. destruct e; cbn [check] in H; inv_ok; solve_parts.
  - destruct (Nat.eqb _ _); [|discriminate]. inv_ok. destruct p; inv_ok; try (right; eauto; fail); left; eauto.
  - destruct (Nat.eqb _ _) eqn:L; [|discriminate]. apply Nat.eqb_eq in L. inv_ok. rewrite (unit_eta y1) in *.
    eapply check_arguments_parts; eassumption.
  - destruct (is_variant y0); [|discriminate]. inv_ok. apply in_app_or in H0. destruct H0 as [H0|H0].
    + apply in_map_iff in H0. destruct H0 as (b & <- & Hb). rewrite (unit_eta y1) in *. eapply check_branches_parts; eassumption.
    + destruct else_ as [[t b]|]; [|destruct H0]. destruct H0 as [<-|[]]. inv_ok. right. eauto.
  - rewrite (unit_eta y) in *. eapply check_elements_parts; eassumption.
  - apply in_app_or in H. destruct H as [H|[<-|[]]]; [|right; eauto]. eapply check_comp_branches_parts; eassumption.
  - rewrite (unit_eta y) in *. eapply check_map_elements_parts; eassumption.
  - destruct o; inv_ok; right; eauto.
  - destruct o; inv_ok; right; eauto.
  - apply in_map_iff in H. destruct H as (f & <- & Hf). rewrite (unit_eta y0) in *. eapply check_fields_parts; eassumption.
  - apply in_map_iff in H. destruct H as (f & <- & Hf). rewrite (unit_eta y2) in *. eapply check_fields_parts; eassumption.
Qed.

(** Every call has as many arguments as its function has parameters. *)
Definition full_calls n E (e : hexpr) : Prop :=
  forall t f args ar, occurs (HCall (Some t) f args) e -> canonical_function n E t = Ok ar ->
    List.length args = List.length (fst ar).

Lemma full_calls_part n E e p : In p (parts e) -> full_calls n E e -> full_calls n E p.
Proof.
  intros Hp H t f args ar (c & c' & X) Hc. eapply H; [|exact Hc]. unfold parts in Hp. rewrite !in_app_iff in Hp.
  destruct Hp as [Hp|[Hp|Hp]].
  - exists c, c'. eapply within_eager; eassumption.
  - destruct (within_any _ _ _ _ X None) as [d Y]. exists None, d. eapply within_lazy; eassumption.
  - apply in_map_iff in Hp. destruct Hp as ([u p'] & <- & Hp). destruct (within_any _ _ _ _ X (Some u)) as [d Y].
    exists None, d. eapply within_body; eassumption.
Qed.

Lemma within_part c e c' e' : within c e c' e' -> e' = e \/ exists p d, In p (parts e) /\ within d p c' e'.
Proof.
  intros H. destruct H as [c e|c e p c' e' Hp H|c e p c' e' Hp H|c e s p c' e' Hp H]; [left; reflexivity| | |]; right; exists p.
  - exists c. split; [apply eager_part, Hp|exact H].
  - exists None. split; [apply lazy_part, Hp|exact H].
  - exists (Some s). split; [eapply body_part, Hp|exact H].
Qed.

Lemma check_full_calls n E R e : checked n E R e -> full_calls n E e.
Proof.
  induction e as [e IH] using parts_ind. intros H t f args ar (c & c' & X) Hc.
  apply within_part in X. destruct X as [<-|(p & d & Hp & X)].
  - destruct H as [[b H]|(G & s & H)]; [discriminate|]. cbn [check annotated bind] in H. rewrite Hc in H. cbn [bind] in H.
    destruct (Nat.eqb _ _) eqn:L; [|discriminate]. apply Nat.eqb_eq, L.
  - apply (IH p Hp) with (t := t) (f := f) (args := args); [|exists d, c'; exact X|exact Hc].
    destruct H as [[b ->]|(G & s & H)]; [destruct Hp|]. eapply check_parts; eassumption.
Qed.

Lemma coerce_arguments_strip n E R F G es : forall ts es', List.length es = List.length ts ->
  (forall a t a', In a es -> coerce_into n E R F G t a = Ok a' -> strip a' = strip a) ->
  coerce_arguments n E R F G es ts = Ok es' -> map strip es' = map strip es.
Proof.
  induction es as [|a es IH]; intros [|t ts] es' L HF H; try discriminate; cbn [coerce_arguments] in H; inv_ok; [reflexivity|].
  cbn [map]. f_equal; [eapply HF; [left; reflexivity|eassumption]|]. eapply IH; [|intros; eapply HF; [right|]; eassumption|eassumption].
  cbn in L. lia.
Qed.

Definition strip_branch (b : comp_branch) : comp_branch :=
  match b with
  | CompBranch names its cond =>
      CompBranch names (map (fun it => (None, strip (snd it))) its)
        match cond with None => None | Some c => Some (strip c) end
  end.

Lemma coerce_branches_strip n E F bs :
  (forall G p a, In p (flat_map branch_parts bs) -> F G p = Ok a -> strip a = strip p) ->
  forall G r, coerce_branches n E F G bs = Ok r -> map strip_branch (snd r) = map strip_branch bs.
Proof.
  induction bs as [|[names its cond] bs IH]; intros HF G r H; cbn [coerce_branches] in H; inv_ok; [reflexivity|].
  cbn [snd map]. f_equal.
  - cbn [strip_branch]. f_equal.
    + eapply mapM_map; [exact Hy|]. intros x y_ Hx Hxy. inv_ok. cbn [snd]. f_equal. eapply HF; [|eassumption].
      cbn [flat_map]. apply in_or_app. left. unfold branch_parts. apply in_or_app. left. apply in_map, Hx.
    + destruct cond as [c|]; inv_ok; [|reflexivity]. f_equal. eapply HF; [|eassumption].
      cbn [flat_map]. apply in_or_app. left. unfold branch_parts. apply in_or_app. right. left. reflexivity.
  - eapply IH; [|eassumption]. intros G' p a Hp. apply HF. cbn [flat_map]. apply in_or_app. right. exact Hp.
Qed.

Lemma coerce_fields_strip n E R F G fts (fs fs' : list (string * hexpr)) :
  (forall f a, In f fs -> F G (snd f) = Ok a -> strip a = strip (snd f)) ->
  mapM (coerce_field n E R F G fts) fs = Ok fs' ->
  map (fun f => (fst f, strip (snd f))) fs' = map (fun f => (fst f, strip (snd f))) fs.
Proof.
  intros HF H. eapply mapM_map; [exact H|]. intros x y_ Hx Hxy. unfold coerce_field in Hxy. inv_ok. cbn [fst snd]. f_equal.
  match goal with X : coerce_to _ _ _ _ _ _ = Ok _ |- _ => rewrite (coerce_to_strip _ _ _ _ _ _ _ X) end. eapply HF; eassumption.
Qed.

Theorem coerce_strip n E R e0 : full_calls n E e0 ->
  forall G e, coerce n E R G e0 = Ok e -> strip e = strip e0.
Proof.
  induction e0 as [e0 IH] using parts_ind. intros FC G e H.
  assert (IH' : forall G' p a, In p (parts e0) -> coerce n E R G' p = Ok a -> strip a = strip p).
  { intros G' p a Hp. apply IH; [exact Hp|]. eapply full_calls_part; eassumption. }
  assert (IHi : forall G' t p a, In p (parts e0) -> coerce_into n E R (coerce n E R) G' t p = Ok a -> strip a = strip p).
  { intros G' t p a Hp. apply coerce_into_strip. intros G'' b. apply IH', Hp. }
  clear IH. destruct e0; cbn [coerce] in H; inv_ok; cbn [strip]; try reflexivity;
    try (f_equal; first [eapply IHi; [|eassumption]; spart | eapply IH'; [|eassumption]; spart]; fail).
  - f_equal; [eapply IH'; [|eassumption]; spart|]. eapply coerce_arguments_strip; [|intros; eapply IHi; [|eassumption]|eassumption].
    + eapply FC; [exists None, None; apply within_self|eassumption].
    + apply argument_part. assumption.
  - f_equal; [eapply IH'; [|eassumption]; spart| |].
    + eapply mapM_map; [eassumption|]. intros x y' Hx Hxy. inv_ok. cbn [fst snd]. f_equal. eapply IHi; [|eassumption]. apply if_type_branch_part, Hx.
    + destruct else_ as [[t b]|]; inv_ok; [|reflexivity]. f_equal. f_equal. eapply IHi; [|eassumption]. apply if_type_else_part.
  - destruct name; inv_ok; cbn [strip]; (f_equal; (eapply IH'; [|eassumption]; spart)).
  - f_equal. eapply mapM_map; [eassumption|]. intros x y' Hx Hxy. unfold coerce_element in Hxy.
    destruct x; inv_ok; f_equal; eapply IHi; try eassumption; [apply single_part|apply multiple_part]; exact Hx.
  - f_equal; [eapply IHi; [|eassumption]; spart|]. change (map strip_branch (snd y) = map strip_branch branches).
    eapply coerce_branches_strip; [|eassumption]. intros G' p a Hp. apply IH'. apply lazy_part. cbn [lazy_parts]. apply in_or_app. left. exact Hp.
  - f_equal. eapply mapM_map; [eassumption|]. intros x y' Hx Hxy. unfold coerce_map_element in Hxy.
    destruct x as [a b|m]; inv_ok.
    + destruct (entry_parts key_type value_type _ _ _ Hx). f_equal; eapply IHi; eassumption.
    + f_equal. eapply IHi; [|eassumption]. apply spread_part, Hx.
  - destruct o; inv_ok; cbn [strip]; (f_equal; first [eapply IHi; [|eassumption]; spart | eapply IH'; [|eassumption]; spart]).
  - f_equal. eapply coerce_fields_strip; [|eassumption]. intros f a Hf. apply IH', record_part, Hf.
  - f_equal; [eapply IH'; [|eassumption]; spart|]. eapply coerce_fields_strip; [|eassumption]. intros f a Hf. apply IH', update_part, Hf.
  - f_equal. eapply IHi; [|eassumption]. apply thunk_part.
  - eapply IH'; [|eassumption]. spart.
Qed.

Lemma infer_branches_strip n E R F bs :
  (forall G p a, In p (flat_map branch_parts bs) -> F G p = Ok a -> strip a = strip p) ->
  forall G r, infer_branches n E R F G bs = Ok r -> map strip_branch (snd r) = map strip_branch bs.
Proof.
  induction bs as [|[names its cond] bs IH]; intros HF G r H; cbn [infer_branches] in H; inv_ok; [reflexivity|].
  cbn [snd map]. f_equal.
  - cbn [strip_branch]. f_equal.
    + eapply mapM_map; [exact Hy|]. intros x y_ Hx Hxy. unfold infer_iteratee in Hxy. inv_ok. cbn [snd]. f_equal. eapply HF; [|eassumption].
      cbn [flat_map]. apply in_or_app. left. unfold branch_parts. apply in_or_app. left. apply in_map, Hx.
    + destruct cond as [c|]; inv_ok; [|reflexivity]. f_equal. eapply HF; [|eassumption].
      cbn [flat_map]. apply in_or_app. left. unfold branch_parts. apply in_or_app. right. left. reflexivity.
  - eapply IH; [|eassumption]. intros G' p a Hp. apply HF. cbn [flat_map]. apply in_or_app. right. exact Hp.
Qed.

Theorem infer_strip n E R e0 : forall G e, infer n E R G e0 = Ok e -> strip e = strip e0.
Proof.
  induction e0 as [e0 IH'] using parts_ind. intros G e H.
  assert (IH : forall G' p a, In p (parts e0) -> infer n E R G' p = Ok a -> strip a = strip p).
  { intros G' p a Hp. apply IH', Hp. }
  clear IH'. destruct e0; cbn [infer] in H; inv_ok; cbn [strip]; try reflexivity;
    try (f_equal; (eapply IH; [|eassumption]; spart); fail).
  - assert (X : forall args', mapM (infer n E R G) arguments = Ok args' -> map strip args' = map strip arguments).
    { intros args' Ha. eapply mapM_map; [exact Ha|]. intros x y_ Hx Hxy. eapply IH; [|eassumption]. apply argument_part, Hx. }
    assert (Y : forall f', infer n E R G e0 = Ok f' -> strip f' = strip e0).
    { intros f' Hf. eapply IH; [|eassumption]. spart. }
    destruct e0; inv_ok; cbn [strip]; f_equal; auto.
  - f_equal; [eapply IH; [|eassumption]; spart| |].
    + eapply mapM_map; [eassumption|]. intros x y' Hx Hxy. inv_ok. cbn [fst snd]. f_equal. eapply IH; [|eassumption]. apply if_type_branch_part, Hx.
    + destruct else_ as [[t b]|]; inv_ok; [|reflexivity]. destruct (create_union _); [|discriminate]. inv_ok.
      match goal with X : match ?d with Some _ => _ | None => _ end = Ok _ |- _ => destruct d as [u|]; [|discriminate X] end. inv_ok. f_equal. f_equal. eapply IH; [|eassumption]. apply if_type_else_part.
  - f_equal. eapply mapM_map; [eassumption|]. intros x y' Hx Hxy. unfold infer_element in Hxy.
    destruct x; inv_ok; f_equal; eapply IH; try eassumption; [apply single_part|apply multiple_part]; exact Hx.
  - f_equal; [eapply IH; [|eassumption]; spart|]. change (map strip_branch (snd y) = map strip_branch branches).
    eapply infer_branches_strip; [|eassumption]. intros G' p a Hp. apply IH. apply lazy_part. cbn [lazy_parts]. apply in_or_app. left. exact Hp.
  - f_equal. eapply mapM_map; [eassumption|]. intros x y' Hx Hxy. unfold infer_map_element in Hxy.
    destruct x as [a b|m]; inv_ok.
    + destruct (entry_parts key_type value_type _ _ _ Hx). f_equal; eapply IH; eassumption.
    + f_equal. eapply IH; [|eassumption]. apply spread_part, Hx.
  - destruct o; inv_ok; cbn [strip]; (f_equal; (eapply IH; [|eassumption]; spart)).
  - match goal with X : match ?d with Some _ => _ | None => _ end = Ok _ |- _ => destruct d as [u|]; [|discriminate X] end. destruct (is_any u); [discriminate|]. inv_ok. cbn [strip]. f_equal. eapply IH; [|eassumption]. spart.
  - f_equal. eapply mapM_map; [eassumption|]. intros x y' Hx Hxy. unfold infer_field in Hxy. inv_ok. cbn [fst snd]. f_equal.
    eapply IH; [|eassumption]. apply record_part, Hx.
  - f_equal; [eapply IH; [|eassumption]; spart|]. eapply mapM_map; [eassumption|]. intros x y' Hx Hxy. unfold infer_field in Hxy. inv_ok. cbn [fst snd]. f_equal.
    eapply IH; [|eassumption]. apply update_part, Hx.
  - eapply IH; [|eassumption]. spart.
Qed.

(** ** Mentioned names *)
Lemma existsb_map {A B} (g : B -> bool) (h : A -> B) l : existsb g (map h l) = existsb (fun x => g (h x)) l.
Proof. induction l as [|x l IH]; [reflexivity|]. cbn. rewrite IH. reflexivity. Qed.

Lemma existsb_ext_in {A} (g h : A -> bool) l : (forall x, In x l -> g x = h x) -> existsb g l = existsb h l.
Proof.
  induction l as [|x l IH]; intros H; [reflexivity|]. cbn. rewrite (H x (or_introl eq_refl)), IH; [reflexivity|].
  intros y Hy. apply H. right. exact Hy.
Qed.

Lemma mentions_strip x e : mentions x (strip e) = mentions x e.
Proof.
  induction e as [e IH] using parts_ind.
  destruct e; cbn [strip mentions]; rewrite ?existsb_map;
    repeat match goal with |- context [mentions x (strip ?p)] => rewrite (IH p) by spart end; try reflexivity.
  - f_equal. apply existsb_ext_in. intros a Ha. apply IH, argument_part, Ha.
  - f_equal; [f_equal; apply existsb_ext_in; intros b Hb; apply IH, if_type_branch_part, Hb|].
    destruct else_ as [[t b]|]; [apply IH, if_type_else_part|reflexivity].
  - apply existsb_ext_in. intros [a|a] Ha; apply IH; [apply single_part|apply multiple_part]; exact Ha.
  - f_equal. apply existsb_ext_in. intros [names its cond] Hb. rewrite existsb_map. f_equal.
    + apply existsb_ext_in. intros it Hi. cbn [snd]. apply IH. eapply branch_iteratee_part; [exact Hb|exact Hi].
    + destruct cond; [|reflexivity]. apply IH. eapply branch_condition_part; [exact Hb|reflexivity].
  - apply existsb_ext_in. intros [a b|m] Ha; [|apply IH, spread_part, Ha].
    destruct (entry_parts key_type value_type _ _ _ Ha) as [H1 H2]. rewrite (IH a H1), (IH b H2). reflexivity.
  - apply existsb_ext_in. intros f Hf. apply IH, record_part, Hf.
  - f_equal. apply existsb_ext_in. intros f Hf. apply IH, update_part, Hf.
Qed.

Lemma infer_mentions n E R G e0 e x : infer n E R G e0 = Ok e -> mentions x e = mentions x e0.
Proof. intros H. rewrite <- (mentions_strip x e), <- (mentions_strip x e0), (infer_strip _ _ _ _ _ _ H). reflexivity. Qed.
