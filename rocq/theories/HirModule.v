(** Lifting to modules. *)
From Coq Require Import String List ZArith Bool Lia.
From Verif Require Import Base HirType HirTypeOrder HirTypeSpec HirTypeTermination HirTypeEq HirTypeSub
  Hir HirCheck HirCoerce HirInfer HirValidate HirSpec HirParts HirStrip HirTyping HirExact HirSound HirMain.
Import ListNotations.

(** ** The parts of a stripped expression *)
Lemma eager_strip e : (forall s t a, e <> HCoerce s t a) -> eager_parts (strip e) = map strip (eager_parts e).
Proof.
  intros N. destruct e; cbn [strip eager_parts map]; try reflexivity.
  - f_equal. rewrite map_app, !map_map. cbn [snd]. destruct else_ as [[o b]|]; reflexivity.
  - clear; induction elements as [|el es IH]; [reflexivity|]. cbn [map flat_map]. rewrite map_app, IH. destruct el; reflexivity.
  - rewrite !map_map. reflexivity.
  - rewrite !map_map. reflexivity.
  - exfalso. eapply N. reflexivity.
Qed.

Lemma lazy_strip e : (forall t a, e <> HThunk t a) -> (forall s t a, e <> HCoerce s t a) -> lazy_parts (strip e) = map strip (lazy_parts e).
Proof.
  intros T N. destruct e; cbn [strip lazy_parts map]; try reflexivity.
  - clear; induction elements as [|el es IH]; [reflexivity|]. cbn [map flat_map]. rewrite map_app, IH. destruct el; reflexivity.
  - rewrite map_app. cbn [map]. apply (f_equal (fun l => l ++ [strip e])%list).
    clear; induction branches as [|[names its cond] bs IH]; [reflexivity|]. cbn [map flat_map]. rewrite map_app, IH.
    unfold branch_parts. cbn [b_iteratees b_condition]. rewrite map_app, !map_map. cbn [snd]. destruct cond; reflexivity.
  - exfalso. eapply T. reflexivity.
  - exfalso. eapply N. reflexivity.
Qed.

Lemma bodies_strip e : (forall t a, e <> HThunk t a) -> (forall s t a, e <> HCoerce s t a) -> bodies (strip e) = map (fun b => (fst b, strip (snd b))) (bodies e).
Proof.
  intros T N. destruct e; cbn [strip bodies map]; try reflexivity.
  - exfalso. eapply T. reflexivity.
  - exfalso. eapply N. reflexivity.
Qed.

Lemma no_thunks_part e p : In p (parts e) -> no_thunks e -> no_thunks p.
Proof. intros Hp H t a X. eapply H, occurs_in_part; eassumption. Qed.
Lemma no_thunks_self e t a : no_thunks e -> e <> HThunk t a.
Proof. intros H ->. eapply H. exists None, None. apply within_self. Qed.

Lemma within_strip c e c' t a : within c e c' (HTry t a) -> no_thunks e -> exists a', within c (strip e) c' (HTry None a').
Proof.
  remember (HTry t a) as e' eqn:He. intros H. induction H as [c e|c e p c' e' Hp _ IH|c e p c' e' Hp _ IH|c e s p c' e' Hp _ IH]; intros N.
  - subst. cbn [strip]. eexists. apply within_self.
  - destruct (IH He) as [a' X]; [eapply no_thunks_part; [apply eager_part, Hp|exact N]|].
    destruct e; try (exists a'; eapply within_eager; [|exact X]; rewrite eager_strip by congruence; apply in_map, Hp).
    cbn [eager_parts] in Hp. destruct Hp as [<-|[]]. exists a'. exact X.
  - destruct (IH He) as [a' X]; [eapply no_thunks_part; [apply lazy_part, Hp|exact N]|].
    exists a'. eapply within_lazy; [|exact X]. rewrite lazy_strip; [apply in_map, Hp|intros; apply no_thunks_self, N|].
    intros s1 t1 a1 ->. destruct Hp.
  - destruct (IH He) as [a' X]; [eapply no_thunks_part; [eapply body_part, Hp|exact N]|].
    exists a'. eapply within_body; [|exact X]. rewrite bodies_strip; [apply in_map_iff; exists (s, p); auto|intros; apply no_thunks_self, N|].
    intros s1 t1 a1 ->. destruct Hp.
Qed.

Lemma within_unstrip e : forall c c' t a, within c (strip e) c' (HTry t a) -> no_thunks e -> exists t' a', within c e c' (HTry t' a').
Proof.
  induction e as [e IH] using parts_ind. intros c c' t a H N.
  destruct (match e with HCoerce _ _ b => Some b | _ => None end) as [b|] eqn:Ec.
  - destruct e; try discriminate. cbn [strip] in H. destruct (IH e) with (c := c) (c' := c') (t := t) (a := a) as (t' & a' & X); [spart|exact H|eapply no_thunks_part; [|exact N]; spart|].
    exists t', a'. eapply within_eager; [|exact X]. left. reflexivity.
  - assert (Nc : forall s u x, e <> HCoerce s u x) by (intros s u x ->; discriminate).
    assert (Nt : forall u x, e <> HThunk u x) by (intros u x; apply no_thunks_self, N).
    inversion H as [c0 e0 Z1 Z2 Z3|? ? p ? ? Hp X|? ? p ? ? Hp X|? ? s p ? ? Hp X]; subst.
    + destruct e; try discriminate. eexists. eexists. apply within_self.
    + rewrite (eager_strip e Nc) in Hp. apply in_map_iff in Hp. destruct Hp as (q & <- & Hq).
      destruct (IH q (eager_part _ _ Hq) _ _ _ _ X) as (t' & a' & Y); [eapply no_thunks_part; [apply eager_part, Hq|exact N]|].
      exists t', a'. eapply within_eager; eassumption.
    + rewrite (lazy_strip e Nt Nc) in Hp. apply in_map_iff in Hp. destruct Hp as (q & <- & Hq).
      destruct (IH q (lazy_part _ _ Hq) _ _ _ _ X) as (t' & a' & Y); [eapply no_thunks_part; [apply lazy_part, Hq|exact N]|].
      exists t', a'. eapply within_lazy; eassumption.
    + rewrite (bodies_strip e Nt Nc) in Hp. apply in_map_iff in Hp. destruct Hp as ([u q] & Z & Hq). injection Z as <- <-.
      destruct (IH q (body_part _ _ _ Hq) _ _ _ _ X) as (t' & a' & Y); [eapply no_thunks_part; [eapply body_part, Hq|exact N]|].
      exists t', a'. eapply within_body; eassumption.
Qed.

(** Thunks also survive stripping. *)
Lemma occurs_thunk_strip e t a : occurs (HThunk t a) e -> exists a', occurs (HThunk None a') (strip e).
Proof.
  intros (c & c' & H). remember (HThunk t a) as e' eqn:He.
  induction H as [c e|c e p c' e' Hp _ IH|c e p c' e' Hp _ IH|c e s p c' e' Hp _ IH].
  - subst. cbn [strip]. eexists. exists None, None. apply within_self.
  - destruct (IH He) as (a' & X). exists a'.
    destruct e; try (eapply occurs_in_part; [|exact X]; apply eager_part; rewrite eager_strip by congruence; apply in_map, Hp).
    cbn [eager_parts] in Hp. destruct Hp as [<-|[]]. exact X.
  - destruct (IH He) as (a' & X). exists a'. eapply occurs_in_part; [|exact X].
    destruct e; try (apply lazy_part; rewrite lazy_strip by congruence; apply in_map, Hp); try (destruct Hp; fail).
    apply lazy_part. cbn [strip lazy_parts]. destruct type; [destruct Hp|]. destruct Hp as [<-|[]]. left. reflexivity.
  - destruct (IH He) as (a' & X). exists a'. eapply occurs_in_part; [|exact X].
    destruct e; try (destruct Hp; fail).
    + eapply body_part. cbn [strip bodies]. destruct Hp as [Z|[]]. injection Z as -> ->. left. reflexivity.
    + apply lazy_part. cbn [strip lazy_parts]. destruct type; [|destruct Hp]. destruct Hp as [Z|[]]. injection Z as -> ->. left. reflexivity.
Qed.

Lemma occurs_thunk_unstrip e : forall t a, occurs (HThunk t a) (strip e) -> exists t' a', occurs (HThunk t' a') e.
Proof.
  induction e as [e IH] using parts_ind. intros t a (c & c' & H).
  apply within_part in H. destruct H as [H|(p & d & Hp & H)].
  - destruct e; try discriminate.
    + exists type, e. exists None, None. apply within_self.
    + cbn [strip] in H. destruct (IH e) with (t := t) (a := a) as (t' & a' & X); [spart| |].
      * rewrite <- H. exists None, None. apply within_self.
      * exists t', a'. eapply occurs_in_part; [|exact X]. spart.
  - assert (X : exists q, In q (parts e) /\ (p = strip q \/ (exists s u, e = HCoerce s u q /\ In p (parts (strip q))))).
    { destruct e; try (exists p; fail); unfold parts in Hp; rewrite !in_app_iff in Hp.
      all: try (destruct Hp as [Hp|[Hp|Hp]];
        [rewrite eager_strip in Hp by congruence; apply in_map_iff in Hp; destruct Hp as (q & <- & Hq); exists q; split; [apply eager_part, Hq|auto]
        |rewrite lazy_strip in Hp by congruence; apply in_map_iff in Hp; destruct Hp as (q & <- & Hq); exists q; split; [apply lazy_part, Hq|auto]
        |rewrite bodies_strip in Hp by congruence; rewrite map_map in Hp; apply in_map_iff in Hp; destruct Hp as ([u q] & <- & Hq); exists q; split; [eapply body_part, Hq|auto]]; fail).
      - cbn [strip eager_parts lazy_parts bodies map] in Hp. destruct Hp as [[]|[[<-|[]]|[]]]. exists e. split; [apply thunk_part|auto].
      - exists e. split; [spart|]. right. exists from, to. split; [reflexivity|]. unfold parts. rewrite !in_app_iff. exact Hp. }
    destruct X as (q & Hq & [->|(s & u & -> & Hp')]).
    + destruct (IH q Hq t a) as (t' & a' & Y); [exists d, c'; exact H|]. exists t', a'. eapply occurs_in_part; eassumption.
    + destruct (IH q Hq t a) as (t' & a' & Y); [eapply occurs_in_part; [exact Hp'|exists d, c'; exact H]|]. exists t', a'. eapply occurs_in_part; eassumption.
Qed.

Lemma no_thunks_same e e' : strip e = strip e' -> no_thunks e -> no_thunks e'.
Proof.
  intros H N t a X. apply occurs_thunk_strip in X. destruct X as [a' X]. rewrite <- H in X. apply occurs_thunk_unstrip in X.
  destruct X as (t' & b' & X). eapply N, X.
Qed.

(** Try operations are where they are in the source. *)
Lemma tries_same e e' : strip e = strip e' -> no_thunks e -> forall c c',
  (exists t a, within c e c' (HTry t a)) <-> (exists t a, within c e' c' (HTry t a)).
Proof.
  intros H N c c'. pose proof (no_thunks_same _ _ H N) as N'. split; intros (t & a & X).
  - apply within_strip in X; [|exact N]. destruct X as [a' X]. rewrite H in X. eapply within_unstrip; eassumption.
  - apply within_strip in X; [|exact N']. destruct X as [a' X]. rewrite <- H in X. eapply within_unstrip; eassumption.
Qed.

(** ** The coercer only adds conversions *)
Lemma coerce_to_plain n E R G e t e' : coerce_to n E R G e t = Ok e' -> plain e' = plain e.
Proof. unfold coerce_to. intros H. inv_ok. destruct y0; reflexivity. Qed.

Lemma coerce_into_plain n E R F G t e e' :
  (forall G' a, F G' e = Ok a -> plain a = plain e) ->
  coerce_into n E R F G t e = Ok e' -> plain e' = plain e.
Proof.
  unfold coerce_into. intros H X. inv_ok. rewrite (coerce_to_plain _ _ _ _ _ _ _ X). eapply H; eassumption.
Qed.

Lemma coerce_arguments_plain n E R F G es : forall ts es', List.length es = List.length ts ->
  (forall a t a', In a es -> coerce_into n E R F G t a = Ok a' -> plain a' = plain a) ->
  coerce_arguments n E R F G es ts = Ok es' -> map plain es' = map plain es.
Proof.
  induction es as [|a es IH]; intros [|t ts] es' L HF H; try discriminate; cbn [coerce_arguments] in H; inv_ok; [reflexivity|].
  cbn [map]. f_equal; [eapply HF; [left; reflexivity|eassumption]|]. eapply IH; [|intros; eapply HF; [right|]; eassumption|eassumption].
  cbn in L. lia.
Qed.

Definition plain_branch (b : comp_branch) : comp_branch :=
  match b with
  | CompBranch names its cond =>
      CompBranch names (map (fun it => (fst it, plain (snd it))) its)
        match cond with None => None | Some c => Some (plain c) end
  end.

Lemma coerce_branches_plain n E F bs :
  (forall G p a, In p (flat_map branch_parts bs) -> F G p = Ok a -> plain a = plain p) ->
  forall G r, coerce_branches n E F G bs = Ok r -> map plain_branch (snd r) = map plain_branch bs.
Proof.
  induction bs as [|[names its cond] bs IH]; intros HF G r H; cbn [coerce_branches] in H; inv_ok; [reflexivity|].
  cbn [snd map]. f_equal.
  - cbn [plain_branch]. f_equal.
    + eapply mapM_map; [exact Hy|]. intros x y_ Hx Hxy. inv_ok. cbn [snd]. f_equal. eapply HF; [|eassumption].
      cbn [flat_map]. apply in_or_app. left. unfold branch_parts. apply in_or_app. left. apply in_map, Hx.
    + destruct cond as [c|]; inv_ok; [|reflexivity]. f_equal. eapply HF; [|eassumption].
      cbn [flat_map]. apply in_or_app. left. unfold branch_parts. apply in_or_app. right. left. reflexivity.
  - eapply IH; [|eassumption]. intros G' p a Hp. apply HF. cbn [flat_map]. apply in_or_app. right. exact Hp.
Qed.

Lemma coerce_fields_plain n E R F G fts (fs fs' : list (string * hexpr)) :
  (forall f a, In f fs -> F G (snd f) = Ok a -> plain a = plain (snd f)) ->
  mapM (coerce_field n E R F G fts) fs = Ok fs' ->
  map (fun f => (fst f, plain (snd f))) fs' = map (fun f => (fst f, plain (snd f))) fs.
Proof.
  intros HF H. eapply mapM_map; [exact H|]. intros x y_ Hx Hxy. unfold coerce_field in Hxy. inv_ok. cbn [fst snd]. f_equal.
  match goal with X : coerce_to _ _ _ _ _ _ = Ok _ |- _ => rewrite (coerce_to_plain _ _ _ _ _ _ _ X) end. eapply HF; eassumption.
Qed.

Theorem coerce_plain n E R e0 : full_calls n E e0 ->
  forall G e, coerce n E R G e0 = Ok e -> plain e = plain e0.
Proof.
  induction e0 as [e0 IH] using parts_ind. intros FC G e H.
  assert (IH' : forall G' p a, In p (parts e0) -> coerce n E R G' p = Ok a -> plain a = plain p).
  { intros G' p a Hp. apply IH; [exact Hp|]. eapply full_calls_part; eassumption. }
  assert (IHi : forall G' t p a, In p (parts e0) -> coerce_into n E R (coerce n E R) G' t p = Ok a -> plain a = plain p).
  { intros G' t p a Hp. apply coerce_into_plain. intros G'' b. apply IH', Hp. }
  clear IH. destruct e0; cbn [coerce] in H; inv_ok; cbn [plain]; try reflexivity;
    try (f_equal; first [eapply IHi; [|eassumption]; spart | eapply IH'; [|eassumption]; spart]; fail).
  - f_equal; [eapply IH'; [|eassumption]; spart|]. eapply coerce_arguments_plain; [|intros; eapply IHi; [|eassumption]|eassumption].
    + eapply FC; [exists None, None; apply within_self|eassumption].
    + apply argument_part. assumption.
  - f_equal; [eapply IH'; [|eassumption]; spart| |].
    + eapply mapM_map; [eassumption|]. intros x y' Hx Hxy. inv_ok. cbn [fst snd]. f_equal. eapply IHi; [|eassumption]. apply if_type_branch_part, Hx.
    + destruct else_ as [[t b]|]; inv_ok; [|reflexivity]. f_equal. f_equal. eapply IHi; [|eassumption]. apply if_type_else_part.
  - destruct name; inv_ok; cbn [plain]; (f_equal; (eapply IH'; [|eassumption]; spart)).
  - f_equal. eapply mapM_map; [eassumption|]. intros x y' Hx Hxy. unfold coerce_element in Hxy.
    destruct x; inv_ok; f_equal; eapply IHi; try eassumption; [apply single_part|apply multiple_part]; exact Hx.
  - f_equal; [eapply IHi; [|eassumption]; spart|]. change (map plain_branch (snd y) = map plain_branch branches).
    eapply coerce_branches_plain; [|eassumption]. intros G' p a Hp. apply IH'. apply lazy_part. cbn [lazy_parts]. apply in_or_app. left. exact Hp.
  - f_equal. eapply mapM_map; [eassumption|]. intros x y' Hx Hxy. unfold coerce_map_element in Hxy.
    destruct x as [a b|m]; inv_ok.
    + destruct (entry_parts key_type value_type _ _ _ Hx). f_equal; eapply IHi; eassumption.
    + f_equal. eapply IHi; [|eassumption]. apply spread_part, Hx.
  - destruct o; inv_ok; cbn [plain]; (f_equal; first [eapply IHi; [|eassumption]; spart | eapply IH'; [|eassumption]; spart]).
  - f_equal. eapply coerce_fields_plain; [|eassumption]. intros f a Hf. apply IH', record_part, Hf.
  - f_equal; [eapply IH'; [|eassumption]; spart|]. eapply coerce_fields_plain; [|eassumption]. intros f a Hf. apply IH', update_part, Hf.
  - f_equal. eapply IHi; [|eassumption]. apply thunk_part.
  - eapply IH'; [|eassumption]. spart.
Qed.


(** ** Modules *)
Definition same_def (P : list (string * ty) -> ty -> hexpr -> hexpr -> Prop) (d d' : string * lambda) : Prop :=
  fst d' = fst d /\ l_arguments (snd d') = l_arguments (snd d) /\ l_result (snd d') = l_result (snd d) /\
  P (l_arguments (snd d)) (l_result (snd d)) (l_body (snd d)) (l_body (snd d')).

Lemma same_env P defs defs' : Forall2 (same_def P) defs defs' ->
  map (fun d => (fst d, lambda_type (snd d))) defs' = map (fun d => (fst d, lambda_type (snd d))) defs.
Proof.
  induction 1 as [|d d' l l' (H1 & H2 & H3 & _) _ IH]; [reflexivity|]. cbn. rewrite IH, H1. unfold lambda_type. rewrite H2, H3. reflexivity.
Qed.

Lemma infer_module_defs n E R m m1 : infer_module n E R m = Ok m1 ->
  h_declared m1 = h_declared m /\
  Forall2 (same_def (fun args r b b' => infer n E R (args_env args (module_env m)) b = Ok b')) (h_defs m) (h_defs m1).
Proof.
  unfold infer_module. intros H. inv_ok. cbn [h_declared h_defs]. split; [reflexivity|]. apply mapM_ok in Hy.
  induction Hy as [|d d' l l' Hd _ IH]; constructor; [|exact IH]. cbv beta in Hd. unfold infer_lambda in Hd. inv_ok.
  split; [reflexivity|]. split; [reflexivity|]. split; [reflexivity|]. cbn [l_body snd]. assumption.
Qed.

Lemma coerce_module_defs n E R m m1 : coerce_module n E R m = Ok m1 ->
  h_declared m1 = h_declared m /\
  Forall2 (same_def (fun args r b b' => coerce_into n E R (coerce n E R) (args_env args (module_env m)) r b = Ok b')) (h_defs m) (h_defs m1).
Proof.
  unfold coerce_module. intros H. inv_ok. cbn [h_declared h_defs]. split; [reflexivity|]. apply mapM_ok in Hy.
  induction Hy as [|d d' l l' Hd _ IH]; constructor; [|exact IH]. cbv beta in Hd. unfold coerce_lambda in Hd. inv_ok.
  split; [reflexivity|]. split; [reflexivity|]. split; [reflexivity|]. cbn [l_body snd]. assumption.
Qed.

Lemma check_module_defs n E R m : check_module n E R m = Ok tt ->
  forall d, In d (h_defs m) -> check_lambda n E R (module_env m) (snd d) = Ok tt.
Proof.
  unfold check_module. intros H d Hd. inv_ok. apply mapM_ok in Hy. induction Hy as [|d0 u l l' Hd0 _ IH]; [destruct Hd|].
  destruct Hd as [<-|Hd]; [destruct u; exact Hd0|apply IH, Hd].
Qed.

Lemma module_env_same m m1 P : h_declared m1 = h_declared m -> Forall2 (same_def P) (h_defs m) (h_defs m1) -> module_env m1 = module_env m.
Proof. intros H F. unfold module_env. rewrite H, (same_env _ _ _ F). reflexivity. Qed.

Lemma module_env_ok f E m : types_known f E (module_written m) -> HirTyping.env_ok f E (module_env m).
Proof.
  unfold types_known, module_written, HirTyping.env_ok, module_env. intros H. apply Forall_app in H. destruct H as [H1 H2].
  apply Forall_rev, Forall_app. split.
  - rewrite Forall_forall in *. intros b Hb. apply H1, in_map, Hb.
  - rewrite Forall_forall in *. intros b Hb. apply in_map_iff in Hb. destruct Hb as (d & <- & Hd). cbn [snd]. unfold lambda_type.
    apply ok_function. assert (X : forall t, In t (lambda_written (snd d)) -> ok f E t) by (intros t Ht; apply H2, in_flat_map; eauto).
    unfold lambda_written in X. split; [rewrite Forall_forall; intros t Ht; apply X, in_or_app; left; exact Ht|apply X, in_or_app; right; left; reflexivity].
Qed.

Lemma module_def_ok f E m d : types_known f E (module_written m) -> In d (h_defs m) ->
  Forall (ok f E) (map snd (l_arguments (snd d))) /\ ok f E (l_result (snd d)) /\ types_known f E (written (l_body (snd d))).
Proof.
  unfold types_known, module_written. intros H Hd. apply Forall_app in H. destruct H as [_ H]. rewrite Forall_forall in H.
  assert (X : forall t, In t (lambda_written (snd d)) -> ok f E t) by (intros t Ht; apply H, in_flat_map; eauto).
  unfold lambda_written in X. split; [rewrite Forall_forall; intros t Ht; apply X, in_or_app; left; exact Ht|].
  split; [apply X, in_or_app; right; left; reflexivity|]. rewrite Forall_forall. intros t Ht. apply X, in_or_app. right. right. exact Ht.
Qed.

Lemma Forall2_in_r {A B} (P : A -> B -> Prop) l l' y : Forall2 P l l' -> In y l' -> exists x, In x l /\ P x y.
Proof.
  induction 1 as [|x y' l l' H _ IH]; intros []; [subst; exists x; split; [left; reflexivity|exact H]|].
  destruct (IH H0) as (z & Hz & Hp). exists z. split; [right; exact Hz|exact Hp].
Qed.
Lemma Forall2_in_l {A B} (P : A -> B -> Prop) l l' x : Forall2 P l l' -> In x l -> exists y, In y l' /\ P x y.
Proof.
  induction 1 as [|x' y l l' H _ IH]; intros []; [subst; exists y; split; [left; reflexivity|exact H]|].
  destruct (IH H0) as (z & Hz & Hp). exists z. split; [right; exact Hz|exact Hp].
Qed.

Definition analysis_steps n E R open m m1 m2 : Prop :=
  infer_module n E R m = Ok m1 /\ check_module n E R m1 = Ok tt /\ validate_try_module n E m1 = Ok tt /\
  validate_record_module n E open m1 = Ok tt /\ validate_unused_module n E m1 = Ok tt /\
  coerce_module n E R m1 = Ok m2 /\ check_module n E R m2 = Ok tt.

Lemma analyze_steps n E R open m m2 : analyze n E R open m = Ok m2 <-> exists m1, analysis_steps n E R open m m1 m2.
Proof.
  unfold analyze, analysis_steps. split.
  - intros H. bok H m1 H1. bok H u2 H2. bok H u3 H3. bok H u4 H4. bok H u5 H5. bok H m2' H6. bok H u7 H7. apply ok_inj in H. subst.
    destruct u2, u3, u4, u5, u7. exists m1. auto 10.
  - intros (m1 & H1 & H2 & H3 & H4 & H5 & H6 & H7). rewrite H1. cbn [bind]. rewrite H2. cbn [bind]. rewrite H3. cbn [bind].
    rewrite H4. cbn [bind]. rewrite H5. cbn [bind]. rewrite H6. cbn [bind]. rewrite H7. reflexivity.
Qed.


Theorem module_exact f E R n m m1 m2 : context_ok f E R -> types_known f E (module_written m) -> source_module m -> apart_module m ->
  infer_module n E R m = Ok m1 -> check_module n E R m1 = Ok tt -> coerce_module n E R m1 = Ok m2 ->
  exact_module E R m2.
Proof.
  intros C K S A Hi Hc Hco x l2 Hin.
  destruct (infer_module_defs _ _ _ _ _ Hi) as [D1 F1]. destruct (coerce_module_defs _ _ _ _ _ Hco) as [D2 F2].
  assert (E1 := module_env_same _ _ _ D1 F1). assert (E2 := module_env_same _ _ _ D2 F2).
  destruct (Forall2_in_r _ _ _ _ F2 Hin) as ([x1 l1] & Hin1 & Z1 & Z2 & Z3 & Hco1). cbn [fst snd] in *.
  destruct (Forall2_in_r _ _ _ _ F1 Hin1) as ([x0 l0] & Hin0 & Y1 & Y2 & Y3 & Hi0). cbn [fst snd] in *.
  pose proof (check_module_defs _ _ _ _ Hc _ Hin1) as Hc1. unfold check_lambda in Hc1. cbn [snd] in Hc1. bok Hc1 s Hs.
  destruct (module_def_ok f E m (x0, l0) K Hin0) as (O1 & O2 & O3). cbn [snd] in *.
  assert (HG : HirTyping.env_ok f E (args_env (l_arguments l0) (module_env m))).
  { apply env_args; [exact O1|]. apply module_env_ok, K. }
  unfold exact_lambda. fold (args_env (l_arguments l2) (module_env m2)). rewrite E2, E1, Z2, Y2, Z3, Y3.
  rewrite E1, Y2 in Hs. rewrite E1, Y2, Y3 in Hco1. rewrite Y3 in Hc1.
  eapply (into_sub f E R C n (l_body l0)); [|exact HG|exact O2|exact Hi0|exact Hs|exact Hc1|exact Hco1].
  split; [exact O3|]. apply main_ok; [exact C|exact O3|apply (S x0 l0 Hin0)|apply (A x0 l0 Hin0)].
Qed.

Lemma checked_body n E R m d : check_module n E R m = Ok tt -> In d (h_defs m) -> full_calls n E (l_body (snd d)).
Proof.
  intros H Hd. apply (check_module_defs _ _ _ _ H) in Hd. unfold check_lambda in Hd. bok Hd s Hs. eapply check_full_calls.
  right. exists (args_env (l_arguments (snd d)) (module_env m)), s. exact Hs.
Qed.

Lemma strip_defs P defs defs' : Forall2 (same_def P) defs defs' ->
  (forall d d', In d defs -> same_def P d d' -> strip (l_body (snd d')) = strip (l_body (snd d))) ->
  map (fun d => (fst d, Lambda (l_arguments (snd d)) (l_result (snd d)) (strip (l_body (snd d))))) defs' =
  map (fun d => (fst d, Lambda (l_arguments (snd d)) (l_result (snd d)) (strip (l_body (snd d))))) defs.
Proof.
  induction 1 as [|d d' l l' H _ IH]; intros X; [reflexivity|]. cbn. rewrite IH by (intros a b Ha; apply X; right; exact Ha).
  rewrite (X d d' (or_introl eq_refl) H). destruct H as (-> & -> & -> & _). reflexivity.
Qed.

Theorem infer_module_strip n E R m m1 : infer_module n E R m = Ok m1 -> strip_module m1 = strip_module m.
Proof.
  intros H. destruct (infer_module_defs _ _ _ _ _ H) as [D F]. unfold strip_module. rewrite D. f_equal.
  eapply strip_defs; [exact F|]. intros d d' _ (_ & _ & _ & X). eapply infer_strip, X.
Qed.

Theorem coerce_module_strip n E R m m1 : check_module n E R m = Ok tt -> coerce_module n E R m = Ok m1 -> strip_module m1 = strip_module m.
Proof.
  intros Hc H. destruct (coerce_module_defs _ _ _ _ _ H) as [D F]. unfold strip_module. rewrite D. f_equal.
  eapply strip_defs; [exact F|]. intros d d' Hd (_ & _ & _ & X). eapply coerce_into_strip; [|exact X].
  intros G e He. eapply coerce_strip; [eapply checked_body; eassumption|exact He].
Qed.

Theorem coerce_module_plain n E R m m1 : check_module n E R m = Ok tt -> coerce_module n E R m = Ok m1 -> plain_module m1 = plain_module m.
Proof.
  intros Hc H. destruct (coerce_module_defs _ _ _ _ _ H) as [D F]. unfold plain_module. rewrite D. f_equal.
  assert (X : forall d, In d (h_defs m) -> full_calls n E (l_body (snd d))) by (intros d Hd; eapply checked_body; eassumption).
  clear D H Hc. induction F as [|d d' l l' (H1 & H2 & H3 & H4) _ IH]; [reflexivity|]. cbn [map].
  rewrite IH by (intros a Ha; apply X; right; exact Ha). rewrite H1, H2, H3. f_equal. f_equal. f_equal.
  eapply coerce_into_plain; [|exact H4]. intros G e He. eapply coerce_plain; [apply X; left; reflexivity|exact He].
Qed.

(** ** Inference keeps types known *)
Lemma infer_module_known f E R n m m1 : context_ok f E R -> types_known f E (module_written m) ->
  infer_module n E R m = Ok m1 -> types_known f E (module_written m1).
Proof.
  intros C K H. destruct (infer_module_defs _ _ _ _ _ H) as [D F]. pose proof (module_env_ok f E m K) as HG.
  assert (KD := fun d => module_def_ok f E m d K). unfold types_known, module_written in *. rewrite D. apply Forall_app in K. destruct K as [K1 _].
  apply Forall_app. split; [exact K1|]. rewrite Forall_forall. intros t Ht. apply in_flat_map in Ht. destruct Ht as (d' & Hd' & Ht).
  destruct (Forall2_in_r _ _ _ _ F Hd') as (d & Hd & _ & H2 & H3 & H4). destruct (KD d Hd) as (O1 & O2 & O3).
  unfold lambda_written in Ht. rewrite H2, H3 in Ht. apply in_app_or in Ht. destruct Ht as [Ht|[<-|Ht]]; [|exact O2|].
  - rewrite Forall_forall in O1. apply O1, Ht.
  - assert (X : types_known f E (written (l_body (snd d')))).
    { eapply (infer_ok f E R C n (l_body (snd d)) O3); [|exact H4]. apply env_args; assumption. }
    unfold types_known in X. rewrite Forall_forall in X. apply X, Ht.
Qed.

(** ** Try operations *)
Lemma tries_allowed_strip E m m1 : strip_module m1 = strip_module m -> no_thunks_module m -> tries_allowed E m1 <-> tries_allowed E m.
Proof.
  intros H N. unfold strip_module in H. injection H as _ H.
  assert (F : Forall2 (fun d d' => fst d = fst d' /\ l_result (snd d) = l_result (snd d') /\ strip (l_body (snd d)) = strip (l_body (snd d'))) (h_defs m) (h_defs m1)).
  { revert H. unfold no_thunks_module in N. clear N. generalize (h_defs m). generalize (h_defs m1). induction l as [|d' l' IH]; intros [|d l] H; try discriminate; constructor.
    - cbn in H. injection H as H1 H2 H3 H4 H5. auto.
    - apply IH. cbn in H. injection H as _ _ _ _ H. exact H. }
  assert (T : forall (d d' : string * lambda), In d (h_defs m) -> strip (l_body (snd d)) = strip (l_body (snd d')) -> forall c c',
    (exists t a, within c (l_body (snd d)) c' (HTry t a)) <-> (exists t a, within c (l_body (snd d')) c' (HTry t a))).
  { intros [x l] d' Hd Hs c c'. apply tries_same; [exact Hs|]. eapply N, Hd. }
  split; intros A x l Hin c t a Hw.
  - destruct (Forall2_in_l _ _ _ _ F Hin) as ([x' l'] & Hin' & Z1 & Z2 & Z3). cbn [fst snd] in *.
    destruct (proj1 (T (x, l) (x', l') Hin Z3 _ _) (ex_intro _ t (ex_intro _ a Hw))) as (t' & a' & X). rewrite Z2 in X. eapply A; eassumption.
  - destruct (Forall2_in_r _ _ _ _ F Hin) as ([x' l'] & Hin' & Z1 & Z2 & Z3). cbn [fst snd] in *.
    destruct (proj2 (T (x', l') (x, l) Hin' Z3 _ _) (ex_intro _ t (ex_intro _ a Hw))) as (t' & a' & X). rewrite <- Z2 in X. eapply A; eassumption.
Qed.

Lemma known_result f E m d : types_known f E (module_written m) -> In d (h_defs m) ->
  types_known f E (opt_types (Some (l_result (snd d))) ++ written (l_body (snd d))).
Proof. intros K Hd. destruct (module_def_ok f E m d K Hd) as (_ & H1 & H2). constructor; assumption. Qed.

Lemma validate_try_module_sound f E n m : wf f E -> types_known f E (module_written m) ->
  validate_try_module n E m = Ok tt -> tries_allowed E m.
Proof.
  intros W K H x l Hin c t a Hw. unfold validate_try_module in H. pose proof (proj1 (each_ok _ _) H _ Hin) as Hd. cbn [snd] in Hd.
  eapply validate_try_sound; [exact W| |exact Hd|exact Hw]. apply (known_result f E m (x, l) K Hin).
Qed.

Lemma ev_each {A} (F : nat -> A -> res unit) l : (forall a, In a l -> ev (fun n => F n a = Ok tt)) -> ev (fun n => each (F n) l = Ok tt).
Proof.
  induction l as [|a l IH]; intros H; [apply ev_all; reflexivity|].
  eapply ev_impl; [|exact (ev_and _ _ (H a (or_introl eq_refl)) (IH (fun b Hb => H b (or_intror Hb))))].
  intros n [H1 H2]. cbn [each]. rewrite H1. exact H2.
Qed.

Lemma validate_try_module_complete f E m : wf f E -> types_known f E (module_written m) -> no_thunks_module m ->
  tries_allowed E m -> exists N, forall n, N <= n -> validate_try_module n E m = Ok tt.
Proof.
  intros W K N A. apply (ev_each (fun n d => validate_try n E (Some (l_result (snd d))) (l_body (snd d)))). intros [x l] Hin. cbn [snd].
  apply (validate_try_complete f E W); [apply (known_result f E m (x, l) K Hin)| |].
  - intros a. eapply N. exact Hin.
  - intros c t a Hw. eapply A; eassumption.
Qed.

Lemma no_thunks_infer n E R m m1 : infer_module n E R m = Ok m1 -> no_thunks_module m -> no_thunks_module m1.
Proof.
  intros H N x l Hin. destruct (infer_module_defs _ _ _ _ _ H) as [_ F]. destruct (Forall2_in_r _ _ _ _ F Hin) as ([x0 l0] & Hin0 & _ & _ & _ & Hi).
  cbn [snd] in Hi. eapply no_thunks_same; [symmetry; eapply infer_strip, Hi|eapply N, Hin0].
Qed.

(** ** Statements and records *)
Inductive label := Statement (t : option ty) | Access (t : option ty).
Definition label_of (e : hexpr) : list label :=
  match e with
  | HLet None t _ _ => [Statement t]
  | _ => match accessed e with Some t => [Access t] | None => [] end
  end.
Definition labels (e : hexpr) : list label := flat_map label_of (visit e).

Lemma in_labels e b : In b (labels e) <-> exists x, outside_conditions e x /\ In b (label_of x).
Proof.
  unfold labels. rewrite in_flat_map. split; intros (x & H1 & H2); exists x; (split; [apply visit_outside, H1|exact H2]).
Qed.

Lemma outside_labels e b : In b (labels e) <-> In b (label_of e) \/ exists p, In p (parts_outside e) /\ In b (labels p).
Proof.
  rewrite in_labels. split.
  - intros (x & H & Hb). inversion H as [|e0 p x0 Hp Hx]; subst; [left; exact Hb|]. right. exists p. split; [exact Hp|]. apply in_labels. eauto.
  - intros [Hb|(p & Hp & Hb)]; [exists e; split; [apply out_self|exact Hb]|]. apply in_labels in Hb. destruct Hb as (x & Hx & Hb).
    exists x. split; [eapply out_part; eassumption|exact Hb].
Qed.

Lemma label_of_plain e : (forall s t a, e <> HCoerce s t a) -> label_of (plain e) = label_of e.
Proof. destruct e; intros N; try reflexivity. exfalso. eapply N. reflexivity. Qed.

Lemma parts_outside_plain e : (forall s t a, e <> HCoerce s t a) -> parts_outside (plain e) = map plain (parts_outside e).
Proof.
  destruct e; intros N; try reflexivity; unfold parts_outside, parts; cbn [plain eager_parts lazy_parts bodies map app snd].
  - rewrite !map_app. reflexivity.
  - rewrite !app_nil_r. f_equal. rewrite map_app, !map_map. cbn [snd]. destruct else_ as [[o b]|]; reflexivity.
  - clear. rewrite !app_nil_r. induction elements as [|el es IH]; [reflexivity|]. cbn [map flat_map]. rewrite map_app, IH. destruct el; reflexivity.
  - rewrite map_app. cbn [map]. apply (f_equal (fun l => l ++ [plain e])%list).
    clear; induction branches as [|[names its cond] bs IH]; [reflexivity|]. cbn [map flat_map]. rewrite map_app, IH.
    cbn [b_iteratees]. rewrite !map_map. reflexivity.
  - clear. rewrite !app_nil_r. induction elements as [|el es IH]; [reflexivity|]. cbn [map flat_map]. rewrite map_app, IH. destruct el; reflexivity.
  - rewrite !app_nil_r, !map_map. reflexivity.
  - rewrite !app_nil_r, !map_map. reflexivity.
  - destruct type; reflexivity.
  - exfalso. eapply N. reflexivity.
Qed.

Lemma labels_plain e b : In b (labels (plain e)) <-> In b (labels e).
Proof.
  induction e as [e IH] using parts_ind.
  destruct (match e with HCoerce _ _ a => Some a | _ => None end) as [a|] eqn:Ec.
  - destruct e; try discriminate. cbn [plain]. rewrite (IH e) by spart. rewrite (outside_labels (HCoerce _ _ _)). cbn. firstorder congruence.
  - assert (N : forall s t a, e <> HCoerce s t a) by (intros s t a ->; discriminate).
    rewrite outside_labels, (outside_labels e), label_of_plain, parts_outside_plain by exact N. split; intros [H|(p & Hp & H)]; auto; right.
    + apply in_map_iff in Hp. destruct Hp as (q & <- & Hq). exists q. split; [exact Hq|]. apply IH; [apply outside_part, Hq|exact H].
    + exists (plain p). split; [apply in_map, Hp|]. apply IH; [apply outside_part, Hp|exact H].
Qed.

Definition module_labels (m : hmodule) : list label := flat_map (fun d => labels (l_body (snd d))) (h_defs m).

Lemma module_labels_plain m b : In b (module_labels (plain_module m)) <-> In b (module_labels m).
Proof.
  unfold module_labels. rewrite !in_flat_map. cbn [plain_module h_defs]. split.
  - intros (d & Hd & H). apply in_map_iff in Hd. destruct Hd as (d0 & <- & Hd). cbn [snd l_body] in H. exists d0. split; [exact Hd|]. apply labels_plain, H.
  - intros (d & Hd & H). eexists. split; [apply in_map, Hd|]. cbn [snd l_body]. apply labels_plain, H.
Qed.

Lemma module_labels_same m m' : plain_module m = plain_module m' -> forall b, In b (module_labels m) <-> In b (module_labels m').
Proof. intros H b. rewrite <- (module_labels_plain m), <- (module_labels_plain m'), H. reflexivity. Qed.

Lemma module_labels_visit m b : In b (module_labels m) <-> exists x, In x (visit_module m) /\ In b (label_of x).
Proof.
  unfold module_labels, visit_module, labels. rewrite in_flat_map. split.
  - intros (d & Hd & H). apply in_flat_map in H. destruct H as (x & Hx & H). exists x. split; [apply in_flat_map; eauto|exact H].
  - intros (x & Hx & H). apply in_flat_map in Hx. destruct Hx as (d & Hd & Hx). exists d. split; [exact Hd|]. apply in_flat_map. eauto.
Qed.

Lemma no_discards_labels E m : no_discards E m <-> forall t, In (Statement t) (module_labels m) -> exists s, t = Some s /\ ~ discards_error E s.
Proof.
  unfold module_labels. split.
  - intros H t Ht. apply in_flat_map in Ht. destruct Ht as ([x l] & Hd & Ht). cbn [snd] in Ht. apply in_labels in Ht. destruct Ht as (e & He & Hb).
    unfold label_of in Hb. destruct e; cbn [accessed] in Hb; try (destruct Hb as [Hb|[]]; discriminate); try destruct Hb.
    destruct name; [destruct Hb|]. destruct Hb as [Hb|[]]. injection Hb as ->. eapply H; eassumption.
  - intros H x l Hin t b k Ho. apply H, in_flat_map. exists (x, l). split; [exact Hin|]. cbn [snd]. apply in_labels. eexists. split; [exact Ho|]. left. reflexivity.
Qed.

Lemma accesses_open_labels E open m : accesses_open E open m <-> forall t, In (Access t) (module_labels m) -> exists s, t = Some s /\ record_among E open s.
Proof.
  unfold module_labels. split.
  - intros H t Ht. apply in_flat_map in Ht. destruct Ht as ([x l] & Hd & Ht). cbn [snd] in Ht. apply in_labels in Ht. destruct Ht as (e & He & Hb).
    unfold label_of in Hb. destruct e; cbn [accessed] in Hb; try (destruct Hb; fail); try (destruct name; destruct Hb as [Hb|[]]; discriminate);
      try (destruct name; [destruct Hb|destruct Hb as [Hb|[]]; discriminate]); (destruct Hb as [Hb|[]]; injection Hb as <-); eapply H; try eassumption; reflexivity.
  - intros H x l Hin e t Ho Ha. apply H, in_flat_map. exists (x, l). split; [exact Hin|]. cbn [snd]. apply in_labels. exists e. split; [exact Ho|].
    destruct e; try discriminate; cbn [accessed] in Ha; injection Ha as <-; left; reflexivity.
Qed.

Lemma visit_module_known f E m x : types_known f E (module_written m) -> In x (visit_module m) -> types_known f E (written x).
Proof.
  intros K Hx. unfold visit_module in Hx. apply in_flat_map in Hx. destruct Hx as (d & Hd & Hx). destruct (module_def_ok f E m d K Hd) as (_ & _ & O).
  eapply written_known; [exact O|]. apply visit_outside, Hx.
Qed.

Lemma validate_unused_module_sound f E n m : wf f E -> types_known f E (module_written m) ->
  validate_unused_module n E m = Ok tt -> no_discards E m.
Proof.
  intros W K H. apply no_discards_labels. intros t Ht. apply module_labels_visit in Ht. destruct Ht as (x & Hx & Hb).
  pose proof (proj1 (each_ok _ _) H x Hx) as Hv. unfold label_of in Hb.
  destruct x; cbn [accessed] in Hb; try (destruct Hb as [Hb|[]]; discriminate); try destruct Hb.
  destruct name; [destruct Hb|]. destruct Hb as [Hb|[]]. injection Hb as ->. eapply validate_unused_sound; [exact W|eapply visit_module_known; eassumption|exact Hv|reflexivity].
Qed.

Lemma validate_record_module_sound E n open m : validate_record_module n E open m = Ok tt -> accesses_open E open m.
Proof.
  intros H x l Hin e t Ho Ha. eapply (validate_record_sound n); [|exact Ha]. apply (proj1 (each_ok _ _) H). unfold visit_module.
  apply in_flat_map. exists (x, l). split; [exact Hin|]. apply visit_outside, Ho.
Qed.

Lemma checked_outside n E R e x : outside_conditions e x -> checked n E R e -> checked n E R x.
Proof.
  induction 1 as [e|e p x Hp _ IH]; intros Hc; [exact Hc|]. apply IH. destruct Hc as [(b & ->)|(G & s & Hs)]; [destruct Hp|].
  eapply check_parts; [exact Hs|apply outside_part, Hp].
Qed.

Lemma checked_visit n E R m x : check_module n E R m = Ok tt -> In x (visit_module m) -> checked n E R x.
Proof.
  intros H Hx. unfold visit_module in Hx. apply in_flat_map in Hx. destruct Hx as (d & Hd & Hx).
  apply (check_module_defs _ _ _ _ H) in Hd. unfold check_lambda in Hd. bok Hd s Hs. eapply checked_outside; [apply visit_outside, Hx|].
  right. eauto.
Qed.

Lemma validate_unused_module_complete f E R k m : wf f E -> types_known f E (module_written m) -> check_module k E R m = Ok tt ->
  no_discards E m -> exists N, forall n, N <= n -> validate_unused_module n E m = Ok tt.
Proof.
  intros W K Hc H. apply (ev_each (fun n e => validate_unused n E e)). intros e He.
  apply (validate_unused_complete f E e W); [eapply visit_module_known; eassumption|].
  intros x t b r ->. pose proof (checked_visit _ _ _ _ _ Hc He) as [(? & X)|(G & s & X)]; [discriminate|].
  cbn [check] in X. apply bind_ok in X. destruct X as (t' & Ht & _). destruct t as [t|]; [|discriminate]. exists t. split; [reflexivity|].
  intros ->. apply (proj1 (no_discards_labels E m)) with (t := Some t) in H; [destruct H as (s' & Z & H); injection Z as ->; exact H|].
  apply module_labels_visit. eexists. split; [exact He|]. left. reflexivity.
Qed.

Lemma validate_record_module_complete f E open m : wf f E ->
  accesses_open E open m -> exists N, forall n, N <= n -> validate_record_module n E open m = Ok tt.
Proof.
  intros W H. apply (ev_each (fun n e => validate_record n E open e)). intros e He. apply (validate_record_complete f E open e W).
  intros t Ha. apply (proj1 (accesses_open_labels E open m) H). apply module_labels_visit. exists e. split; [exact He|].
  destruct e; try discriminate; cbn [accessed] in Ha; injection Ha as <-; left; reflexivity.
Qed.

(** ** The whole analysis *)
Theorem analyze_sound f E R n open m m2 : context_ok f E R -> types_known f E (module_written m) -> source_module m ->
  analyze n E R open m = Ok m2 ->
  (apart_module m -> exact_module E R m2) /\ strip_module m2 = strip_module m /\
  (no_thunks_module m -> tries_allowed E m) /\ no_discards E m2 /\ accesses_open E open m2.
Proof.
  intros C K S H. apply analyze_steps in H. destruct H as (m1 & H1 & H2 & H3 & H4 & H5 & H6 & H7).
  pose proof (infer_module_known f E R n m m1 C K H1) as K1. pose proof (coerce_module_plain _ _ _ _ _ H2 H6) as P.
  pose proof (infer_module_strip _ _ _ _ _ H1) as S1.
  split; [intros A; exact (module_exact f E R n m m1 m2 C K S A H1 H2 H6)|]. split; [rewrite (coerce_module_strip _ _ _ _ _ H2 H6); exact S1|].
  split; [intros N; apply (tries_allowed_strip E m m1 S1 N); eapply validate_try_module_sound; [apply (ctx_types f E R C)|exact K1|exact H3]|].
  split.
  - apply no_discards_labels. intros t Ht. apply (module_labels_same _ _ P) in Ht.
    revert t Ht. apply no_discards_labels. eapply validate_unused_module_sound; [apply (ctx_types f E R C)|exact K1|exact H5].
  - apply accesses_open_labels. intros t Ht. apply (module_labels_same _ _ P) in Ht.
    revert t Ht. apply accesses_open_labels. eapply validate_record_module_sound; exact H4.
Qed.

(** Conversions only widen. *)
Definition typable E R (p : hexpr) : Prop := (exists b, p = HBuiltIn b) \/ exists G t, exact E R G p t.

Lemma exact_coercion E R G e t : exact E R G e t -> forall s u a, e = HCoerce s u a -> widens E s u.
Proof.
  induction 1; intros s0 u0 a0 Heq; try discriminate; try (eapply IHexact; exact Heq); try (eapply IHexact1; exact Heq).
  injection Heq as <- <- <-. assumption.
Qed.

Lemma combine_left {A B} (l : list A) : forall (l' : list B) x, List.length l = List.length l' -> In x l -> exists y, In (x, y) (combine l l').
Proof.
  induction l as [|a l IH]; intros [|b l'] x L H; try discriminate; [destruct H|]. destruct H as [<-|H]; [exists b; left; reflexivity|].
  cbn in L. injection L as L. destruct (IH l' x L H) as [y Hy]. exists y. right. exact Hy.
Qed.

Lemma exact_parts E R G e t : exact E R G e t -> forall p, In p (parts e) -> typable E R p.
Proof.
  intros H.
  apply (exact_min E R (fun G e t => forall p, In p (parts e) -> typable E R p)
    (fun G bs G' => forall p, In p (flat_map branch_parts bs) -> typable E R p)) with (v := G) (h := e) (t := t); try exact H; clear;
  unfold parts; cbn [eager_parts lazy_parts bodies map snd app]; try (intros; destruct H; fail); unfold typable; intros.
  all: rewrite ?app_nil_r in *; cbn [In app] in *; rewrite ?in_app_iff in *; cbn [In] in *.
  all: repeat match goal with X : _ \/ _ |- _ => destruct X | X : False |- _ => destruct X | X : ?a = ?b |- (exists _, ?b = _) \/ _ => subst b end; eauto.
  all: try (match goal with IH : forall p, _ -> _ |- _ => apply IH; rewrite !in_app_iff; tauto end; fail).
  - destruct (combine_left args ts p) as [t Ht]; try assumption. eauto.
  - destruct (combine_left args ts p) as [t Ht]; try assumption. eauto.
  - match goal with X : In p (map snd _) |- _ => apply in_map_iff in X; destruct X as ([bt b] & <- & X) end. cbn [snd]. eauto.
  - match goal with X : In p (map snd _) |- _ => apply in_map_iff in X; destruct X as ([bt b] & <- & X) end. cbn [snd]. eauto.
  - match goal with X : In p (flat_map _ _) |- _ => apply in_flat_map in X; destruct X as ([a|a] & X & [<-|[]]) end; eauto.
  - match goal with X : In p (flat_map _ _) |- _ => apply in_flat_map in X; destruct X as ([a b|a] & X & Hp) end; cbn [map_parts In] in Hp;
      repeat destruct Hp as [<-|Hp]; try destruct Hp; eauto.
  - match goal with X : In p (map snd _) |- _ => apply in_map_iff in X; destruct X as ([x b] & <- & X) end. cbn [snd].
    destruct (lookup fts x) as [ft|] eqn:L; [eauto|]. exfalso. eapply H1; eassumption.
  - match goal with X : In p (map snd _) |- _ => apply in_map_iff in X; destruct X as ([x b] & <- & X) end. cbn [snd].
    destruct (lookup fts x) as [ft|] eqn:L; [eauto|]. exfalso. match goal with X : forall x e, In (x, e) fs -> _ <> None |- _ => eapply X; eassumption end.
  - match goal with X : In p (flat_map _ _) |- _ => cbn [flat_map] in X; apply in_app_or in X; destruct X as [X|X]; [|auto] end.
    unfold branch_parts in *. cbn [b_iteratees b_condition] in *.
    match goal with X : In p (_ ++ _) |- _ => apply in_app_or in X; destruct X as [X|X] end.
    + match goal with X : In p (map snd _) |- _ => apply in_map_iff in X; destruct X as ([t e] & <- & X) end. cbn [snd].
      destruct (combine_left its ets (t, e)) as [et Het]; [congruence|assumption|]. eauto.
    + destruct cond as [c|]; [|match goal with X : In p [] |- _ => destruct X end]. match goal with X : In p [_] |- _ => destruct X as [<-|[]] end. eauto.
Qed.

Theorem exact_widens E R G e t : exact E R G e t -> forall s u a, occurs (HCoerce s u a) e -> widens E s u.
Proof.
  intros H s u a (c & c' & Hw).
  assert (T : typable E R e) by (right; eauto). clear H.
  remember (HCoerce s u a) as x eqn:Hx.
  assert (P : forall p, In p (parts e) -> typable E R p).
  { destruct T as [(b & ->)|(G' & t' & H)]; [intros p []|eapply exact_parts, H]. }
  assert (X : typable E R x).
  { clear Hx P. induction Hw as [c e|c e p c' x Hp _ IH|c e p c' x Hp _ IH|c e r p c' x Hp _ IH]; [exact T| | |];
      apply IH; (destruct T as [(b & ->)|(G' & t' & H)]; [destruct Hp|]); eapply exact_parts; try exact H; [apply eager_part|apply lazy_part|eapply body_part]; exact Hp. }
  subst x. destruct X as [(b & X)|(G' & t' & X)]; [discriminate|]. eapply exact_coercion; [exact X|reflexivity].
Qed.
