From Coq Require Import List Bool Arith Lia.
From Verif Require Import Base CpsStack CpsStackSpec.
Import ListNotations.

Lemma round_up_ge n a : 0 < a -> n <= round_up n a.
Proof.
  intros H. unfold round_up. pose proof (Nat.div_mod (n + a - 1) a ltac:(lia)) as X. pose proof (Nat.mod_upper_bound (n + a - 1) a ltac:(lia)).
  rewrite (Nat.mul_comm a) in X. lia.
Qed.
Lemma round_up_divide n a : Nat.divide a (round_up n a).
Proof. exists ((n + a - 1) / a). reflexivity. Qed.

Lemma type_size_ge l : layout_size l <= type_size l.
Proof. apply round_up_ge. unfold DEFAULT_MEMORY_ALIGNMENT. lia. Qed.
Lemma type_size_aligned l : Nat.divide (layout_align l) 8 -> Nat.divide 8 (type_size l).
Proof.
  intros H. unfold type_size, DEFAULT_MEMORY_ALIGNMENT. assert (layout_align l <= 8) by (apply Nat.divide_pos_le in H; lia).
  replace (Nat.max (layout_align l) 8) with 8 by lia. apply round_up_divide.
Qed.

(** *** Memory *)
Lemma realloc_length m n : length (realloc m n) = n.
Proof. unfold realloc. rewrite app_length, repeat_length, firstn_length. lia. Qed.
Lemma realloc_firstn m n k : k <= length m -> k <= n -> firstn k (realloc m n) = firstn k m.
Proof.
  intros H1 H2. unfold realloc. rewrite firstn_app, firstn_firstn, firstn_length. replace (Nat.min k n) with k by lia. replace (k - Nat.min n (length m)) with 0 by lia.
  cbn. apply app_nil_r.
Qed.

Lemma write_length m o v : o + length v <= length m -> length (write m o v) = length m.
Proof. intros H. unfold write. rewrite !app_length, firstn_length, map_length, skipn_length. lia. Qed.
Lemma write_firstn m o v : o <= length m -> firstn o (write m o v) = firstn o m.
Proof.
  intros H. unfold write. rewrite firstn_app, firstn_firstn, firstn_length. replace (Nat.min o o) with o by lia. replace (o - Nat.min o (length m)) with 0 by lia. cbn. apply app_nil_r.
Qed.
Lemma write_read m o v : o + length v <= length m -> read (write m o v) o (length v) = map Some v.
Proof.
  intros H. unfold read, write. rewrite skipn_app, firstn_length. replace (Nat.min o (length m)) with o by lia. rewrite skipn_all2 by (rewrite firstn_length; lia). rewrite Nat.sub_diag. cbn [skipn app].
  rewrite firstn_app, map_length, Nat.sub_diag. cbn [firstn]. rewrite app_nil_r. replace (length v) with (length (map (@Some byte) v)) by apply map_length. apply firstn_all.
Qed.

Lemma read_firstn m m' o n k : firstn k m = firstn k m' -> o + n <= k -> read m o n = read m' o n.
Proof.
  intros H Hk. unfold read. rewrite <- (firstn_skipn k m), <- (firstn_skipn k m'), H.
  rewrite !skipn_app, !firstn_app. f_equal. rewrite !skipn_length.
  set (q := length (firstn k m') - o). destruct (le_lt_dec k (length m')) as [L|L].
  - subst q. rewrite firstn_length. replace (n - (Nat.min k (length m') - o)) with 0 by lia. reflexivity.
  - (* both are shorter than k *) assert (L' : length (firstn k m) < k) by (rewrite H, firstn_length; lia). rewrite firstn_length in L'.
    rewrite !(skipn_all2 _ (n := k)) by lia. rewrite !skipn_nil. reflexivity.
Qed.

(** *** Growing *)
Lemma grow_ok : forall fuel needed m c, 0 < c -> length m = c -> needed - c < fuel ->
  exists m' c', grow fuel needed m c = Ok (m', c') /\ needed <= c' /\ length m' = c' /\ c <= c' /\ firstn c m' = m /\ (Nat.divide 8 c -> Nat.divide 8 c').
Proof.
  induction fuel as [|fuel IH]; intros needed m c Hc Hm Hf; [lia|]. cbn [grow]. destruct (Nat.leb_spec needed c) as [L|L].
  - exists m, c. repeat split; auto. rewrite <- Hm. apply firstn_all.
  - unfold CAPACITY_MULTIPLIER. destruct (IH needed (realloc m (2 * c)) (2 * c)) as (m' & c' & E & H1 & H2 & H3 & H4 & H5).
    + lia.
    + apply realloc_length.
    + lia.
    + exists m', c'. repeat split; auto; [lia| |].
      * replace c with (Nat.min c (2 * c)) by lia. rewrite <- firstn_firstn, H4. rewrite realloc_firstn by lia. rewrite <- Hm. apply firstn_all.
      * intros D. apply H5. apply Nat.divide_mul_r. exact D.
Qed.

Lemma grow_zero : forall fuel needed m, 0 < needed -> grow fuel needed m 0 = OutOfFuel.
Proof.
  induction fuel as [|fuel IH]; intros needed m H; [reflexivity|]. cbn [grow]. destruct (Nat.leb_spec needed 0); [lia|]. apply IH. exact H.
Qed.

(** *** Refinement *)
Fixpoint represents (m : list (option byte)) (n : nat) (l : list value) : Prop :=
  match l with
  | [] => n = 0
  | v :: l => exists o, n = o + type_size (value_layout v) /\ well_formed v /\
                read m o (layout_size (value_layout v)) = bytes_of v /\ represents m o l
  end.

Lemma represents_firstn m m' l : forall n, firstn n m = firstn n m' -> represents m n l -> represents m' n l.
Proof.
  induction l as [|v l IH]; intros n H; cbn; auto. intros (o & -> & Hw & Hr & Hl). exists o. split; [reflexivity|]. split; [exact Hw|]. split.
  - rewrite <- Hr. symmetry. eapply read_firstn; [exact H|]. pose proof (type_size_ge (value_layout v)). lia.
  - apply IH; [|exact Hl]. replace o with (Nat.min o (o + type_size (value_layout v))) by lia. rewrite <- !firstn_firstn, H. reflexivity.
Qed.

Record good (s : stack) (l : list value) : Prop := {
  good_memory : length (memory s) = capacity s;
  good_size : size s <= capacity s;
  good_capacity : 0 < capacity s;
  good_values : represents (memory s) (size s) l
}.

Lemma new_good n : 0 < n -> good (new n) [].
Proof.
  intros H. pose proof (round_up_ge n 8 ltac:(lia)). constructor; cbn [new memory size capacity].
  - apply repeat_length.
  - lia.
  - unfold DEFAULT_MEMORY_ALIGNMENT. lia.
  - reflexivity.
Qed.

Lemma push_good s l v : good s l -> well_formed v -> exists s', push s v = Ok s' /\ good s' (v :: l) /\
  size s' = size s + type_size (value_layout v) /\ capacity s <= capacity s' /\ (Nat.divide 8 (capacity s) -> Nat.divide 8 (capacity s')).
Proof.
  intros H Hv. unfold push. destruct (grow_ok (S (size s + type_size (value_layout v))) (size s + type_size (value_layout v)) (memory s) (capacity s)) as (m & c & E & H1 & H2 & H3 & H4 & H5).
  - exact (good_capacity _ _ H).
  - exact (good_memory _ _ H).
  - lia.
  - rewrite E. cbn [bind]. eexists. split; [reflexivity|]. cbn [size capacity]. split; [|split; [reflexivity|split; assumption]].
    pose proof (type_size_ge (value_layout v)) as T. pose proof (good_size _ _ H) as S. unfold well_formed in Hv.
    assert (W : size s + length (value_bytes v) <= length m) by lia.
    constructor; cbn [memory size capacity].
    + rewrite write_length; assumption.
    + exact H1.
    + pose proof (good_capacity _ _ H). lia.
    + exists (size s). split; [reflexivity|]. split; [exact Hv|]. split.
      * rewrite <- Hv. apply write_read. exact W.
      * apply (represents_firstn m); [symmetry; apply write_firstn; lia|]. apply (represents_firstn (memory s)); [|exact (good_values _ _ H)].
        rewrite <- H4. rewrite firstn_firstn. f_equal. lia.
Qed.

Lemma pop_good s l v y : good s (v :: l) -> layout_size y = layout_size (value_layout v) -> layout_align y = layout_align (value_layout v) ->
  exists s', pop s y = Ok (bytes_of v, s') /\ good s' l /\ size s' + type_size (value_layout v) = size s /\ capacity s' = capacity s.
Proof.
  intros H Hs Ha. destruct (good_values _ _ H) as (o & E & Hw & Hr & Hl). unfold pop. assert (type_size y = type_size (value_layout v)) as -> by (unfold type_size; rewrite Hs, Ha; reflexivity).
  destruct (Nat.ltb_spec (size s) (type_size (value_layout v))) as [L|L]; [lia|]. eexists. split; [cbn [size]; f_equal; f_equal|].
  - replace (size s - type_size (value_layout v)) with o by lia. rewrite Hs. exact Hr.
  - cbn [size capacity]. split; [|split; [lia|reflexivity]]. constructor; cbn [memory size capacity].
    + exact (good_memory _ _ H).
    + pose proof (good_size _ _ H). lia.
    + exact (good_capacity _ _ H).
    + replace (size s - type_size (value_layout v)) with o by lia. exact Hl.
Qed.

Lemma run_good : forall ops s l out l', good s l -> Forall pushed_well_formed ops -> list_run ops l = Some (out, l') ->
  exists s', stack_run ops s = Ok (map bytes_of out, s') /\ good s' l'.
Proof.
  induction ops as [|op ops IH]; intros s l out l' H Hf Hr; cbn [list_run stack_run] in *.
  - injection Hr as <- <-. exists s. auto.
  - inversion Hf as [|? ? H1 H2]; subst. destruct op as [v|y].
    + destruct (push_good s l v H H1) as (s' & E & H' & _). rewrite E. cbn [bind]. eapply IH; eauto.
    + destruct l as [|v l]; [discriminate|]. destruct (Nat.eqb_spec (layout_size y) (layout_size (value_layout v))) as [A|A]; [|discriminate].
      destruct (Nat.eqb_spec (layout_align y) (layout_align (value_layout v))) as [B|B]; [|discriminate]. cbn [andb] in Hr. destruct (list_run ops l) as [[out' l'']|] eqn:E; [|discriminate]. injection Hr as <- <-.
      destruct (pop_good s l v y H A B) as (s' & Ep & H' & _). rewrite Ep. cbn [bind]. destruct (IH s' l out' l'' H' H2 E) as (s'' & Es & H''). rewrite Es. cbn [bind map]. eauto.
Qed.

(** Sizes stay aligned when all types have an alignment up to 8. *)
Definition aligned_operation (op : stack_operation) : Prop :=
  match op with Push v => Nat.divide (layout_align (value_layout v)) 8 | Pop _ => True end.

Lemma divide_sub a b c : Nat.divide a b -> Nat.divide a c -> Nat.divide a (b - c).
Proof. intros [x ->] [y ->]. exists (x - y). rewrite Nat.mul_sub_distr_r. reflexivity. Qed.

Lemma represents_aligned m l : forall n, represents m n l -> Forall (fun v => Nat.divide (layout_align (value_layout v)) 8) l -> Nat.divide 8 n.
Proof.
  induction l as [|v l IH]; cbn; intros n H Hf; [subst; exists 0; reflexivity|]. destruct H as (o & -> & _ & _ & Hl). inversion Hf; subst.
  apply Nat.divide_add_r; [apply IH; assumption|apply type_size_aligned; assumption].
Qed.

Lemma run_aligned : forall ops s l out s', good s l -> Forall pushed_well_formed ops -> Forall aligned_operation ops ->
  Forall (fun v => Nat.divide (layout_align (value_layout v)) 8) l -> Nat.divide 8 (capacity s) ->
  (exists x, list_run ops l = Some x) -> stack_run ops s = Ok (out, s') ->
  size s' <= capacity s' /\ Nat.divide 8 (size s') /\ Nat.divide 8 (capacity s').
Proof.
  induction ops as [|op ops IH]; intros s l out s' H Hf Ha Hl Hc [x Hr] Hs; cbn [list_run stack_run] in *.
  - injection Hs as <- <-. split; [exact (good_size _ _ H)|]. split; [eapply represents_aligned; [exact (good_values _ _ H)|exact Hl]|exact Hc].
  - inversion Hf; subst. inversion Ha; subst. destruct op as [v|y].
    + destruct (push_good s l v H) as (s1 & E & H' & _ & _ & D); [assumption|]. rewrite E in Hs. cbn [bind] in Hs. eapply (IH s1 (v :: l)); eauto.
    + destruct l as [|v l]; [discriminate|]. destruct (Nat.eqb_spec (layout_size y) (layout_size (value_layout v))) as [A|A]; [|discriminate].
      destruct (Nat.eqb_spec (layout_align y) (layout_align (value_layout v))) as [B|B]; [|discriminate]. cbn [andb] in Hr. destruct (list_run ops l) as [[out' l'']|] eqn:E; [|discriminate].
      destruct (pop_good s l v y H A B) as (s1 & Ep & H' & _ & D). rewrite Ep in Hs. cbn [bind] in Hs. destruct (stack_run ops s1) as [[o1 s2]| | |] eqn:E2; try discriminate. cbn [bind] in Hs. injection Hs as <- <-.
      inversion Hl; subst. eapply (IH s1 l); eauto. rewrite D. exact Hc.
Qed.

(** *** Asynchronous stacks *)
Definition phase_actions (p : phase) : list action :=
  match p with
  | Running => [Suspend]
  | Suspended _ _ _ => [Resume; Restore; Suspend]
  | Resumed _ => [Restore; Suspend]
  | Bounced _ _ _ => [Resume; Suspend]
  end.
Definition phase_values (p : phase) : list value :=
  match p with
  | Running => []
  | Suspended s k f => [k; s; f]
  | Resumed f => [f]
  | Bounced s k v => [k; s; v]
  end.
Definition phase_ok (p : phase) : Prop :=
  match p with
  | Suspended s k _ | Bounced s k _ => value_layout s = pointer_layout /\ value_layout k = pointer_layout
  | _ => True
  end.

Record follows (s : async_stack) (p : phase) (l : list value) : Prop := {
  follows_actions : next_actions s = phase_actions p;
  follows_context : context s = true;
  follows_stack : good (raw s) (phase_values p ++ l);
  follows_ok : phase_ok p
}.

Lemma same_layout_eq x y : same_layout x y = true -> layout_size x = layout_size y /\ layout_align x = layout_align y.
Proof. unfold same_layout. rewrite andb_true_iff, !Nat.eqb_eq. auto. Qed.

Lemma with_raw_push {A} s l v (k : async_stack -> outcome A) : good (raw s) l -> well_formed v ->
  exists r, good r (v :: l) /\ with_raw s (push (raw s) v) k = k {| raw := r; context := context s; next_actions := next_actions s |}.
Proof. intros H Hv. destruct (push_good _ _ _ H Hv) as (r & E & G & _). exists r. rewrite E. auto. Qed.

Lemma with_pop_good {A} s l v y (k : list (option byte) -> async_stack -> outcome A) : good (raw s) (v :: l) ->
  layout_size y = layout_size (value_layout v) -> layout_align y = layout_align (value_layout v) ->
  exists r, good r l /\ with_pop s y k = k (bytes_of v) {| raw := r; context := context s; next_actions := next_actions s |}.
Proof. intros H H1 H2. destruct (pop_good _ _ _ _ H H1 H2) as (r & E & G & _). exists r. unfold with_pop. rewrite E. auto. Qed.

Ltac push_next := match goal with
  | G : good _ ?l |- context [with_raw ?s (push (raw ?s) ?v) ?k] =>
      let r := fresh "r" in let G' := fresh "G" in let E := fresh "E" in
      destruct (with_raw_push s l v k G ltac:(assumption)) as (r & G' & E); rewrite E; clear E; cbn [context next_actions]
  end.
Ltac pop_next := match goal with
  | G : good _ (?v :: ?l) |- context [with_pop ?s ?y ?k] =>
      let r := fresh "r" in let G' := fresh "G" in let E := fresh "E" in
      destruct (with_pop_good s l v y k G ltac:(congruence) ltac:(congruence)) as (r & G' & E); rewrite E; clear E; cbn [context next_actions]
  end.

Lemma perform_step s p l c : follows s p l -> call_ok c ->
  match protocol p l c with
  | Accepted p' l' r => exists s', perform s c = Done (reply_bytes r) s' /\ follows s' p' l'
  | Rejected => exists e s', perform s c = Failed e s'
  | Undefined => True
  end.
Proof.
  intros [Ha Hc Hs Hp] Ho.
  destruct p as [|st k f|f|st k v]; cbn [phase_actions phase_values app phase_ok] in *;
    destruct c as [st' k' f'|st' k' v'| |y|v'|y]; cbn [protocol]; try exact I; cbn [perform];
    try (unfold suspend, trampoline, resume, restore, validate_action; rewrite Ha; cbn [action_eqb]; eexists; eexists; reflexivity).
  - destruct Ho as ([Hst Hst'] & [Hk Hk'] & Hf). unfold suspend, validate_action. rewrite Ha. cbn [action_eqb push_next_actions app context next_actions].
    do 3 push_next. eexists. split; [reflexivity|]. constructor; cbn; auto.
  - destruct Ho as ([Hst Hst'] & [Hk Hk'] & Hf). unfold trampoline, validate_action. rewrite Ha. cbn [action_eqb push_next_actions app context next_actions].
    do 3 push_next. rewrite Hc. eexists. split; [reflexivity|]. constructor; cbn; auto.
  - push_next. eexists. split; [reflexivity|]. constructor; cbn; auto.
  - destruct l as [|v l]; [exact I|]. destruct (same_layout y (value_layout v)) eqn:E; [|exact I]. apply same_layout_eq in E. destruct E as [E1 E2].
    pop_next. eexists. split; [reflexivity|]. constructor; cbn; auto.
  - destruct Hp as [Hp1 Hp2]. unfold resume, validate_action. rewrite Ha. cbn [action_eqb]. do 2 pop_next. eexists. split; [reflexivity|]. constructor; cbn; auto.
  - destruct (same_layout y (value_layout f)) eqn:E; [|exact I]. apply same_layout_eq in E. destruct E as [E1 E2].
    unfold restore, validate_action. rewrite Ha. cbn [action_eqb]. pop_next. eexists. split; [reflexivity|]. constructor; cbn; auto.
  - destruct Hp as [Hp1 Hp2]. unfold resume, validate_action. rewrite Ha. cbn [action_eqb]. do 2 pop_next. eexists. split; [reflexivity|]. constructor; cbn; auto.
Qed.

Lemma perform_run_ok : forall calls s p l out ok, follows s p l -> Forall call_ok calls ->
  protocol_run p l calls = Some (out, ok) -> perform_run s calls = Some (map reply_bytes out, ok).
Proof.
  induction calls as [|c calls IH]; intros s p l out ok H Hf Hr; cbn [protocol_run perform_run] in *.
  - injection Hr as <- <-. reflexivity.
  - inversion Hf as [|? ? H1 H2]; subst. pose proof (perform_step s p l c H H1) as X. destruct (protocol p l c) as [p' l' r| |]; [| |discriminate].
    + destruct X as (s' & E & F). rewrite E. destruct (protocol_run p' l' calls) as [[rs ok']|] eqn:E'; [|discriminate]. injection Hr as <- <-.
      rewrite (IH s' p' l' rs ok' F H2 E'). reflexivity.
    + destruct X as (e & s' & E). rewrite E. injection Hr as <- <-. reflexivity.
Qed.

Lemma async_new_follows n : 0 < n -> follows (set_context (async_new n) true) Running [].
Proof. intros H. constructor; cbn; auto. apply new_good. exact H. Qed.
