From Coq Require Import ZArith List Bool Lia Arith.
From Verif Require Import Arc ArcSpec.
Import ListNotations.
Local Open Scope Z_scope.

(** *** Lists of threads *)
Section Lists.
  Context {A : Type}.
  Implicit Types (l : list A).
  Lemma update_length l i x : length (update l i x) = length l.
  Proof. revert i. induction l; intros [|i]; cbn; auto. Qed.
  Lemma update_same l i x y : nth_error l i = Some y -> nth_error (update l i x) i = Some x.
  Proof. revert i. induction l as [|z l IH]; intros [|i] H; cbn in *; try discriminate; auto. Qed.
  Lemma update_other l i j x : i <> j -> nth_error (update l i x) j = nth_error l j.
  Proof. revert i j. induction l as [|z l IH]; intros [|i] [|j] H; cbn; auto; congruence. Qed.
  Lemma update_Forall P l i x : Forall P l -> P x -> Forall P (update l i x).
  Proof. intros H Hx. revert i. induction H; intros [|i]; cbn; auto. Qed.
  Lemma sum_cons (f : A -> nat) x l : list_sum (map f (x :: l)) = (f x + list_sum (map f l))%nat.
  Proof. reflexivity. Qed.
  Lemma update_sum (f : A -> nat) l i x y : nth_error l i = Some y ->
    (list_sum (map f (update l i x)) + f y = list_sum (map f l) + f x)%nat.
  Proof.
    revert i. induction l as [|z l IH]; intros [|i] H; cbn [nth_error update] in *; try discriminate; rewrite !sum_cons.
    - injection H as ->. lia.
    - specialize (IH _ H). lia.
  Qed.
  Lemma sum_ge (f : A -> nat) l i y : nth_error l i = Some y -> (f y <= list_sum (map f l))%nat.
  Proof.
    revert i. induction l as [|z l IH]; intros [|i] H; cbn [nth_error update] in *; try discriminate; rewrite !sum_cons.
    - injection H as ->. lia.
    - specialize (IH _ H). lia.
  Qed.
  Lemma sum_ge2 (f : A -> nat) l i j y z : i <> j -> nth_error l i = Some y -> nth_error l j = Some z ->
    (f y + f z <= list_sum (map f l))%nat.
  Proof.
    revert i j. induction l as [|x l IH]; intros [|i] [|j] Hij Hi Hj; cbn [nth_error] in *; try discriminate; try congruence; rewrite sum_cons.
    - injection Hi as ->. pose proof (sum_ge f _ _ _ Hj). lia.
    - injection Hj as ->. pose proof (sum_ge f _ _ _ Hi). lia.
    - assert (i <> j) by congruence. specialize (IH _ _ H Hi Hj). lia.
  Qed.
  Lemma zero_sum (f : A -> nat) l : Forall (fun x => f x = 0%nat) l -> list_sum (map f l) = 0%nat.
  Proof. induction 1 as [|u l Hu Hl IH]; [reflexivity|]. rewrite sum_cons, Hu, IH. reflexivity. Qed.
  Lemma sum_zero (f : A -> nat) l : list_sum (map f l) = 0%nat -> Forall (fun x => f x = 0%nat) l.
  Proof. induction l as [|x l IH]; [constructor|]; rewrite sum_cons; intros H; constructor; try lia. apply IH. lia. Qed.
End Lists.

Definition held (t : thread) : nat := (handles t + in_flight t)%nat.

(** What a thread that loaded [c] knows when the count is [w]. *)
Definition agrees (c w : Z) : Prop := if w <? 0 then c < 0 /\ c <> STATIC_COUNT else c = w.

Definition rest (c : code) (v : Z) : code := match c with Load k => k v | _ => c end.

(** A thread inside a method, while the block is alive. *)
Definition position (w : Z) (o : operation) (c : code) : Prop :=
  match o with
  | Clone => c = clone \/ (exists v, c = rest clone v /\ agrees v w) \/ c = Return true
  | Drop => c = drop \/ (exists v, c = rest drop v /\ agrees v w /\ (0 <= v -> v <> 0)) \/ c = Return true
  | Synchronize => c = synchronize \/ (exists v, c = rest synchronize v /\ agrees v w) \/ c = Return true
  | GetMut => c = get_mut \/ exists r, c = Return r
  | Read => c = read \/ c = Return true
  end.

Definition thread_ok (w : Z) (t : thread) : Prop :=
  match running t with
  | None => True
  | Some (o, c) => position w o c /\ (o <> Drop -> (0 < handles t)%nat)
  end.

(** Uniqueness established by [get_mut]. *)
Definition unique_ok (total : nat) (t : thread) : Prop :=
  match running t with Some (GetMut, Return true) => total = 1%nat | _ => True end.

Definition idle (t : thread) : Prop := handles t = 0%nat /\ running t = None.

Record alive (s : state) : Prop := {
  alive_drops : payload_drops (memory s) = 0%nat;
  alive_deallocations : deallocations (memory s) = 0%nat;
  alive_invalid : invalid (memory s) = 0%nat;
  alive_total : (1 <= total_handles s)%nat;
  alive_count : (if count (memory s) <? 0 then - count (memory s) else count (memory s) + 1) = Z.of_nat (total_handles s);
  alive_local : 0 <= count (memory s) -> exists i, forall j t, j <> i -> nth_error (threads s) j = Some t -> idle t;
  alive_threads : Forall (thread_ok (count (memory s))) (threads s);
  alive_unique : Forall (unique_ok (total_handles s)) (threads s)
}.

(** Threads after the last handle is gone. *)
Definition dropping (t : thread) : nat := match running t with Some (Drop, DropPayload _) => 1 | _ => 0 end.
Definition deallocating (t : thread) : nat := match running t with Some (Drop, Deallocate _) => 1 | _ => 0 end.
Definition dead_thread (t : thread) : Prop :=
  handles t = 0%nat /\
  (running t = None \/ exists c, running t = Some (Drop, c) /\ (c = drop_inner \/ c = Deallocate (Return true) \/ c = Return true)).

Record dead (s : state) : Prop := {
  dead_threads : Forall dead_thread (threads s);
  dead_invalid : invalid (memory s) = 0%nat;
  dead_drops : (payload_drops (memory s) + list_sum (map dropping (threads s)) = 1)%nat;
  dead_deallocations : (deallocations (memory s) + list_sum (map dropping (threads s)) + list_sum (map deallocating (threads s)) = 1)%nat
}.

Lemma total_update s i x y b : nth_error (threads s) i = Some y ->
  (total_handles {| memory := b; threads := update (threads s) i x |} + held y = total_handles s + held x)%nat.
Proof. intros H. unfold total_handles. cbn [threads]. exact (update_sum held _ _ x _ H). Qed.

Lemma held_le s i t : nth_error (threads s) i = Some t -> (held t <= total_handles s)%nat.
Proof. exact (sum_ge held _ _ _). Qed.

Lemma nth_Forall {A} (P : A -> Prop) l i x : Forall P l -> nth_error l i = Some x -> P x.
Proof. intros H E. rewrite Forall_forall in H. apply H. eapply nth_error_In, E. Qed.

(** Changing one thread while the block is alive. *)
Lemma alive_step s i t t' b :
  alive s -> nth_error (threads s) i = Some t ->
  let s' := {| memory := b; threads := update (threads s) i t' |} in
  payload_drops b = 0%nat -> deallocations b = 0%nat -> invalid b = 0%nat ->
  (1 <= total_handles s')%nat ->
  (if count b <? 0 then - count b else count b + 1) = Z.of_nat (total_handles s') ->
  thread_ok (count b) t' -> unique_ok (total_handles s') t' ->
  (0 < handles t \/ running t <> None)%nat ->
  (* the count keeps its sign, or this thread is alone *)
  (count b = count (memory s) \/ (count (memory s) < 0 /\ count b < 0) \/ 0 <= count (memory s)) ->
  (* a proof of uniqueness in another thread survives *)
  (total_handles s' = total_handles s \/ held t <> 0%nat) ->
  alive s'.
Proof.
  intros H Ht s' H1 H2 H3 H4 H5 H6 H7 Hbusy Hsign Hu. subst s'.
  assert (Hothers : 0 <= count (memory s) -> forall j u, j <> i -> nth_error (threads s) j = Some u -> idle u).
  { intros Hc j u Hj E. destruct (alive_local _ H Hc) as [k Hk]. destruct (Nat.eq_dec k i) as [->|n]; [eapply Hk; eauto|].
    destruct (Hk i t (fun X => n (eq_sym X)) Ht) as [X Y]. destruct Hbusy; [lia|congruence]. }
  constructor; cbn [memory threads]; auto.
  - intros Hc. exists i. intros j u Hj E. rewrite update_other in E by congruence.
    destruct Hsign as [X|[[_ X]|X]]; [|lia|]; eapply Hothers; eauto; lia.
  - apply Forall_forall. intros u Hin. apply In_nth_error in Hin. destruct Hin as [j E]. destruct (Nat.eq_dec i j) as [<-|n].
    + rewrite (update_same _ _ _ _ Ht) in E. injection E as <-. exact H6.
    + rewrite update_other in E by exact n. pose proof (nth_Forall _ _ _ _ (alive_threads _ H) E) as Hok.
      destruct Hsign as [->|[[X Y]|X]]; [exact Hok| |].
      * unfold thread_ok, position, agrees in *. apply Z.ltb_lt in X, Y. rewrite X in Hok. rewrite Y. exact Hok.
      * destruct (Hothers X j u (fun Z => n (eq_sym Z)) E) as [_ Hr]. unfold thread_ok. rewrite Hr. exact I.
  - apply Forall_forall. intros u Hin. apply In_nth_error in Hin. destruct Hin as [j E]. destruct (Nat.eq_dec i j) as [<-|n].
    + rewrite (update_same _ _ _ _ Ht) in E. injection E as <-. exact H7.
    + rewrite update_other in E by exact n. pose proof (nth_Forall _ _ _ _ (alive_unique _ H) E) as Hok.
      destruct Hu as [Hu|Hu]; [rewrite Hu; exact Hok|]. unfold unique_ok in *. pose proof (nth_Forall _ _ _ _ (alive_threads _ H) E) as Hth. unfold thread_ok in Hth.
      destruct (running u) as [[[] []]|] eqn:Er; auto. destruct result; auto. exfalso.
      pose proof (sum_ge2 held _ _ _ _ _ n Ht E) as X. change (list_sum (map held (threads s))) with (total_handles s) in X. rewrite Hok in X.
      destruct Hth as [_ Hh]. assert (0 < handles u)%nat by (apply Hh; discriminate). unfold held in X at 2. lia.
Qed.

(** The branches of the methods. *)
Lemma rest_clone_unsync v : 0 <= v -> rest clone v = Store (v + 1) (Return true).
Proof. intros H. cbn. unfold is_count_synchronized. apply Z.ltb_ge in H. rewrite H. reflexivity. Qed.
Lemma rest_clone_sync v : v < 0 -> v <> STATIC_COUNT -> rest clone v = FetchSub 1 (fun _ => Return true).
Proof. intros H Hs. cbn [rest clone]. unfold is_count_synchronized. apply Z.ltb_lt in H. rewrite H. apply Z.eqb_neq in Hs. rewrite Hs. reflexivity. Qed.
Lemma rest_drop_sync v : v < 0 -> v <> STATIC_COUNT ->
  rest drop v = FetchAdd 1 (fun previous => if previous =? SYNCHRONIZED_UNIQUE_COUNT then drop_inner else Return true).
Proof. intros H Hs. cbn [rest drop]. unfold is_count_synchronized. apply Z.ltb_lt in H. rewrite H. apply Z.eqb_neq in Hs. rewrite Hs. reflexivity. Qed.
Lemma rest_drop_unsync v : 0 < v -> rest drop v = Store (v - 1) (Return true).
Proof.
  intros H. cbn [rest drop]. unfold is_count_synchronized, UNIQUE_COUNT. assert (v <? 0 = false) as -> by (apply Z.ltb_ge; lia).
  assert (v =? 0 = false) as -> by (apply Z.eqb_neq; lia). reflexivity.
Qed.
Lemma rest_sync_unsync v : 0 <= v -> rest synchronize v = Store (-1 - v) (Return true).
Proof. intros H. cbn. unfold is_count_synchronized. apply Z.ltb_ge in H. rewrite H. reflexivity. Qed.
Lemma rest_sync_sync v : v < 0 -> rest synchronize v = Return true.
Proof. intros H. cbn. unfold is_count_synchronized. apply Z.ltb_lt in H. rewrite H. reflexivity. Qed.

Lemma agrees_cases c w : agrees c w -> (w < 0 /\ c < 0 /\ c <> STATIC_COUNT) \/ (0 <= w /\ c = w).
Proof. unfold agrees. destruct (Z.ltb_spec w 0); auto. Qed.

(** A call to [drop] that has given its handle up has returned, while the block is
    alive. *)
Lemma position_drop w t c : running t = Some (Drop, c) -> position w Drop c -> in_flight t = 0%nat -> c = Return true.
Proof.
  intros Hr [->|[(v & -> & Ha & Hv)| ->]] Hf; auto; unfold in_flight in Hf; rewrite Hr in Hf; [discriminate|].
  destruct (agrees_cases _ _ Ha) as [(_ & H1 & H2)|[H1 ->]].
  - rewrite rest_drop_sync in Hf by assumption. discriminate.
  - rewrite rest_drop_unsync in Hf by (specialize (Hv H1); lia). discriminate.
Qed.

Lemma alive_to_dead s i t w' :
  alive s -> nth_error (threads s) i = Some t -> handles t = 0%nat -> in_flight t = 1%nat -> total_handles s = 1%nat ->
  dead {| memory := set_count (memory s) w'; threads := update (threads s) i {| handles := handles t; running := Some (Drop, drop_inner) |} |}.
Proof.
  intros H Ht Hh Hf Htot.
  assert (Hother : forall j u, j <> i -> nth_error (threads s) j = Some u -> handles u = 0%nat /\ (running u = None \/ running u = Some (Drop, Return true))).
  { intros j u Hj E. pose proof (sum_ge2 held _ _ _ _ _ (not_eq_sym Hj) Ht E) as X. change (list_sum (map held (threads s))) with (total_handles s) in X.
    unfold held in X. assert (handles u = 0%nat) by lia. assert (in_flight u = 0%nat) by lia. split; [assumption|].
    pose proof (nth_Forall _ _ _ _ (alive_threads _ H) E) as Hok. unfold thread_ok in Hok. destruct (running u) as [[o c]|] eqn:Er; auto. right.
    destruct Hok as [Hp Hn]. destruct o; try (assert (0 < handles u)%nat by (apply Hn; discriminate); lia). f_equal. f_equal. eapply position_drop; eauto. }
  assert (Hd : forall f, (forall u, running u = None \/ running u = Some (Drop, Return true) -> f u = 0%nat) -> list_sum (map f (threads s)) = f t).
  { intros f Hf0. pose proof (update_sum f (threads s) i {| handles := 0; running := None |} t Ht) as X.
    assert (Y : list_sum (map f (update (threads s) i {| handles := 0; running := None |})) = 0%nat).
    { assert (Z : Forall (fun u => f u = 0%nat) (update (threads s) i {| handles := 0; running := None |})).
      { apply Forall_forall. intros u Hin. apply In_nth_error in Hin. destruct Hin as [j E]. destruct (Nat.eq_dec i j) as [<-|n].
        - rewrite (update_same _ _ _ _ Ht) in E. injection E as <-. apply Hf0. left. reflexivity.
        - rewrite update_other in E by exact n. apply Hf0. eapply Hother; eauto. }
      exact (zero_sum f _ Z). }
    rewrite (Hf0 {| handles := 0; running := None |}) in X by (left; reflexivity). lia. }
  assert (Hrun : exists c, running t = Some (Drop, c) /\ dropping t = 0%nat /\ deallocating t = 0%nat).
  { unfold in_flight in Hf. pose proof (nth_Forall _ _ _ _ (alive_threads _ H) Ht) as Hok. unfold thread_ok in Hok. unfold dropping, deallocating.
    destruct (running t) as [[o c]|] eqn:Er; [|discriminate]. destruct o; try discriminate.
    - destruct Hok as [_ Hn]. assert (0 < handles t)%nat by (apply Hn; discriminate). lia.
    - exists c. destruct c; try discriminate; auto. }
  destruct Hrun as (c & Hc & D1 & D2).
  constructor; cbn [memory threads set_count payload_drops deallocations invalid touch].
  - apply Forall_forall. intros u Hin. apply In_nth_error in Hin. destruct Hin as [j E]. destruct (Nat.eq_dec i j) as [<-|n].
    + rewrite (update_same _ _ _ _ Ht) in E. injection E as <-. split; [exact Hh|]. right. exists drop_inner. auto.
    + rewrite update_other in E by exact n. destruct (Hother j u (not_eq_sym n) E) as [X [Y|Y]]; split; auto. right. eexists. split; [exact Y|auto].
  - unfold touch. rewrite (alive_deallocations _ H), (alive_invalid _ H). reflexivity.
  - rewrite (alive_drops _ H). pose proof (update_sum dropping (threads s) i {| handles := handles t; running := Some (Drop, drop_inner) |} t Ht) as X.
    rewrite (Hd dropping) in X by (intros u [Y|Y]; unfold dropping; rewrite Y; reflexivity). change (dropping {| handles := handles t; running := Some (Drop, drop_inner) |}) with 1%nat in X. lia.
  - rewrite (alive_deallocations _ H). pose proof (update_sum dropping (threads s) i {| handles := handles t; running := Some (Drop, drop_inner) |} t Ht) as X.
    pose proof (update_sum deallocating (threads s) i {| handles := handles t; running := Some (Drop, drop_inner) |} t Ht) as Y.
    rewrite (Hd dropping) in X by (intros u [Z|Z]; unfold dropping; rewrite Z; reflexivity).
    rewrite (Hd deallocating) in Y by (intros u [Z|Z]; unfold deallocating; rewrite Z; reflexivity).
    change (dropping {| handles := handles t; running := Some (Drop, drop_inner) |}) with 1%nat in X.
    change (deallocating {| handles := handles t; running := Some (Drop, drop_inner) |}) with 0%nat in Y. lia.
Qed.

Lemma in_flight_call h o : in_flight {| handles := h; running := Some (o, code_of o) |} = match o with Drop => 1%nat | _ => 0%nat end.
Proof. destruct o; reflexivity. Qed.

Definition small (s : state) : Prop := Z.of_nat (total_handles s) < 2 ^ 63.

Lemma set_count_alive s w : alive s ->
  payload_drops (set_count (memory s) w) = 0%nat /\ deallocations (set_count (memory s) w) = 0%nat /\ invalid (set_count (memory s) w) = 0%nat.
Proof.
  intros H. cbn. unfold touch. rewrite (alive_drops _ H), (alive_deallocations _ H), (alive_invalid _ H). auto.
Qed.

Lemma alive_range s : alive s -> small s -> count (memory s) <> STATIC_COUNT.
Proof.
  intros H Hs E. pose proof (alive_count _ H) as X. rewrite E in X. unfold small in Hs. unfold STATIC_COUNT in X.
  change (- 2 ^ 63 <? 0) with true in X. cbn [Z.opp] in X. rewrite <- X in Hs. rewrite Z.opp_involutive in Hs. lia.
Qed.

Lemma agrees_self s : alive s -> small s -> agrees (count (memory s)) (count (memory s)).
Proof. intros H Hs. unfold agrees. pose proof (alive_range _ H Hs). destruct (Z.ltb_spec (count (memory s)) 0); auto. Qed.

Lemma alive_call s i t o :
  alive s -> nth_error (threads s) i = Some t -> running t = None -> (0 < handles t)%nat ->
  alive {| memory := memory s;
           threads := update (threads s) i
                {| handles := match o with Drop => pred (handles t) | _ => handles t end; running := Some (o, code_of o) |} |}.
Proof.
  intros H Ht Hr Hh. set (t' := {| handles := _; running := _ |}).
  assert (Hheld : held t' = held t).
  { subst t'. unfold held. rewrite in_flight_call. unfold in_flight. rewrite Hr. cbn [handles]. destruct o; lia. }
  pose proof (total_update s i t' t (memory s) Ht) as Htot. assert (Heq : total_handles {| memory := memory s; threads := update (threads s) i t' |} = total_handles s) by lia.
  eapply alive_step; eauto using alive_drops, alive_deallocations, alive_invalid; try rewrite Heq; eauto using alive_total, alive_count.
  - subst t'. unfold thread_ok. cbn [running handles]. split; [destruct o; cbn; auto|destruct o; congruence || auto].
  - subst t'. unfold unique_ok. cbn [running]. destruct o; exact I.
Qed.

Lemma alive_return s i t o r :
  alive s -> nth_error (threads s) i = Some t -> running t = Some (o, Return r) ->
  alive {| memory := memory s;
           threads := update (threads s) i {| handles := match o with Clone => S (handles t) | _ => handles t end; running := None |} |}.
Proof.
  intros H Ht Hr. set (t' := {| handles := _; running := _ |}).
  assert (Hheld : held t' = held t).
  { subst t'. unfold held, in_flight. rewrite Hr. cbn [handles running]. destruct o; lia. }
  pose proof (total_update s i t' t (memory s) Ht) as Htot. assert (Heq : total_handles {| memory := memory s; threads := update (threads s) i t' |} = total_handles s) by lia.
  eapply alive_step; eauto using alive_drops, alive_deallocations, alive_invalid; try rewrite Heq; eauto using alive_total, alive_count; try exact I.
  right. congruence.
Qed.

Lemma alive_send s i j t u :
  alive s -> i <> j -> nth_error (threads s) i = Some t -> nth_error (threads s) j = Some u ->
  running t = None -> (0 < handles t)%nat -> is_count_synchronized (count (memory s)) = true ->
  alive {| memory := memory s;
           threads := update (update (threads s) i {| handles := pred (handles t); running := None |}) j
                {| handles := S (handles u); running := running u |} |}.
Proof.
  intros H Hij Ht Hu Hr Hh Hs.
  set (t' := {| handles := pred _; running := _ |}). set (u' := {| handles := S _; running := _ |}).
  assert (Hu1 : nth_error (update (threads s) i t') j = Some u) by (rewrite update_other; auto).
  assert (Heq : total_handles {| memory := memory s; threads := update (update (threads s) i t') j u' |} = total_handles s).
  { pose proof (update_sum held _ i t' _ Ht) as X. pose proof (update_sum held _ j u' _ Hu1) as Y. unfold total_handles. cbn [threads].
    change (fun t0 => (handles t0 + in_flight t0)%nat) with held. unfold held at 2 4 in X. unfold held at 2 4 in Y. subst t' u'. unfold in_flight in X, Y. cbn [handles running] in X, Y. rewrite Hr in X.
    unfold total_handles. cbn [threads]. change (fun t0 => (handles t0 + in_flight t0)%nat) with held. lia. }
  constructor; cbn [memory threads]; try rewrite Heq; eauto using alive_drops, alive_deallocations, alive_invalid, alive_total, alive_count.
  - intros Hc. apply Z.ltb_lt in Hs. lia.
  - apply update_Forall; [apply update_Forall; [exact (alive_threads _ H)|exact I]|].
    pose proof (nth_Forall _ _ _ _ (alive_threads _ H) Hu) as X. unfold thread_ok in *. subst u'. cbn [running handles]. destruct (running u) as [[o c]|]; auto. destruct X as [X Y]. split; auto. intros Z. lia.
  - apply update_Forall; [apply update_Forall; [exact (alive_unique _ H)|exact I]|]. exact (nth_Forall _ _ _ _ (alive_unique _ H) Hu).
Qed.

Lemma alive_act s i t o c b c' :
  alive s -> small s -> nth_error (threads s) i = Some t -> running t = Some (o, c) -> act (memory s) c = Some (b, c') ->
  let s' := {| memory := b; threads := update (threads s) i {| handles := handles t; running := Some (o, c') |} |} in
  small s' -> alive s' \/ dead s'.
Proof.
  intros H Hsmall Ht Hr Ha s' Hsmall'. pose proof (nth_Forall _ _ _ _ (alive_threads _ H) Ht) as Hok. unfold thread_ok in Hok. rewrite Hr in Hok. destruct Hok as [Hp Hh].
  pose proof (fun w => set_count_alive s w H) as Hsc. pose proof (agrees_self _ H Hsmall) as Hag.
  set (t' := {| handles := handles t; running := Some (o, c') |}) in *.
  pose proof (total_update s i t' t b Ht) as Htot. fold s' in Htot. pose proof (alive_count _ H) as Hcount. pose proof (held_le _ _ _ Ht) as Hle.
  assert (Hbusy : (0 < handles t)%nat \/ running t <> None) by (right; congruence).
  assert (Hfl : in_flight t' = match o, c' with Drop, (Load _ | Store _ _ | FetchAdd _ _ | FetchSub _ _) => 1%nat | Clone, Return _ => 1%nat | _, _ => 0%nat end) by (destruct o, c'; reflexivity).
  assert (Hfl0 : in_flight t = match o, c with Drop, (Load _ | Store _ _ | FetchAdd _ _ | FetchSub _ _) => 1%nat | Clone, Return _ => 1%nat | _, _ => 0%nat end) by (unfold in_flight; rewrite Hr; destruct o, c; reflexivity).
  unfold held in Htot. rewrite Hfl, Hfl0 in Htot. replace (handles t') with (handles t) in Htot by reflexivity.
  assert (Hheld : held t = (handles t + in_flight t)%nat) by reflexivity. rewrite Hfl0 in Hheld.
  destruct o; cbn [position] in Hp.
  - (* clone *) left. assert (Hh' : (0 < handles t)%nat) by (apply Hh; discriminate).
    assert (Hnz : held t <> 0%nat) by lia.
    destruct Hp as [->|[(v & -> & Hv)| ->]]; [| |discriminate].
    + cbn [act clone] in Ha. injection Ha as <- E.
      assert (Erest : c' = rest clone (count (memory s))) by (rewrite <- E; reflexivity). clear E.
      assert (Hc' : in_flight t' = 0%nat). { rewrite Hfl, Erest. destruct (agrees_cases _ _ Hag) as [(_ & H1 & H2)|[H1 _]]; [rewrite rest_clone_sync by assumption|rewrite rest_clone_unsync by assumption]; reflexivity. }
      assert (Heq : total_handles s' = total_handles s). { rewrite <- Hfl, Hc' in Htot. cbn [clone] in Htot. lia. }
      apply (alive_step s i t t' _ H Ht); try apply Hsc; fold s'; auto; try rewrite Heq; eauto using alive_total; try exact I.
      * subst t'. unfold thread_ok. cbn [running handles]. split; [right; left; eauto|auto].
    + destruct (agrees_cases _ _ Hv) as [(H0 & H1 & H2)|[H1 ->]].
      * rewrite rest_clone_sync in * by assumption. cbn [act] in Ha. injection Ha as <- <-.
        apply (alive_step s i t t' _ H Ht); try apply Hsc; fold s'; auto; cbn [set_count count].
        -- lia.
        -- assert (count (memory s) <? 0 = true) as E by (apply Z.ltb_lt; lia). rewrite E in Hcount. assert (count (memory s) - 1 <? 0 = true) as -> by (apply Z.ltb_lt; lia). lia.
        -- unfold thread_ok. cbn. auto.
        -- exact I.
        -- right. left. lia.
      * rewrite rest_clone_unsync in * by assumption. cbn [act] in Ha. injection Ha as <- <-.
        apply (alive_step s i t t' _ H Ht); try apply Hsc; fold s'; auto; cbn [set_count count].
        -- lia.
        -- assert (count (memory s) <? 0 = false) as E by (apply Z.ltb_ge; lia). rewrite E in Hcount. assert (count (memory s) + 1 <? 0 = false) as -> by (apply Z.ltb_ge; lia). lia.
        -- unfold thread_ok. cbn. auto.
        -- exact I.
  - (* drop *)
    destruct Hp as [->|[(v & -> & Hv & Hv0)| ->]]; [| |discriminate].
    + assert (Hone : held t <> 0%nat) by (rewrite Hheld; cbn [drop]; lia).
      cbn [act drop] in Ha. injection Ha as <- E.
      assert (Erest : c' = rest drop (count (memory s))) by (rewrite <- E; reflexivity). clear E.
      destruct (Z.eq_dec (count (memory s)) 0) as [E0|E0].
      * right. rewrite E0 in Hcount. cbn in Hcount. assert (total_handles s = 1%nat) by lia.
        assert (handles t = 0%nat) by (rewrite Hheld in Hle; cbn [drop] in Hle; lia).
        subst s' t'. rewrite Erest. rewrite E0. change (rest drop 0) with drop_inner. apply (alive_to_dead s i t); auto.
      * left. assert (Hc' : in_flight t' = 1%nat). { rewrite Hfl, Erest. destruct (agrees_cases _ _ Hag) as [(_ & H1 & H2)|[H1 _]]; [rewrite rest_drop_sync by assumption|rewrite rest_drop_unsync by lia]; reflexivity. }
        assert (Heq : total_handles s' = total_handles s). { rewrite <- Hfl, Hc' in Htot. cbn [drop] in Htot. lia. }
        apply (alive_step s i t t' _ H Ht); try apply Hsc; fold s'; auto; try rewrite Heq; eauto using alive_total; try exact I.
        -- subst t'. unfold thread_ok. cbn [running handles]. split; [right; left; exists (count (memory s)); auto|congruence].
    + destruct (agrees_cases _ _ Hv) as [(H0 & H1 & H2)|[H1 ->]].
      * rewrite rest_drop_sync in * by assumption. cbn [act] in Ha. injection Ha as <- <-.
        assert (count (memory s) <? 0 = true) as E by (apply Z.ltb_lt; lia). rewrite E in Hcount.
        destruct (Z.eqb_spec (count (memory s)) SYNCHRONIZED_UNIQUE_COUNT) as [E1|E1]; unfold SYNCHRONIZED_UNIQUE_COUNT in E1.
        -- right. rewrite E1 in Hcount. cbn in Hcount. subst s' t'. apply (alive_to_dead s i t); auto; lia.
        -- left. apply (alive_step s i t t' _ H Ht); try apply Hsc; fold s'; auto; cbn [set_count count].
           ++ lia.
           ++ assert (count (memory s) + 1 <? 0 = true) as -> by (apply Z.ltb_lt; lia). lia.
           ++ unfold thread_ok. cbn. split; [auto|congruence].
           ++ exact I.
           ++ right. left. lia.
           ++ right. lia.
      * specialize (Hv0 H1). rewrite rest_drop_unsync in * by lia. cbn [act] in Ha. injection Ha as <- <-.
        assert (count (memory s) <? 0 = false) as E by (apply Z.ltb_ge; lia). rewrite E in Hcount.
        left. apply (alive_step s i t t' _ H Ht); try apply Hsc; fold s'; auto; cbn [set_count count].
        -- lia.
        -- assert (count (memory s) - 1 <? 0 = false) as -> by (apply Z.ltb_ge; lia). lia.
        -- unfold thread_ok. cbn. split; [auto|congruence].
        -- exact I.
        -- right. lia.
  - (* synchronize *) left. assert (Hh' : (0 < handles t)%nat) by (apply Hh; discriminate).
    assert (Heq : total_handles s' = total_handles s) by (destruct c', c; lia).
    destruct Hp as [->|[(v & -> & Hv)| ->]]; [| |discriminate].
    + cbn [act synchronize] in Ha. injection Ha as <- E.
      assert (Erest : c' = rest synchronize (count (memory s))) by (rewrite <- E; reflexivity). clear E.
      apply (alive_step s i t t' _ H Ht); try apply Hsc; fold s'; auto; try rewrite Heq; eauto using alive_total; try exact I.
      * subst t'. unfold thread_ok. cbn [running handles]. split; [right; left; eauto|auto].
    + destruct (agrees_cases _ _ Hv) as [(H0 & H1 & H2)|[H1 ->]].
      * rewrite rest_sync_sync in * by assumption. discriminate.
      * rewrite rest_sync_unsync in * by assumption. remember (-1 - count (memory s)) as w eqn:Ew. cbn [act] in Ha. injection Ha as <- <-.
        assert (count (memory s) <? 0 = false) as E by (apply Z.ltb_ge; lia). rewrite E in Hcount.
        apply (alive_step s i t t' _ H Ht); try apply Hsc; fold s'; auto; try rewrite Heq; eauto using alive_total; try exact I.
        -- cbn [set_count count]. assert (w <? 0 = true) as -> by (apply Z.ltb_lt; lia). lia.
        -- unfold thread_ok. cbn. auto.
  - (* get_mut *) left. assert (Hh' : (0 < handles t)%nat) by (apply Hh; discriminate).
    assert (Heq : total_handles s' = total_handles s) by (destruct c', c; lia).
    destruct Hp as [->|[r ->]]; [|discriminate].
    cbn [act get_mut] in Ha. injection Ha as <- <-.
    apply (alive_step s i t t' _ H Ht); try apply Hsc; fold s'; auto; try rewrite Heq; eauto using alive_total; try exact I.
    * subst t'. unfold thread_ok. cbn [running handles position]. split; [right; eauto|auto].
    * subst t'. unfold unique_ok. cbn [running]. unfold is_count_synchronized, SYNCHRONIZED_UNIQUE_COUNT, UNIQUE_COUNT.
      destruct (count (memory s) <? 0); match goal with |- context [?a =? ?b] => destruct (Z.eqb_spec a b) as [E|E] end; auto; rewrite E in Hcount; cbn in Hcount; lia.
  - (* read *) left. assert (Hh' : (0 < handles t)%nat) by (apply Hh; discriminate).
    assert (Heq : total_handles s' = total_handles s) by (destruct c', c; lia).
    destruct Hp as [->| ->]; [|discriminate]. cbn [act read] in Ha. injection Ha as <- <-.
    apply (alive_step s i t t' _ H Ht); fold s'; auto; try rewrite Heq; cbn [payload_drops deallocations invalid count]; eauto using alive_total, alive_drops, alive_deallocations; try exact I.
    * unfold touch. rewrite (alive_drops _ H), (alive_deallocations _ H), (alive_invalid _ H). reflexivity.
    * subst t'. unfold thread_ok. cbn. auto.
Qed.

Lemma alive_next s s' : alive s -> small s -> step code_of s s' -> small s' -> alive s' \/ dead s'.
Proof.
  intros H Hs Hstep Hs'. destruct Hstep.
  - left. eapply alive_call; eauto.
  - eapply alive_act; eauto.
  - left. eapply alive_return; eauto.
  - left. eapply alive_send; eauto.
Qed.

Lemma dead_next s s' : dead s -> step code_of s s' -> dead s'.
Proof.
  intros H Hstep. destruct Hstep as [s i t o Ht Hr Hh|s i t o c b c' Ht Hr Ha|s i t o r Ht Hr|s i j t u Hij Ht Hu Hr Hh Hc].
  - destruct (nth_Forall _ _ _ _ (dead_threads _ H) Ht) as [X _]. lia.
  - destruct (nth_Forall _ _ _ _ (dead_threads _ H) Ht) as [X [Y|(d & Y & Z)]]; [congruence|]. rewrite Hr in Y. injection Y as -> ->.
    pose proof (fun x => update_sum dropping _ i x _ Ht) as D1. pose proof (fun x => update_sum deallocating _ i x _ Ht) as D2.
    pose proof (sum_ge dropping _ _ _ Ht) as G1. pose proof (sum_ge deallocating _ _ _ Ht) as G2.
    pose proof (dead_drops _ H) as E1. pose proof (dead_deallocations _ H) as E2. pose proof (dead_invalid _ H) as E3.
    destruct Z as [->|[->| ->]]; [| |discriminate]; cbn [act drop_inner] in Ha; injection Ha as <- <-;
      specialize (D1 {| handles := handles t; running := Some (Drop, Deallocate (Return true)) |}) as D1a;
      specialize (D2 {| handles := handles t; running := Some (Drop, Deallocate (Return true)) |}) as D2a;
      specialize (D1 {| handles := handles t; running := Some (Drop, Return true) |}) as D1b;
      specialize (D2 {| handles := handles t; running := Some (Drop, Return true) |}) as D2b;
      change (dropping {| handles := handles t; running := Some (Drop, Deallocate (Return true)) |}) with 0%nat in *;
      change (deallocating {| handles := handles t; running := Some (Drop, Deallocate (Return true)) |}) with 1%nat in *;
      change (dropping {| handles := handles t; running := Some (Drop, Return true) |}) with 0%nat in *;
      change (deallocating {| handles := handles t; running := Some (Drop, Return true) |}) with 0%nat in *.
    + assert (D3 : dropping t = 1%nat) by (unfold dropping; rewrite Hr; reflexivity). assert (D4 : deallocating t = 0%nat) by (unfold deallocating; rewrite Hr; reflexivity).
      constructor; cbn [memory threads payload_drops deallocations invalid].
      * apply update_Forall; [exact (dead_threads _ H)|]. split; [exact X|]. right. eexists. split; [reflexivity|auto].
      * unfold touch. assert (payload_drops (memory s) + deallocations (memory s) = 0)%nat as -> by lia. lia.
      * lia.
      * lia.
    + assert (D3 : dropping t = 0%nat) by (unfold dropping; rewrite Hr; reflexivity). assert (D4 : deallocating t = 1%nat) by (unfold deallocating; rewrite Hr; reflexivity).
      constructor; cbn [memory threads payload_drops deallocations invalid].
      * apply update_Forall; [exact (dead_threads _ H)|]. split; [exact X|]. right. eexists. split; [reflexivity|auto].
      * unfold touch. assert (deallocations (memory s) = 0)%nat as -> by lia. lia.
      * lia.
      * lia.
  - destruct (nth_Forall _ _ _ _ (dead_threads _ H) Ht) as [X [Y|(d & Y & Z)]]; [congruence|]. rewrite Hr in Y. injection Y as -> <-.
    pose proof (update_sum dropping _ i {| handles := handles t; running := None |} _ Ht) as D1. pose proof (update_sum deallocating _ i {| handles := handles t; running := None |} _ Ht) as D2.
    change (dropping {| handles := handles t; running := None |}) with 0%nat in *.
    change (deallocating {| handles := handles t; running := None |}) with 0%nat in *.
    assert (D3 : dropping t = 0%nat) by (unfold dropping; rewrite Hr; reflexivity). assert (D4 : deallocating t = 0%nat) by (unfold deallocating; rewrite Hr; reflexivity).
    pose proof (dead_drops _ H) as E1. pose proof (dead_deallocations _ H) as E2.
    constructor; cbn [memory threads].
    + apply update_Forall; [exact (dead_threads _ H)|]. split; [exact X|auto].
    + exact (dead_invalid _ H).
    + lia.
    + lia.
  - destruct (nth_Forall _ _ _ _ (dead_threads _ H) Ht) as [X _]. lia.
Qed.

Lemma seq_nth_fresh n i j t : nth_error (fresh_threads n i) j = Some t -> t = {| handles := if Nat.eqb i j then 1%nat else 0%nat; running := None |}.
Proof.
  unfold fresh_threads. rewrite nth_error_map. destruct (nth_error (seq 0 n) j) as [k|] eqn:E; [|discriminate]. cbn. intros X. injection X as <-.
  assert (j < n)%nat by (rewrite <- (seq_length n 0); apply nth_error_Some; congruence). pose proof (nth_error_nth _ _ 0%nat E) as X. rewrite seq_nth in X by assumption. cbn in X. subst. reflexivity.
Qed.

Lemma fresh_total n i b : (i < n)%nat -> total_handles (initial b n i) = 1%nat.
Proof.
  intros H. unfold total_handles, initial. cbn [threads]. change (fun t => (handles t + in_flight t)%nat) with held.
  assert (E : exists t, nth_error (fresh_threads n i) i = Some t).
  { destruct (nth_error (fresh_threads n i) i) eqn:E; eauto. apply nth_error_None in E. unfold fresh_threads in E. rewrite map_length, seq_length in E. lia. }
  destruct E as [t Et]. pose proof (update_sum held _ _ {| handles := 0; running := None |} _ Et) as X.
  rewrite (zero_sum held (update _ _ _)) in X.
  - apply seq_nth_fresh in Et. subst t. rewrite Nat.eqb_refl in X. change (held {| handles := 1; running := None |}) with 1%nat in X. change (held {| handles := 0; running := None |}) with 0%nat in X. lia.
  - apply Forall_forall. intros u Hin. apply In_nth_error in Hin. destruct Hin as [j E]. destruct (Nat.eq_dec i j) as [<-|n0].
    + rewrite (update_same _ _ _ _ Et) in E. injection E as <-. reflexivity.
    + rewrite update_other in E by exact n0. apply seq_nth_fresh in E. subst u. apply Nat.eqb_neq in n0. rewrite n0. reflexivity.
Qed.

Lemma initial_alive n i : (i < n)%nat -> alive (initial new_block n i).
Proof.
  intros H. pose proof (fresh_total n i new_block H) as Ht. constructor; try rewrite Ht; try reflexivity; auto.
  - intros _. exists i. intros j t Hj E. apply seq_nth_fresh in E. subst. split; [|reflexivity]. cbn. destruct (Nat.eqb_spec i j); [congruence|reflexivity].
  - apply Forall_forall. intros t Hin. apply In_nth_error in Hin. destruct Hin as [j E]. apply seq_nth_fresh in E. subst. exact I.
  - apply Forall_forall. intros t Hin. apply In_nth_error in Hin. destruct Hin as [j E]. apply seq_nth_fresh in E. subst. exact I.
Qed.

Lemma execution_inv n i s : (i < n)%nat -> execution code_of (initial new_block n i) s -> (alive s \/ dead s) /\ small s.
Proof.
  intros H. remember (initial new_block n i) as s0 eqn:E. induction 1 as [s|s s' s'' H1 IH H2 H3]; subst.
  - split; [left; apply initial_alive; exact H|]. unfold small. rewrite fresh_total by exact H. reflexivity.
  - destruct (IH eq_refl) as [[X|X] Y]; (split; [|exact H3]).
    + eapply alive_next; eauto.
    + right. eapply dead_next; eauto.
Qed.

Lemma dead_total s : dead s -> total_handles s = 0%nat.
Proof.
  intros H. apply (zero_sum held). eapply Forall_impl; [|exact (dead_threads _ H)]. intros t [X [Y|(c & Y & Z)]]; unfold held, in_flight; rewrite X, Y; [reflexivity|].
  destruct Z as [->|[->| ->]]; reflexivity.
Qed.

Lemma block_safe n i s : (i < n)%nat -> execution code_of (initial new_block n i) s ->
  invalid (memory s) = 0%nat /\ (payload_drops (memory s) <= 1)%nat /\ (deallocations (memory s) <= 1)%nat /\
  ((0 < total_handles s)%nat -> payload_drops (memory s) = 0%nat /\ deallocations (memory s) = 0%nat) /\
  (total_handles s = 0%nat -> quiet s -> payload_drops (memory s) = 1%nat /\ deallocations (memory s) = 1%nat).
Proof.
  intros Hi H. destruct (execution_inv n i s Hi H) as [[X|X] _].
  - rewrite (alive_invalid _ X), (alive_drops _ X), (alive_deallocations _ X). pose proof (alive_total _ X). repeat split; auto; lia.
  - rewrite (dead_invalid _ X), (dead_total _ X). pose proof (dead_drops _ X) as E1. pose proof (dead_deallocations _ X) as E2. split; [reflexivity|]. split; [lia|]. split; [lia|]. split; [lia|].
    intros _ Hq. assert (Y : list_sum (map dropping (threads s)) = 0%nat).
    { apply zero_sum. eapply Forall_impl; [|exact Hq]. intros t Ht. unfold dropping. rewrite Ht. reflexivity. }
    assert (Z : list_sum (map deallocating (threads s)) = 0%nat).
    { apply zero_sum. eapply Forall_impl; [|exact Hq]. intros t Ht. unfold deallocating. rewrite Ht. reflexivity. }
    split; lia.
Qed.

Lemma get_mut_unique n i s j t : (i < n)%nat -> execution code_of (initial new_block n i) s ->
  nth_error (threads s) j = Some t -> running t = Some (GetMut, Return true) -> total_handles s = 1%nat /\ handles t = 1%nat.
Proof.
  intros Hi H Hj Hr. destruct (execution_inv n i s Hi H) as [[X|X] _].
  - pose proof (nth_Forall _ _ _ _ (alive_unique _ X) Hj) as U. unfold unique_ok in U. rewrite Hr in U. split; [exact U|].
    pose proof (held_le _ _ _ Hj) as L. unfold held in L. pose proof (nth_Forall _ _ _ _ (alive_threads _ X) Hj) as V. unfold thread_ok in V. rewrite Hr in V. destruct V as [_ V].
    assert (0 < handles t)%nat by (apply V; discriminate). lia.
  - destruct (nth_Forall _ _ _ _ (dead_threads _ X) Hj) as [_ [Y|(c & Y & _)]]; congruence.
Qed.

Lemma get_mut_succeeds n i s j t b c : (i < n)%nat -> execution code_of (initial new_block n i) s ->
  nth_error (threads s) j = Some t -> running t = Some (GetMut, get_mut) -> act (memory s) get_mut = Some (b, c) ->
  c = Return (total_handles s =? 1)%nat.
Proof.
  intros Hi H Hj Hr Ha. destruct (execution_inv n i s Hi H) as [[X|X] _].
  - pose proof (alive_count _ X) as E. pose proof (alive_total _ X) as T. cbn [act get_mut] in Ha. injection Ha as _ <-. f_equal. unfold is_count_synchronized, SYNCHRONIZED_UNIQUE_COUNT, UNIQUE_COUNT.
    destruct (count (memory s) <? 0) eqn:W.
    + apply Bool.eq_iff_eq_true. rewrite Z.eqb_eq, Nat.eqb_eq. lia.
    + apply Bool.eq_iff_eq_true. rewrite Z.eqb_eq, Nat.eqb_eq. lia.
  - destruct (nth_Forall _ _ _ _ (dead_threads _ X) Hj) as [_ [Y|(d & Y & [Z|[Z|Z]])]]; rewrite Hr in Y; discriminate.
Qed.

(** *** Static blocks *)
Definition static_code (o : operation) (c : code) : Prop := c = code_of o \/ exists r, c = Return r /\ (o = GetMut -> r = false).
Definition static_inv (s : state) : Prop :=
  memory s = static_block /\
  Forall (fun t => match running t with None => True | Some (o, c) => static_code o c end) (threads s).

Lemma static_next s s' : static_inv s -> step code_of s s' -> static_inv s'.
Proof.
  intros [Hm Hf] Hstep. destruct Hstep as [s i t o Ht Hr Hh|s i t o c b c' Ht Hr Ha|s i t o r Ht Hr|s i j t u Hij Ht Hu Hr Hh Hc]; (split; [|cbn [threads]]); auto.
  - apply update_Forall; [exact Hf|]. left. reflexivity.
  - cbn [memory]. pose proof (nth_Forall _ _ _ _ Hf Ht) as X. cbn beta in X. rewrite Hr in X. destruct X as [->|(r & -> & _)]; [|discriminate]. rewrite Hm in Ha. destruct o; cbn in Ha; injection Ha as <- _; reflexivity.
  - apply update_Forall; [exact Hf|]. cbn [running]. pose proof (nth_Forall _ _ _ _ Hf Ht) as X. cbn beta in X. rewrite Hr in X. destruct X as [->|(r & -> & _)]; [|discriminate]. rewrite Hm in Ha.
    destruct o; cbn in Ha; injection Ha as _ <-; right; eexists; (split; [reflexivity|]); congruence || auto.
  - apply update_Forall; [exact Hf|exact I].
  - apply update_Forall; [apply update_Forall; [exact Hf|exact I]|]. cbn [running]. exact (nth_Forall _ _ _ _ Hf Hu).
Qed.

Lemma static_execution n i s : execution code_of (initial static_block n i) s -> static_inv s.
Proof.
  intros H. remember (initial static_block n i) as s0 eqn:E. induction H as [s|s s' s'' H1 IH H2 H3]; subst.
  - split; [reflexivity|]. apply Forall_forall. intros t Hin. apply In_nth_error in Hin. destruct Hin as [j E]. apply seq_nth_fresh in E. subst. exact I.
  - eapply static_next; eauto.
Qed.

Lemma static_safe n i s : execution code_of (initial static_block n i) s ->
  memory s = static_block /\ forall j t r, nth_error (threads s) j = Some t -> running t = Some (GetMut, Return r) -> r = false.
Proof.
  intros H. apply static_execution in H. destruct H as [Hm Hf]. split; [exact Hm|]. intros j t r Hj Hr. pose proof (nth_Forall _ _ _ _ Hf Hj) as X. cbn beta in X. rewrite Hr in X.
  destruct X as [X|(r' & X & Y)]; [discriminate|]. injection X as ->. auto.
Qed.

(** *** Generated code *)
Lemma generated_same :
  same_code generated_clone clone /\ same_code generated_drop drop /\ same_code generated_synchronize synchronize /\ same_code generated_is_unique get_mut.
Proof.
  unfold generated_clone, clone, generated_drop, drop, generated_synchronize, synchronize, generated_is_unique, get_mut, drop_inner,
    count_is_synchronized, count_is_static, count_is_unique, count_is_synchronized_unique, is_count_synchronized, STATIC_COUNT, UNIQUE_COUNT, SYNCHRONIZED_UNIQUE_COUNT.
  repeat split; constructor; intros c; destruct (c <? 0); cbn [negb]; try (destruct (c =? - 2 ^ 63)); cbn [negb]; try (destruct (c =? 0));
    repeat (constructor; intros; try match goal with |- context [if ?b then _ else _] => destruct b end).
Qed.

(** *** Computing executions, for examples *)
Inductive event := ECall (i : nat) (o : operation) | EAct (i : nat) | EReturn (i : nat) | ESend (i j : nat).

Definition apply_event (methods : operation -> code) (s : state) (e : event) : option state :=
  match e with
  | ECall i o =>
      match nth_error (threads s) i with
      | Some t => match running t, Nat.ltb 0 (handles t) with
                  | None, true => Some {| memory := memory s; threads := update (threads s) i
                      {| handles := match o with Drop => pred (handles t) | _ => handles t end; running := Some (o, methods o) |} |}
                  | _, _ => None
                  end
      | None => None
      end
  | EAct i =>
      match nth_error (threads s) i with
      | Some t => match running t with
                  | Some (o, c) => match act (memory s) c with
                      | Some (b, c') => Some {| memory := b; threads := update (threads s) i {| handles := handles t; running := Some (o, c') |} |}
                      | None => None end
                  | None => None
                  end
      | None => None
      end
  | EReturn i =>
      match nth_error (threads s) i with
      | Some t => match running t with
                  | Some (o, Return _) => Some {| memory := memory s; threads := update (threads s) i
                      {| handles := match o with Clone => S (handles t) | _ => handles t end; running := None |} |}
                  | _ => None
                  end
      | None => None
      end
  | ESend i j =>
      if Nat.eqb i j then None else
      match nth_error (threads s) i, nth_error (threads s) j with
      | Some t, Some u =>
          match running t, Nat.ltb 0 (handles t) with
          | None, true => if is_count_synchronized (count (memory s)) then
              Some {| memory := memory s; threads := update (update (threads s) i {| handles := pred (handles t); running := None |}) j
                {| handles := S (handles u); running := running u |} |} else None
          | _, _ => None
          end
      | _, _ => None
      end
  end.
Fixpoint apply_events (methods : operation -> code) (s : state) (es : list event) : option state :=
  match es with
  | [] => Some s
  | e :: es => match apply_event methods s e with
               | Some s' => if Z.of_nat (total_handles s') <? 2 ^ 63 then apply_events methods s' es else None
               | None => None
               end
  end.

Lemma apply_event_step methods s e s' : apply_event methods s e = Some s' -> step methods s s'.
Proof.
  destruct e as [i o|i|i|i j]; cbn [apply_event].
  - destruct (nth_error (threads s) i) as [t|] eqn:E; [|discriminate]. destruct (running t) eqn:Er; [discriminate|]. destruct (Nat.ltb_spec 0 (handles t)) as [Eh|]; [|discriminate]. intros X. injection X as <-. apply step_call; auto.
  - destruct (nth_error (threads s) i) as [t|] eqn:E; [|discriminate]. destruct (running t) as [[o c]|] eqn:Er; [|discriminate]. destruct (act (memory s) c) as [[b c']|] eqn:Ea; [|discriminate]. intros X. injection X as <-. eapply step_act; eauto.
  - destruct (nth_error (threads s) i) as [t|] eqn:E; [|discriminate]. destruct (running t) as [[o []]|] eqn:Er; try discriminate. intros X. injection X as <-. eapply step_return; eauto.
  - destruct (Nat.eqb_spec i j); [discriminate|]. destruct (nth_error (threads s) i) as [t|] eqn:E; [|discriminate]. destruct (nth_error (threads s) j) as [u|] eqn:E'; [|discriminate].
    destruct (running t) eqn:Er; [discriminate|]. destruct (Nat.ltb_spec 0 (handles t)) as [Eh|]; [|discriminate]. destruct (is_count_synchronized _) eqn:Es; [|discriminate]. intros X. injection X as <-. apply step_send; auto.
Qed.

Lemma apply_events_execution methods s0 : forall es s s', execution methods s0 s -> apply_events methods s es = Some s' -> execution methods s0 s'.
Proof.
  induction es as [|e es IH]; intros s s' H; cbn [apply_events]; [congruence|]. destruct (apply_event methods s e) as [s1|] eqn:E; [|discriminate].
  destruct (Z.ltb_spec (Z.of_nat (total_handles s1)) (2 ^ 63)); [|discriminate]. intros E'. eapply IH; [|exact E']. eapply execution_step; [exact H|apply (apply_event_step _ _ _ _ E)|assumption].
Qed.
