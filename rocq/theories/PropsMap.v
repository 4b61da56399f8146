(** Properties of maps (C11-C17).

    Notions from [HamtSpec]: [keys_ok K eqk hk good] (on the keys in [good] the
    given equality is an equivalence that the 64-bit hash respects and
    separates), [last_set q history] (the value the last pair with a key equal
    to [q] gives), [distinct_keys], [pairwise_distinct], [last_op] (the same for
    histories with deletions), [build n history] / [run n history] (the map
    after the history, with [n] nested calls allowed). *)
From Coq Require Import NArith ZArith List Bool Arith Lia.
From Verif Require Import Base Hash Hamt HamtSpec HamtMapProofs HamtExamples.
Import ListNotations.

(** *** Histories used by the examples: the numbers from 0 to 12, all set, then
    some set again *)
Definition demo_history : list (N * nat) :=
  List.map (fun n => (number_of_nat n, n)) (seq 0 13) ++ List.map (fun n => (number_of_nat n, n + 100)) (seq 3 6).
Definition is_small (k : N) : Prop := In k small_numbers.

Lemma demo_good : all_good N nat is_small demo_history.
Proof.
  intros k v H. unfold demo_history in H. apply in_app_or in H. unfold is_small, small_numbers.
  destruct H as [H|H]; apply in_map_iff in H; destruct H as (n & E & H); injection E as <- _; apply in_map;
    apply in_seq in H; apply in_seq; lia.
Qed.
Lemma small_good n : n <= 12 -> is_small (number_of_nat n).
Proof. intros H. apply in_map, in_seq. lia. Qed.

(** *** C11: a key has the value it was last given *)
Theorem map_get_after_sets : forall K V eqk hk lh good, keys_ok K eqk hk good ->
  forall n n' history q, all_good K V good history -> good q -> 13 <= n -> 13 <= n' ->
  exists m, build K V eqk hk lh n history = Ok m /\
            get_map K V eqk hk lh n' m q = Ok (last_set K V eqk q history).
Proof. intros *. intros KO n n' history q. exact (get_built K V eqk hk lh good KO n n' history q). Qed.

Example map_get_after_sets_example :
  keys_ok N number_eqb hash_number is_small /\ all_good N nat is_small demo_history /\
  last_set N nat number_eqb (number_of_nat 5) demo_history = Some 105 /\
  last_set N nat number_eqb (number_of_nat 12) demo_history = Some 12 /\
  last_set N nat number_eqb (number_of_nat 12) (firstn 12 demo_history) = None.
Proof. split; [exact small_numbers_ok|]. split; [exact demo_good|]. vm_compute. auto. Qed.

(** *** C12: the size is the number of distinct keys set *)
Theorem map_size_after_sets : forall K V eqk hk lh good, keys_ok K eqk hk good ->
  forall n history, all_good K V good history -> 13 <= n ->
  exists m, build K V eqk hk lh n history = Ok m /\
            map_size K V m = Z.of_nat (length (distinct_keys K eqk (List.map fst history))).
Proof. intros *. intros KO. exact (size_built K V eqk hk lh good KO). Qed.

Example map_size_after_sets_example :
  length demo_history = 19 /\ length (distinct_keys N number_eqb (List.map fst demo_history)) = 13.
Proof. vm_compute. auto. Qed.

(** *** C13: iteration gives every binding once *)
Theorem map_iteration : forall K V eqk hk lh good, keys_ok K eqk hk good ->
  forall n history, all_good K V good history -> 13 <= n ->
  exists m, build K V eqk hk lh n history = Ok m /\ pairwise_distinct K V eqk (iterate_map K V m) /\
    (forall k v, In (k, v) (iterate_map K V m) -> last_set K V eqk k history = Some v) /\
    (forall q v, good q -> last_set K V eqk q history = Some v -> exists k, In (k, v) (iterate_map K V m) /\ eqk k q = true).
Proof. intros *. intros KO. exact (iterate_built K V eqk hk lh good KO). Qed.

Example map_iteration_example :
  match build N nat number_eqb table_hash table_layer 13 demo_history with
  | Ok m => length (iterate_map N nat m) = 13
  | _ => False
  end.
Proof. vm_compute. reflexivity. Qed.

(** *** C14: merging *)
Theorem map_merge : forall K V eqk hk lh good, keys_ok K eqk hk good ->
  forall n hx hy, all_good K V good hx -> all_good K V good hy -> 13 <= n ->
  exists x y m, build K V eqk hk lh n hx = Ok x /\ build K V eqk hk lh n hy = Ok y /\ merge_maps K V eqk hk lh n x y = Ok m /\
    (forall q n', good q -> 13 <= n' -> get_map K V eqk hk lh n' m q =
       Ok (match last_set K V eqk q hy with Some v => Some v | None => last_set K V eqk q hx end)) /\
    map_size K V m = Z.of_nat (length (distinct_keys K eqk (List.map fst (hx ++ hy)))).
Proof. intros *. intros KO. exact (merge_built K V eqk hk lh good KO). Qed.

Example map_merge_example :
  let hx := firstn 13 demo_history in let hy := skipn 13 demo_history in
  all_good N nat is_small hx /\ all_good N nat is_small hy /\
  last_set N nat number_eqb (number_of_nat 4) hx = Some 4 /\ last_set N nat number_eqb (number_of_nat 4) hy = Some 104 /\
  last_set N nat number_eqb (number_of_nat 1) hy = None.
Proof.
  cbn zeta. split; [|split].
  - intros k v H. apply (demo_good k v). rewrite <- (firstn_skipn 13 demo_history). apply in_or_app. left. exact H.
  - intros k v H. apply (demo_good k v). rewrite <- (firstn_skipn 13 demo_history). apply in_or_app. right. exact H.
  - vm_compute. auto.
Qed.

(** *** C15: equality and hash do not depend on the order of insertion *)
Theorem map_equality : forall K V eqk hk lh good, keys_ok K eqk hk good ->
  forall (ev : V -> V -> bool) (hv : V -> N) n hx hy, all_good K V good hx -> all_good K V good hy -> 13 <= n ->
  exists x y, build K V eqk hk lh n hx = Ok x /\ build K V eqk hk lh n hy = Ok y /\
    (equal_maps K V eqk ev x y = true <->
     forall q, good q ->
       match last_set K V eqk q hx, last_set K V eqk q hy with
       | Some v, Some w => ev v w = true
       | None, None => True
       | _, _ => False
       end) /\
    ((forall v w, ev v w = true -> hv v = hv w) -> equal_maps K V eqk ev x y = true ->
     hash_map K V hk hv x = hash_map K V hk hv y).
Proof. intros *. intros KO ev hv. exact (equal_built K V eqk hk lh good KO ev hv). Qed.

(** The two histories differ in order and in repetitions ([table_hash] is
    [hash_number] with the hashes of these numbers computed in advance). *)
Example map_equality_example :
  match build N nat number_eqb table_hash table_layer 13 demo_history,
        build N nat number_eqb table_hash table_layer 13 (rev (skipn 13 demo_history) ++ rev (firstn 13 demo_history) ++ skipn 13 demo_history),
        build N nat number_eqb table_hash table_layer 13 (rev demo_history) with
  | Ok x, Ok y, Ok z =>
      equal_maps N nat number_eqb Nat.eqb x y = true /\
      hash_map N nat table_hash N.of_nat x = hash_map N nat table_hash N.of_nat y /\
      equal_maps N nat number_eqb Nat.eqb x z = false
  | _, _, _ => False
  end.
Proof. vm_compute. auto. Qed.

(** *** C16: deletion.
    Full statement: for every history of sets and deletes, a key is bound to the
    value it was last given unless it was deleted since.  The code violates it
    ([map_delete_refuted]); it holds for keys that the first two trie levels
    tell apart ([map_delete_partial]). *)
Theorem map_delete_partial : forall K V eqk hk lh good, keys_ok K eqk hk good ->
  (forall a b, good a -> good b ->
     (forall level, 1 <= level <= 2 -> hash_to_index (hk a) (lh 1) level = hash_to_index (hk b) (lh 1) level) -> eqk a b = true) ->
  forall n ops, (forall o, In o ops -> good (op_key K V o)) -> 13 <= n ->
  exists m, run K V eqk hk lh n ops = Ok m /\
    (forall q n', good q -> 13 <= n' -> get_map K V eqk hk lh n' m q = Ok (last_op K V eqk q ops None)) /\
    pairwise_distinct K V eqk (iterate_map K V m) /\
    (forall k v, In (k, v) (iterate_map K V m) -> last_op K V eqk k ops None = Some v) /\
    (forall q v, good q -> last_op K V eqk q ops None = Some v -> exists k, In (k, v) (iterate_map K V m) /\ eqk k q = true) /\
    map_size K V m = Z.of_nat (length (iterate_map K V m)).
Proof. intros *. intros KO A. exact (run_ok K V eqk hk lh good KO (fun _ _ => true) A). Qed.

(** After such histories equality is still that of the bindings left. *)
Theorem map_delete_equality_partial : forall K V eqk hk lh good, keys_ok K eqk hk good ->
  (forall a b, good a -> good b ->
     (forall level, 1 <= level <= 2 -> hash_to_index (hk a) (lh 1) level = hash_to_index (hk b) (lh 1) level) -> eqk a b = true) ->
  forall (ev : V -> V -> bool) n ox oy, (forall o, In o ox -> good (op_key K V o)) -> (forall o, In o oy -> good (op_key K V o)) -> 13 <= n ->
  exists x y, run K V eqk hk lh n ox = Ok x /\ run K V eqk hk lh n oy = Ok y /\
    (equal_maps K V eqk ev x y = true <->
     forall q, good q ->
       match last_op K V eqk q ox None, last_op K V eqk q oy None with
       | Some v, Some w => ev v w = true
       | None, None => True
       | _, _ => False
       end).
Proof. intros *. intros KO A ev. exact (run_equal K V eqk hk lh good KO ev A). Qed.

(** All numbers from 0 to 12 but 10 meet the hypothesis; 0 and 1, 4 and 6,
    11 and 12 share the first level. *)
Example map_delete_partial_example :
  keys_ok N number_eqb hash_number (fun k => In k shallow_numbers) /\
  (forall a b, In a shallow_numbers -> In b shallow_numbers ->
     (forall level, 1 <= level <= 2 -> hash_to_index (hash_number a) (number_layer 1) level = hash_to_index (hash_number b) (number_layer 1) level) -> number_eqb a b = true) /\
  last_op N nat number_eqb (number_of_nat 0)
    [OSet (number_of_nat 0) 7; OSet (number_of_nat 1) 8; ODelete (number_of_nat 1); OSet (number_of_nat 6) 9; ODelete (number_of_nat 9)] None = Some 7.
Proof.
  split; [exact shallow_numbers_ok|]. split; [exact shallow_numbers_two|reflexivity].
Qed.

(** The keys 1 and 10 are set and the absent key 0 is deleted; now 1 is gone
    although the size is still two.  No hash collision is involved. *)
Theorem map_delete_refuted :
  let history := [OSet (number_of_nat 1) 11; OSet (number_of_nat 10) 12; ODelete (number_of_nat 0)] in
  keys_ok N number_eqb hash_number is_small /\ (forall o, In o history -> is_small (op_key N nat o)) /\
  exists m, run N nat number_eqb hash_number number_layer 13 history = Ok m /\
    get_map N nat number_eqb hash_number number_layer 13 m (number_of_nat 1) = Ok None /\
    last_op N nat number_eqb (number_of_nat 1) history None = Some 11 /\
    map_size N nat m = 2%Z.
Proof.
  cbn zeta. split; [exact small_numbers_ok|]. split.
  - intros o [<-|[<-|[<-|[]]]]; apply small_good; lia.
  - destruct lossy_run as (m & E & G & S). exists m. repeat split; assumption.
Qed.

(** *** C17: setting a key always returns.
    Full statement: for any two keys.  It fails for keys that are unequal with
    equal hashes ([map_set_collision_refuted]); NaN is such a key
    ([map_set_nan_refuted]).  Without collisions every set returns within
    thirteen nested calls ([map_set_returns_partial]). *)
Theorem map_set_returns_partial : forall K V eqk hk lh good, keys_ok K eqk hk good ->
  forall n history k v, all_good K V good history -> good k -> 13 <= n ->
  exists m m', build K V eqk hk lh n history = Ok m /\ set_map K V eqk hk lh n m k v = Ok m'.
Proof. intros *. intros KO. exact (set_built K V eqk hk lh good KO). Qed.

Theorem map_set_collision_refuted : forall K V (eqk : K -> K -> bool) hk lh a b (v w : V),
  hk a = hk b -> eqk a b = false ->
  exists m, build K V eqk hk lh 1 [(a, v)] = Ok m /\ forall n, set_map K V eqk hk lh n m b w = OutOfFuel.
Proof. exact collision_set. Qed.

Theorem map_set_nan_refuted : forall V (v w : V), let nan := 0x7ff8000000000000%N in
  exists m, build N V number_eqb hash_number number_layer 1 [(nan, v)] = Ok m /\
            forall n, set_map N V number_eqb hash_number number_layer n m nan w = OutOfFuel.
Proof. intros V v w. apply map_set_collision_refuted; reflexivity. Qed.

Print Assumptions map_get_after_sets.
Print Assumptions map_size_after_sets.
Print Assumptions map_iteration.
Print Assumptions map_merge.
Print Assumptions map_equality.
Print Assumptions map_delete_partial.
Print Assumptions map_delete_equality_partial.
Print Assumptions map_delete_refuted.
Print Assumptions map_set_returns_partial.
Print Assumptions map_set_collision_refuted.
Print Assumptions map_set_nan_refuted.
