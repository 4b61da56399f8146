(** Number keys: when they meet [keys_ok], and the concrete maps used as
    witnesses in PropsMap.v. *)
From Coq Require Import NArith ZArith List Bool Arith Lia.
From Verif Require Import Base Hash Hamt HamtSpec HashProofs HamtProofs HamtMapProofs.
Import ListNotations.

Lemma number_hash a b : number_eqb a b = true -> hash_number a = hash_number b.
Proof.
  unfold number_eqb, hash_number. destruct (is_nan a || is_nan b) eqn:E; [discriminate|].
  destruct (is_zero a) eqn:A, (is_zero b) eqn:B; cbn [andb]; intros H; try reflexivity; apply N.eqb_eq in H; subst; congruence.
Qed.

Lemma number_refl a : is_nan a = false -> number_eqb a a = true.
Proof. intros H. unfold number_eqb. rewrite H. cbn. destruct (is_zero a); cbn; [reflexivity|apply N.eqb_refl]. Qed.

Lemma number_sym a b : number_eqb a b = number_eqb b a.
Proof. unfold number_eqb. rewrite (orb_comm (is_nan a)), (andb_comm (is_zero a)), (N.eqb_sym a b). reflexivity. Qed.

Lemma number_trans a b c : number_eqb a b = true -> number_eqb b c = true -> number_eqb a c = true.
Proof.
  unfold number_eqb. destruct (is_nan a) eqn:A; [discriminate|]. destruct (is_nan b) eqn:B; [discriminate|]. destruct (is_nan c) eqn:C; [discriminate|]. cbn.
  destruct (is_zero a) eqn:ZA, (is_zero b) eqn:ZB, (is_zero c) eqn:ZC; cbn; auto; rewrite ?N.eqb_eq; intros; subst; try congruence.
Qed.


(** The hashes of the numbers from 0 to 12, computed once. *)
Definition small_table : list (N * N) :=
  [(0, 16738165381834614119); (4607182418800017408, 3177009167758079239);
   (4611686018427387904, 9384798284944382482); (4613937818241073152, 14874990265045388593);
   (4616189618054758400, 9206629424638764531); (4617315517961601024, 12254037838921978217);
   (4618441417868443648, 4416267042452503187); (4619567317775286272, 15081482114635324500);
   (4620693217682128896, 12950227104332320109); (4621256167635550208, 1048403240725137752);
   (4621819117588971520, 1019271874609646855); (4622382067542392832, 3854623049992804861);
   (4622945017495814144, 16756406128527415069)]%N.
Definition small_numbers : list N := List.map number_of_nat (seq 0 13).

Lemma small_keys : List.map fst small_table = small_numbers.
Proof. vm_compute. reflexivity. Qed.

Lemma small_hashes : forallb (fun kh => N.eqb (hash_number (fst kh)) (snd kh)) small_table = true.
Proof. vm_compute. reflexivity. Qed.

Lemma small_hash k h : In (k, h) small_table -> hash_number k = h.
Proof. intros H. pose proof small_hashes as G. rewrite forallb_forall in G. apply N.eqb_eq, (G (k, h) H). Qed.

(** Tables of numbers and hashes that tell them apart. *)
Definition table_apart (l : list (N * N)) : bool :=
  forallb (fun a => negb (is_nan (fst a)) && (snd a <? u64_limit)%N &&
    forallb (fun b => implb (N.eqb (snd a) (snd b)) (number_eqb (fst a) (fst b))) l) l.

Lemma table_ok (hk : N -> N) l : (forall a b, number_eqb a b = true -> hk a = hk b) -> (forall k h, In (k, h) l -> hk k = h) -> table_apart l = true ->
  keys_ok N number_eqb hk (fun k => In k (List.map fst l)).
Proof.
  intros HE HH H. unfold table_apart in H. rewrite forallb_forall in H.
  assert (Hx : forall a, In a (List.map fst l) -> In (a, hk a) l).
  { intros a Ha. apply in_map_iff in Ha. destruct Ha as ([k h] & <- & Ha). cbn [fst]. rewrite (HH k h Ha). exact Ha. }
  assert (Hn : forall a, In a (List.map fst l) -> is_nan a = false).
  { intros a Ha. specialize (H _ (Hx a Ha)). rewrite !andb_true_iff in H. cbn [fst] in H. destruct (is_nan a); [destruct H as [[X _] _]; discriminate|reflexivity]. }
  split.
  - intros a Ha. apply number_refl, Hn, Ha.
  - intros a b _ _ E. rewrite number_sym. exact E.
  - intros a b c _ _ _. apply number_trans.
  - intros a b _ _. apply HE.
  - intros a Ha. specialize (H _ (Hx a Ha)). rewrite !andb_true_iff in H. destruct H as [[_ X] _]. cbn [snd] in X. apply N.ltb_lt in X. exact X.
  - intros a b Ha Hb E. specialize (H _ (Hx a Ha)). rewrite !andb_true_iff in H. destruct H as [_ X]. rewrite forallb_forall in X.
    specialize (X _ (Hx b Hb)). cbn [fst snd] in X. rewrite E, N.eqb_refl in X. exact X.
Qed.

Lemma small_numbers_ok : keys_ok N number_eqb hash_number (fun k => In k small_numbers).
Proof. rewrite <- small_keys. apply table_ok; [exact number_hash|exact small_hash|vm_compute; reflexivity]. Qed.

(** The same without 10. *)
Definition shallow_table : list (N * N) := firstn 10 small_table ++ skipn 11 small_table.
Definition shallow_numbers : list N := List.map number_of_nat (seq 0 10 ++ seq 11 2).

Lemma shallow_keys : List.map fst shallow_table = shallow_numbers.
Proof. vm_compute. reflexivity. Qed.

Lemma shallow_hash k h : In (k, h) shallow_table -> hash_number k = h.
Proof.
  intros H. apply small_hash. unfold shallow_table in H. apply in_app_or in H. destruct H as [H|H].
  - rewrite <- (firstn_skipn 10 small_table). apply in_or_app. left. exact H.
  - rewrite <- (firstn_skipn 11 small_table). apply in_or_app. right. exact H.
Qed.

Lemma shallow_numbers_ok : keys_ok N number_eqb hash_number (fun k => In k shallow_numbers).
Proof. rewrite <- shallow_keys. apply table_ok; [exact number_hash|exact shallow_hash|vm_compute; reflexivity]. Qed.

Lemma layer_one : number_layer 1 = 3177009167758079239%N.
Proof. apply small_hash. vm_compute. auto. Qed.

(** Numbers told apart by two indices. *)
Definition table_shallow (c : N) (l : list (N * N)) : bool :=
  forallb (fun a => forallb (fun b =>
    implb (Nat.eqb (hash_to_index (snd a) c 1) (hash_to_index (snd b) c 1) &&
           Nat.eqb (hash_to_index (snd a) c 2) (hash_to_index (snd b) c 2)) (number_eqb (fst a) (fst b))) l) l.

Lemma shallow_numbers_two a b : In a shallow_numbers -> In b shallow_numbers ->
  (forall level, 1 <= level <= 2 -> hash_to_index (hash_number a) (number_layer 1) level = hash_to_index (hash_number b) (number_layer 1) level) ->
  number_eqb a b = true.
Proof.
  rewrite <- shallow_keys, layer_one. intros Ha Hb E.
  apply in_map_iff in Ha. destruct Ha as ([ka ha] & <- & Ha). apply in_map_iff in Hb. destruct Hb as ([kb hb] & <- & Hb). cbn [fst] in *.
  rewrite (shallow_hash _ _ Ha), (shallow_hash _ _ Hb) in E.
  assert (H : table_shallow 3177009167758079239 shallow_table = true) by (vm_compute; reflexivity).
  unfold table_shallow in H. rewrite forallb_forall in H. specialize (H _ Ha). rewrite forallb_forall in H. specialize (H _ Hb).
  cbn [fst snd] in H. rewrite (E 1), (E 2), !Nat.eqb_refl in H by lia. exact H.
Qed.

(** *** Running the code on the numbers of the table without computing hashes *)
Definition table_hash (k : N) : N :=
  match find (fun kh => N.eqb (fst kh) k) small_table with Some kh => snd kh | None => hash_number k end.
Definition table_layer (layer : nat) : N := match layer with 1 => 3177009167758079239%N | _ => number_layer layer end.

Lemma table_hash_eq k : table_hash k = hash_number k.
Proof.
  unfold table_hash. destruct (find _ small_table) as [[k' h]|] eqn:E; [|reflexivity].
  apply List.find_some in E. destruct E as [Hin E]. apply N.eqb_eq in E. cbn [fst] in E. subst k'. symmetry. apply small_hash, Hin.
Qed.

Lemma table_layer_eq l : table_layer l = number_layer l.
Proof. destruct l as [|[|l]]; [reflexivity| |reflexivity]. symmetry. apply layer_one. Qed.

Section Ext.
  Variables K V : Type.
  Variable eqk : K -> K -> bool.
  Variables hk hk' : K -> N.
  Variables lh lh' : nat -> N.
  Hypothesis Hk : forall k, hk k = hk' k.
  Hypothesis Hl : forall l, lh l = lh' l.

  Lemma index_ext k layer level : hamt_index K hk lh k layer level = hamt_index K hk' lh' k layer level.
  Proof. unfold hamt_index. rewrite Hk, Hl. reflexivity. Qed.

  Lemma get_ext n : forall h k layer level, get_value K V eqk hk lh n h k layer level = get_value K V eqk hk' lh' n h k layer level.
  Proof. induction n as [|n IH]; intros; [reflexivity|]. cbn [get_value]. rewrite index_ext. destruct (get_entry _ _ _ _); rewrite ?IH; reflexivity. Qed.

  Lemma set_ext n : forall h k v layer level, set_key_value K V eqk hk lh n h k v layer level = set_key_value K V eqk hk' lh' n h k v layer level.
  Proof.
    induction n as [|n IH]; intros; [reflexivity|]. cbn [set_key_value]. rewrite index_ext. destruct (get_entry _ _ _ _); rewrite ?IH; try reflexivity.
    destruct (eqk k0 k); [reflexivity|]. destruct (set_key_value _ _ _ hk' _ _ (new_hamt K V) _ _ _ _); cbn [bind]; rewrite ?IH; reflexivity.
  Qed.

  Lemma delete_ext n : forall h k layer level, delete_key K V eqk hk lh n h k layer level = delete_key K V eqk hk' lh' n h k layer level.
  Proof. induction n as [|n IH]; intros; [reflexivity|]. cbn [delete_key]. rewrite index_ext. destruct (get_entry _ _ _ _); rewrite ?IH; reflexivity. Qed.

  Lemma run_ext n ops : run K V eqk hk lh n ops = run K V eqk hk' lh' n ops.
  Proof.
    unfold run. generalize (new_map K V). induction ops as [|o ops IH]; intros m; [reflexivity|]. cbn [foldM].
    assert (run_op K V eqk hk lh n m o = run_op K V eqk hk' lh' n m o) as ->.
    { destruct o; cbn [run_op]; unfold set_map, delete_map; rewrite ?set_ext, ?delete_ext; reflexivity. }
    destruct (run_op _ _ _ hk' _ _ _ _); cbn [bind]; auto.
  Qed.

  Lemma build_ext n hist : build K V eqk hk lh n hist = build K V eqk hk' lh' n hist.
  Proof.
    unfold build. generalize (new_map K V). induction hist as [|o ops IH]; intros m; [reflexivity|]. cbn [foldM].
    unfold set_map at 1 3. rewrite set_ext. destruct (set_key_value _ _ _ hk' _ _ _ _ _ _ _); cbn [bind]; auto.
  Qed.
End Ext.

(** Deleting an absent key drops another one. *)
Definition one : N := number_of_nat 1.
Definition ten : N := number_of_nat 10.
Definition lossy : list (op N nat) := [OSet one 11; OSet ten 12; ODelete 0%N].

Lemma lossy_run : exists m,
  run N nat number_eqb hash_number number_layer 13 lossy = Ok m /\
  get_map N nat number_eqb hash_number number_layer 13 m one = Ok None /\
  map_size N nat m = 2%Z.
Proof.
  rewrite <- (run_ext N nat number_eqb table_hash hash_number table_layer number_layer table_hash_eq table_layer_eq).
  destruct (run N nat number_eqb table_hash table_layer 13 lossy) as [m| | |] eqn:E; [|vm_compute in E; discriminate..].
  exists m. split; [reflexivity|]. unfold get_map. rewrite <- (get_ext N nat number_eqb table_hash hash_number table_layer number_layer table_hash_eq table_layer_eq).
  vm_compute in E. injection E as <-. vm_compute. auto.
Qed.
