(** From the trie lemmas to statements about histories. *)
From Coq Require Import NArith ZArith List Bool Arith Lia Permutation.
From Verif Require Import Base Hash Hamt HamtSpec HashProofs HamtProofs.
Import ListNotations.

Section Histories.
  Variables K V : Type.
  Variable eqk : K -> K -> bool.
  Variable hk : K -> N.
  Variable lh : nat -> N.
  Variable good : K -> Prop.
  Hypothesis KO : keys_ok K eqk hk good.

  Let R := ko_refl _ _ _ _ KO.
  Let S := ko_sym _ _ _ _ KO.
  Let T := ko_trans _ _ _ _ KO.
  Let H := ko_hash _ _ _ _ KO.

  Lemma apart13 a b : good a -> good b ->
    (forall j, 1 <= j <= 13 -> hamt_index K hk lh a 1 j = hamt_index K hk lh b 1 j) -> eqk a b = true.
  Proof.
    intros Ha Hb E. apply (ko_apart _ _ _ _ KO); [assumption..|].
    apply (index_apart (hk a) (hk b) (lh 1)); [apply (ko_range _ _ _ _ KO); assumption..|]. exact E.
  Qed.

  Notation W := (wfm K V eqk hk lh good 13).

  Lemma last_find q hist : find_kv K V eqk q (rev hist) = last_set K V eqk q hist.
  Proof.
    induction hist as [|[k v] hist IH]; [reflexivity|]. cbn [rev last_set]. rewrite find_app, IH.
    destruct (last_set K V eqk q hist); [reflexivity|]. cbn. destruct (eqk k q); reflexivity.
  Qed.

  Lemma build_ok n hist : all_good K V good hist -> 13 <= n ->
    exists m, build K V eqk hk lh n hist = Ok m /\ W m /\
      (forall q, good q -> find_kv K V eqk q (iterate_map K V m) = last_set K V eqk q hist) /\
      (forall k v, In (k, v) (iterate_map K V m) -> In (k, v) hist).
  Proof.
    intros Hg Hn.
    destruct (sets_ok K V eqk hk lh good S T H 13 (le_n 13) apart13 ltac:(lia) n hist (new_map K V) (wfm_new K V eqk hk lh good 13) Hg Hn)
      as (m & E & Wm & F & I).
    exists m. split; [exact E|]. split; [exact Wm|]. split.
    - intros q Hq. etransitivity; [apply (F q Hq)|]. change (entries_of K V (new_map K V)) with (@nil (K * V)). rewrite app_nil_r. apply last_find.
    - intros k v Hin. destruct (I k v Hin) as [G|G]; [exact G|]. destruct G.
  Qed.

  Lemma get_built n n' hist q : all_good K V good hist -> good q -> 13 <= n -> 13 <= n' ->
    exists m, build K V eqk hk lh n hist = Ok m /\ get_map K V eqk hk lh n' m q = Ok (last_set K V eqk q hist).
  Proof.
    intros Hg Hq Hn Hn'. destruct (build_ok n hist Hg Hn) as (m & E & Wm & F & _). exists m. split; [exact E|].
    rewrite (get_map_ok K V eqk hk lh good H 13 (le_n 13) ltac:(lia) n' m q Wm Hq Hn').
    f_equal. apply (F q Hq).
  Qed.

  Lemma set_built n hist k v : all_good K V good hist -> good k -> 13 <= n ->
    exists m m', build K V eqk hk lh n hist = Ok m /\ set_map K V eqk hk lh n m k v = Ok m'.
  Proof.
    intros Hg Hk Hn. destruct (build_ok n hist Hg Hn) as (m & E & Wm & _).
    destruct (set_map_ok K V eqk hk lh good S T H 13 (le_n 13) apart13 ltac:(lia) n m k v Wm Hk Hn) as (m' & b & E' & _).
    exists m, m'. auto.
  Qed.

  Lemma distinct_keys_spec (ks : list K) : (forall k, In k ks -> good k) ->
    ForallOrdPairs (fun x y => eqk x y = false) (distinct_keys K eqk ks) /\
    (forall k, In k (distinct_keys K eqk ks) -> In k ks) /\
    (forall k, In k ks -> exists k', In k' (distinct_keys K eqk ks) /\ eqk k k' = true).
  Proof.
    induction ks as [|k ks IH]; intros Hg.
    - split; [constructor|]. split; intros k [].
    - destruct IH as (I1 & I2 & I3); [intros; apply Hg; right; assumption|]. cbn. destruct (existsb (eqk k) ks) eqn:E.
      + split; [exact I1|]. split; [intros k' Hin; right; auto|]. intros k' [<-|Hin]; [|auto].
        apply existsb_exists in E. destruct E as (k1 & Hin & E). destruct (I3 k1 Hin) as (k2 & Hin2 & E2). exists k2. split; [exact Hin2|].
        apply T with k1; auto.
        * apply Hg. left. reflexivity.
        * apply Hg. right. exact Hin.
        * apply Hg. right. apply I2, Hin2.
      + split; [|split].
        * constructor; [|exact I1]. apply Forall_forall. intros x Hx. destruct (eqk k x) eqn:E'; [|reflexivity].
          assert (existsb (eqk k) ks = true); [|congruence]. apply existsb_exists. exists x. auto.
        * intros k' [<-|Hin]; [left; reflexivity|right; auto].
        * intros k' [<-|Hin]; [exists k; split; [left; reflexivity|apply R, Hg; left; reflexivity]|].
          destruct (I3 k' Hin) as (k2 & H1 & H2). exists k2. split; [right; exact H1|exact H2].
  Qed.

  Lemma size_built n hist : all_good K V good hist -> 13 <= n ->
    exists m, build K V eqk hk lh n hist = Ok m /\
      map_size K V m = Z.of_nat (length (distinct_keys K eqk (List.map fst hist))).
  Proof.
    intros Hg Hn. destruct (build_ok n hist Hg Hn) as (m & E & Wm & F & I). exists m. split; [exact E|].
    pose proof (wfm_goods K V eqk hk lh good 13 (le_n 13) m Wm) as Gm. pose proof Wm as (_ & Dm & Sm). rewrite Sm. f_equal.
    assert (Hkg : forall k, In k (List.map fst hist) -> good k).
    { intros k Hin. apply in_map_iff in Hin. destruct Hin as ([k' v'] & <- & Hin). eapply Hg, Hin. }
    destruct (distinct_keys_spec (List.map fst hist) Hkg) as (D1 & D2 & D3).
    set (ks := distinct_keys K eqk (List.map fst hist)) in *.
    (* pair the keys with any values of the history *)
    assert (exists c, List.map fst c = ks /\ incl c hist) as (c & Hc & Hi).
    { clear - D2. clearbody ks. revert D2. induction ks as [|k ks IH]; intros D2; [exists []; split; [reflexivity|intros x []]|].
      destruct IH as (c & Hc & Hi); [intros; apply D2; right; assumption|].
      pose proof (D2 k (or_introl eq_refl)) as Hk. apply in_map_iff in Hk. destruct Hk as ([k' v] & <- & Hin).
      exists ((k', v) :: c). cbn. rewrite Hc. split; [reflexivity|]. intros x [<-|Hx]; [exact Hin|apply Hi, Hx]. }
    rewrite <- Hc, map_length.
    assert (Gc : goods K V good c) by (intros k v Hin; eapply Hg, Hi, Hin).
    assert (Dc : distinct K V eqk c).
    { unfold distinct. rewrite <- Hc in D1. clear - D1. induction c as [|[k v] c IH]; [constructor|]. cbn in D1. inversion D1; subst.
      constructor; [|apply IH; assumption]. rewrite Forall_forall in *. intros x Hx. apply H1. apply in_map, Hx. }
    apply (same_keys_length K V eqk good R S T 13 (le_n 13) ltac:(lia)); auto. intros q Hq. unfold entries_of. rewrite (F q Hq).
    rewrite <- last_find, <- !find_none. split.
    - intros G k v Hin. apply (G k v). rewrite <- in_rev. apply Hi, Hin.
    - intros G k v Hin. rewrite <- in_rev in Hin. destruct (eqk k q) eqn:Ek; [|reflexivity]. exfalso.
      destruct (D3 k) as (k' & Hin' & E'); [apply in_map_iff; exists (k, v); auto|]. rewrite <- Hc in Hin'. apply in_map_iff in Hin'.
      destruct Hin' as ([k2 v2] & <- & Hin'). specialize (G k2 v2 Hin'). cbn in E'.
      assert (good k) by (eapply Hg, Hin). assert (good k2) by (eapply Gc, Hin').
      rewrite (T k2 k q) in G; [discriminate|auto..].
  Qed.

  Lemma iterate_built n hist : all_good K V good hist -> 13 <= n ->
    exists m, build K V eqk hk lh n hist = Ok m /\ pairwise_distinct K V eqk (iterate_map K V m) /\
      (forall k v, In (k, v) (iterate_map K V m) -> last_set K V eqk k hist = Some v) /\
      (forall q v, good q -> last_set K V eqk q hist = Some v -> exists k, In (k, v) (iterate_map K V m) /\ eqk k q = true).
  Proof.
    intros Hg Hn. destruct (build_ok n hist Hg Hn) as (m & E & Wm & F & I). exists m. split; [exact E|].
    pose proof (wfm_goods K V eqk hk lh good 13 (le_n 13) m Wm) as Gm. pose proof Wm as (_ & Dm & Sm). split; [exact Dm|]. split.
    - intros k v Hin. assert (Hk : good k) by (eapply Gm, Hin). rewrite <- (F k Hk). eapply (find_in K V eqk good S T); eauto.
    - intros q v Hq Hl. rewrite <- (F q Hq) in Hl. apply find_some in Hl. exact Hl.
  Qed.

  Lemma merge_built n hx hy : all_good K V good hx -> all_good K V good hy -> 13 <= n ->
    exists x y m, build K V eqk hk lh n hx = Ok x /\ build K V eqk hk lh n hy = Ok y /\ merge_maps K V eqk hk lh n x y = Ok m /\
      (forall q n', good q -> 13 <= n' -> get_map K V eqk hk lh n' m q =
         Ok (match last_set K V eqk q hy with Some v => Some v | None => last_set K V eqk q hx end)) /\
      map_size K V m = Z.of_nat (length (distinct_keys K eqk (List.map fst (hx ++ hy)))).
  Proof.
    intros Gx Gy Hn. destruct (build_ok n hx Gx Hn) as (x & Ex & Wx & Fx & _). destruct (build_ok n hy Gy Hn) as (y & Ey & Wy & Fy & _).
    destruct (merge_ok K V eqk hk lh good S T H 13 (le_n 13) apart13 ltac:(lia) n x y Wx Wy Hn) as (m & Em & Wm & Fm).
    assert (Fm' : forall q, good q -> find_kv K V eqk q (iterate_map K V m) = match last_set K V eqk q hy with Some v => Some v | None => last_set K V eqk q hx end).
    { intros q Hq. rewrite <- (Fx q Hq), <- (Fy q Hq). apply (Fm q Hq). }
    exists x, y, m. split; [exact Ex|]. split; [exact Ey|]. split; [exact Em|]. split.
    - intros q n' Hq Hn'. rewrite (get_map_ok K V eqk hk lh good H 13 (le_n 13) ltac:(lia) n' m q Wm Hq Hn'). f_equal. apply Fm', Hq.
    - assert (Gxy : all_good K V good (hx ++ hy)).
      { intros k v Hin. apply in_app_or in Hin. destruct Hin; [eapply Gx|eapply Gy]; eassumption. }
      destruct (size_built n (hx ++ hy) Gxy Hn) as (m2 & E2 & S2). rewrite <- S2.
      destruct (build_ok n (hx ++ hy) Gxy Hn) as (m2' & E2' & W2 & F2 & _). rewrite E2 in E2'. injection E2' as <-.
      pose proof Wm as (_ & Dm & Sm). pose proof W2 as (_ & D2 & S2'). rewrite Sm, S2'. f_equal.
      apply (same_keys_length K V eqk good R S T 13 (le_n 13) ltac:(lia)); auto.
      + apply (wfm_goods K V eqk hk lh good 13 (le_n 13) m Wm).
      + apply (wfm_goods K V eqk hk lh good 13 (le_n 13) m2 W2).
      + intros q Hq. unfold entries_of. rewrite (Fm' q Hq), (F2 q Hq), <- !last_find, rev_app_distr, find_app. reflexivity.
  Qed.

  Variable ev : V -> V -> bool.
  Variable hv : V -> N.

  Lemma equal_built n hx hy : all_good K V good hx -> all_good K V good hy -> 13 <= n ->
    exists x y, build K V eqk hk lh n hx = Ok x /\ build K V eqk hk lh n hy = Ok y /\
      (equal_maps K V eqk ev x y = true <->
       forall q, good q ->
         match last_set K V eqk q hx, last_set K V eqk q hy with
         | Some v, Some w => ev v w = true
         | None, None => True
         | _, _ => False
         end) /\
      ((forall v w, ev v w = true -> hv v = hv w) -> equal_maps K V eqk ev x y = true ->
       hash_map K V hk hv x = hash_map K V hk hv y).
  Proof.
    intros Gx Gy Hn. destruct (build_ok n hx Gx Hn) as (x & Ex & Wx & Fx & _). destruct (build_ok n hy Gy Hn) as (y & Ey & Wy & Fy & _).
    exists x, y. split; [exact Ex|]. split; [exact Ey|]. split.
    - rewrite (equal_maps_ok K V eqk hk lh good R S T H 13 (le_n 13) apart13 ltac:(lia) ev x y Wx Wy).
      split; intros G q Hq; specialize (G q Hq); unfold entries_of in *; rewrite (Fx q Hq), (Fy q Hq) in *; exact G.
    - intros Hev. apply (hash_maps_ok K V eqk hk lh good H 13 (le_n 13) ltac:(lia) ev hv Hev x y Wx Wy).
  Qed.

  (** Histories with deletions, when two indices tell keys apart. *)
  Hypothesis apart2 : forall a b, good a -> good b ->
    (forall j, 1 <= j <= 2 -> hamt_index K hk lh a 1 j = hamt_index K hk lh b 1 j) -> eqk a b = true.

  Notation W2 := (wfm K V eqk hk lh good 2).

  Lemma run_ok_from n ops : forall m, W2 m -> (forall o, In o ops -> good (op_key K V o)) -> 13 <= n ->
    exists m', foldM (run_op K V eqk hk lh n) m ops = Ok m' /\ W2 m' /\
      forall q, good q -> find_kv K V eqk q (iterate_map K V m') = last_op K V eqk q ops (find_kv K V eqk q (iterate_map K V m)).
  Proof.
    induction ops as [|o ops IH]; intros m Wm Hg Hn.
    - exists m. split; [reflexivity|]. split; [exact Wm|reflexivity].
    - cbn [foldM]. pose proof (Hg o (or_introl eq_refl)) as Ho. destruct o as [k v|k]; cbn [op_key] in Ho; cbn [run_op].
      + destruct (set_map_ok K V eqk hk lh good S T H 2 ltac:(lia) apart2 ltac:(lia) n m k v Wm Ho ltac:(lia)) as (m1 & b & E1 & W1 & U).
        rewrite E1. cbn [bind]. destruct (IH m1 W1) as (m2 & E2 & Wm2 & F2); [intros; apply Hg; right; assumption|exact Hn|].
        exists m2. split; [exact E2|]. split; [exact Wm2|]. intros q Hq. rewrite (F2 q Hq). cbn [last_op]. f_equal.
        apply (upd_find K V eqk good S T) with (b := b); auto; [apply (wfm_goods K V eqk hk lh good 2 ltac:(lia) m Wm)|apply Wm].
      + destruct (delete_map_ok K V eqk hk lh good S T H 2 ltac:(lia) ltac:(lia) ev ltac:(lia) n m k Wm Ho ltac:(lia)) as (m1 & E1 & W1 & F1 & _).
        rewrite E1. cbn [bind]. destruct (IH m1 W1) as (m2 & E2 & Wm2 & F2); [intros; apply Hg; right; assumption|exact Hn|].
        exists m2. split; [exact E2|]. split; [exact Wm2|]. intros q Hq. rewrite (F2 q Hq). cbn [last_op]. f_equal. apply (F1 q Hq).
  Qed.

  Lemma run_ok n ops : (forall o, In o ops -> good (op_key K V o)) -> 13 <= n ->
    exists m, run K V eqk hk lh n ops = Ok m /\
      (forall q n', good q -> 13 <= n' -> get_map K V eqk hk lh n' m q = Ok (last_op K V eqk q ops None)) /\
      pairwise_distinct K V eqk (iterate_map K V m) /\
      (forall k v, In (k, v) (iterate_map K V m) -> last_op K V eqk k ops None = Some v) /\
      (forall q v, good q -> last_op K V eqk q ops None = Some v -> exists k, In (k, v) (iterate_map K V m) /\ eqk k q = true) /\
      map_size K V m = Z.of_nat (length (iterate_map K V m)).
  Proof.
    intros Hg Hn. destruct (run_ok_from n ops (new_map K V) (wfm_new K V eqk hk lh good 2) Hg Hn) as (m & E & Wm & F).
    exists m. split; [exact E|]. pose proof (wfm_goods K V eqk hk lh good 2 ltac:(lia) m Wm) as Gm. pose proof Wm as (_ & Dm & Sm).
    change (find_kv K V eqk) with (find_kv K V eqk) in F. cbn in F.
    split; [|split; [exact Dm|split; [|split; [|exact Sm]]]].
    - intros q n' Hq Hn'. rewrite (get_map_ok K V eqk hk lh good H 2 ltac:(lia) ltac:(lia) n' m q Wm Hq ltac:(lia)). f_equal. apply (F q Hq).
    - intros k v Hin. assert (Hk : good k) by (eapply Gm, Hin). rewrite <- (F k Hk). eapply (find_in K V eqk good S T); eauto.
    - intros q v Hq Hl. rewrite <- (F q Hq) in Hl. apply find_some in Hl. exact Hl.
  Qed.

  (** Two such histories give equal maps exactly when they leave the same bindings. *)
  Lemma run_equal n ox oy : (forall o, In o ox -> good (op_key K V o)) -> (forall o, In o oy -> good (op_key K V o)) -> 13 <= n ->
    exists x y, run K V eqk hk lh n ox = Ok x /\ run K V eqk hk lh n oy = Ok y /\
      (equal_maps K V eqk ev x y = true <->
       forall q, good q ->
         match last_op K V eqk q ox None, last_op K V eqk q oy None with
         | Some v, Some w => ev v w = true
         | None, None => True
         | _, _ => False
         end).
  Proof.
    intros Gx Gy Hn. destruct (run_ok_from n ox (new_map K V) (wfm_new K V eqk hk lh good 2) Gx Hn) as (x & Ex & Wx & Fx).
    destruct (run_ok_from n oy (new_map K V) (wfm_new K V eqk hk lh good 2) Gy Hn) as (y & Ey & Wy & Fy).
    exists x, y. split; [exact Ex|]. split; [exact Ey|].
    rewrite (equal_maps_ok K V eqk hk lh good R S T H 2 ltac:(lia) apart2 ltac:(lia) ev x y Wx Wy).
    split; intros G q Hq; specialize (G q Hq); unfold entries_of in *; rewrite (Fx q Hq), (Fy q Hq) in *; exact G.
  Qed.
End Histories.

(** Unequal keys with the same hash: setting never returns. *)
Section Collision.
  Variables K V : Type.
  Variable eqk : K -> K -> bool.
  Variable hk : K -> N.
  Variable lh : nat -> N.

  Lemma get_set_entry (h : list (entry K V)) j e : j < length h -> get_entry K V (set_entry K V h (Datatypes.S j) e) (Datatypes.S j) = e.
  Proof. intros Hj. cbn. rewrite set_nth_nth by exact Hj. rewrite Nat.eqb_refl. reflexivity. Qed.

  Lemma collision_diverges a b v w : hk a = hk b -> eqk a b = false ->
    forall n h layer level, length h = 32 -> get_entry K V h (hamt_index K hk lh b layer level) = EKey a v ->
    set_key_value K V eqk hk lh n h b w layer level = OutOfFuel.
  Proof.
    intros Hh Hne n. induction n as [|n IH]; intros h layer level Hl He; [reflexivity|].
    cbn [set_key_value]. rewrite He, Hne. destruct n as [|n]; [reflexivity|].
    cbn [set_key_value]. 
    assert (exists j, hamt_index K hk lh a layer (level + 1) = Datatypes.S j /\ j < 32) as (j & Hj & Hj32).
    { unfold hamt_index, hash_to_index. eexists. split; [reflexivity|]. set (x := N.shiftr _ _). change 31%N with (N.ones 5).
      rewrite N.land_ones. pose proof (N.mod_lt x (2 ^ 5) ltac:(discriminate)). change (2 ^ 5)%N with 32%N in *. lia. }
    assert (Hg : get_entry K V (new_hamt K V) (hamt_index K hk lh a layer (level + 1)) = ENone).
    { rewrite Hj. cbn [get_entry]. unfold new_hamt. apply nth_repeat. }
    rewrite Hg. cbn [bind fst]. 
    change (set_key_value K V eqk hk lh (Datatypes.S n)) with (set_key_value K V eqk hk lh (Datatypes.S n)) in IH.
    rewrite Hj. cbn [set_entry].
    pose proof (IH (set_nth K V (set_nth K V (new_hamt K V) j ENone) j (EKey a v)) layer (level + 1)) as G.
    cbn [set_key_value] in G. rewrite G; [reflexivity|rewrite !set_nth_length; reflexivity|].
    assert (hamt_index K hk lh b layer (level + 1) = Datatypes.S j) as -> by (rewrite <- Hj; unfold hamt_index; rewrite Hh; reflexivity).
    cbn [get_entry]. rewrite set_nth_nth by (rewrite !set_nth_length; exact Hj32). rewrite Nat.eqb_refl. reflexivity.
  Qed.

  Lemma collision_set a b v w : hk a = hk b -> eqk a b = false ->
    exists m, build K V eqk hk lh 1 [(a, v)] = Ok m /\ forall n, set_map K V eqk hk lh n m b w = OutOfFuel.
  Proof.
    intros Hh Hne. destruct (idx_range K hk lh 13 (le_n 13) b 1) as (j & Hj & Hj32).
    assert (Hi : hamt_index K hk lh a 1 1 = Datatypes.S j) by (rewrite <- Hj; unfold hamt_index; rewrite Hh; reflexivity).
    exists {| map_hamt := set_nth K V (set_nth K V (new_hamt K V) j ENone) j (EKey a v); map_size := 1 |}. split.
    - unfold build. cbn [foldM fst snd]. unfold set_map. cbn [map_hamt new_map]. cbn [set_key_value]. rewrite Hi. cbn [get_entry set_entry].
      unfold new_hamt at 1. rewrite nth_repeat. reflexivity.
    - intros n. unfold set_map. cbn [map_hamt]. rewrite (collision_diverges a b v w Hh Hne); [reflexivity|rewrite !set_nth_length; reflexivity|].
      rewrite Hj. cbn [get_entry]. rewrite set_nth_nth by (rewrite !set_nth_length; exact Hj32). rewrite Nat.eqb_refl. reflexivity.
  Qed.
End Collision.
