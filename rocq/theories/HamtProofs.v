From Coq Require Import NArith ZArith List Bool Arith Lia Permutation.
From Verif Require Import Base Hash Hamt.
Import ListNotations.

Section EntryInd.
  Variables K V : Type.
  Variable P : entry K V -> Prop.
  Hypothesis Hn : P ENone.
  Hypothesis Hk : forall k v, P (EKey k v).
  Hypothesis Hh : forall h, Forall P h -> P (EHamt h).
  Fixpoint entry_ind' (e : entry K V) : P e :=
    match e with
    | ENone => Hn
    | EKey k v => Hk k v
    | EHamt h =>
        Hh h ((fix go (h : list (entry K V)) : Forall P h :=
                 match h with
                 | [] => Forall_nil _
                 | e :: h => Forall_cons e (entry_ind' e) (go h)
                 end) h)
    end.
End EntryInd.

Section Contents.
  Variables K V : Type.
  Notation ent := (entry K V).

  (** All bindings of a tree, in order. *)
  Fixpoint contents_e (e : ent) : list (K * V) :=
    match e with
    | ENone => []
    | EKey k v => [(k, v)]
    | EHamt h => flat_map contents_e h
    end.
  Definition contents (h : list ent) : list (K * V) := flat_map contents_e h.

  Lemma iterate_entry_contents e : forall rest, iterate_entry K V e rest = contents_e e ++ rest.
  Proof.
    induction e as [|k v|h IH] using entry_ind'; intros rest; [reflexivity|reflexivity|].
    cbn [iterate_entry contents_e]. revert rest. induction IH as [|e h He _ IHh]; intros rest; [reflexivity|].
    rewrite He, IHh. cbn [flat_map]. rewrite app_assoc. reflexivity.
  Qed.

  Lemma iterate_contents h rest : iterate_hamt K V h rest = contents h ++ rest.
  Proof.
    revert rest. induction h as [|e h IH]; intros rest; [reflexivity|]. cbn [iterate_hamt contents flat_map].
    rewrite iterate_entry_contents, IH, app_assoc. reflexivity.
  Qed.

  Lemma nth_split_at (h : list ent) j : j < length h -> h = firstn j h ++ nth j h ENone :: skipn (S j) h.
  Proof.
    revert j. induction h as [|e h IH]; intros j Hj; cbn in Hj; [lia|]. destruct j as [|j]; [reflexivity|].
    cbn [firstn nth skipn app]. rewrite <- IH by lia. reflexivity.
  Qed.

  Lemma set_nth_split (h : list ent) j e : j < length h -> set_nth K V h j e = firstn j h ++ e :: skipn (S j) h.
  Proof.
    revert j. induction h as [|e' h IH]; intros j Hj; cbn in Hj; [lia|]. destruct j as [|j]; [reflexivity|].
    cbn [set_nth firstn skipn app]. rewrite IH by lia. reflexivity.
  Qed.

  Lemma set_nth_length (h : list ent) j e : length (set_nth K V h j e) = length h.
  Proof. revert j. induction h as [|e' h IH]; intros [|j]; cbn; auto. Qed.

  Lemma set_nth_nth (h : list ent) j e i : j < length h ->
    nth i (set_nth K V h j e) ENone = if Nat.eqb i j then e else nth i h ENone.
  Proof.
    revert i j. induction h as [|e' h IH]; intros i j Hj; cbn in Hj; [lia|].
    destruct j as [|j]; destruct i as [|i]; cbn [set_nth nth Nat.eqb]; try reflexivity. apply IH. lia.
  Qed.

  Lemma set_nth_twice (h : list ent) j e e' : set_nth K V (set_nth K V h j e) j e' = set_nth K V h j e'.
  Proof. revert j. induction h as [|x h IH]; intros [|j]; cbn; try reflexivity. rewrite IH. reflexivity. Qed.

  Lemma contents_app a b : contents (a ++ b) = contents a ++ contents b.
  Proof. apply flat_map_app. Qed.

  Lemma contents_split (h : list ent) j : j < length h ->
    contents h = contents (firstn j h) ++ contents_e (nth j h ENone) ++ contents (skipn (S j) h).
  Proof. intros H. rewrite (nth_split_at h j H) at 1. rewrite contents_app. reflexivity. Qed.

  Lemma contents_set (h : list ent) j e : j < length h ->
    contents (set_nth K V h j e) = contents (firstn j h) ++ contents_e e ++ contents (skipn (S j) h).
  Proof. intros H. rewrite set_nth_split by exact H. rewrite contents_app. reflexivity. Qed.

  Lemma contents_nth (h : list ent) x : In x (contents h) <-> exists j, j < length h /\ In x (contents_e (nth j h ENone)).
  Proof.
    unfold contents. rewrite in_flat_map. split.
    - intros (e & He & Hx). destruct (In_nth h e ENone He) as (j & Hj & Hn). exists j. rewrite Hn. auto.
    - intros (j & Hj & Hx). exists (nth j h ENone). split; [apply nth_In, Hj|exact Hx].
  Qed.

  Lemma contents_firstn (h : list ent) j x : In x (contents (firstn j h)) ->
    exists i, i < j /\ i < length h /\ In x (contents_e (nth i h ENone)).
  Proof.
    intros H. apply contents_nth in H. destruct H as (i & Hi & Hx). rewrite firstn_length in Hi.
    exists i. split; [lia|]. split; [lia|]. rewrite <- (firstn_skipn j h), app_nth1; [exact Hx|]. rewrite firstn_length. lia.
  Qed.

  Lemma contents_skipn (h : list ent) j x : In x (contents (skipn (S j) h)) ->
    exists i, j < i /\ i < length h /\ In x (contents_e (nth i h ENone)).
  Proof.
    intros H. apply contents_nth in H. destruct H as (i & Hi & Hx). rewrite skipn_length in Hi.
    exists (S j + i). split; [lia|]. split; [lia|].
    rewrite <- (firstn_skipn (S j) h), app_nth2; rewrite firstn_length; [|lia].
    replace (S j + i - Nat.min (S j) (length h)) with i by lia. exact Hx.
  Qed.

  Lemma new_hamt_contents : contents (new_hamt K V) = [].
  Proof. reflexivity. Qed.
End Contents.
Arguments contents_e {K V} e.
Arguments contents {K V} h.

Section Correct.
  Variables K V : Type.
  Variable eqk : K -> K -> bool.
  Variable hk : K -> N.
  Variable lh : nat -> N.
  (** Keys for which the assumptions hold (for numbers: those that are not NaN). *)
  Variable good : K -> Prop.
  Hypothesis eqk_refl : forall a, good a -> eqk a a = true.
  Hypothesis eqk_sym : forall a b, good a -> good b -> eqk a b = true -> eqk b a = true.
  Hypothesis eqk_trans : forall a b c, good a -> good b -> good c -> eqk a b = true -> eqk b c = true -> eqk a c = true.
  Hypothesis eqk_hash : forall a b, good a -> good b -> eqk a b = true -> hk a = hk b.

  Notation ent := (entry K V).
  Notation idx k L := (hamt_index K hk lh k 1 L).

  (** Unequal keys differ in one of the first [M] indices. *)
  Variable M : nat.
  Hypothesis M_max : M <= 13.
  Hypothesis apart : forall a b, good a -> good b -> (forall j, 1 <= j <= M -> idx a j = idx b j) -> eqk a b = true.

  Lemma eqk_idx a b L : good a -> good b -> eqk a b = true -> idx a L = idx b L.
  Proof. intros Ha Hb H. unfold hamt_index. rewrite (eqk_hash a b Ha Hb H). reflexivity. Qed.

  Lemma idx_range k L : exists j, idx k L = S j /\ j < 32.
  Proof.
    unfold hamt_index, hash_to_index. eexists. split; [reflexivity|].
    set (x := N.shiftr _ _). change 31%N with (N.ones 5). rewrite N.land_ones.
    pose proof (N.mod_lt x (2 ^ 5) ltac:(discriminate)). change (2 ^ 5)%N with 32%N in *. lia.
  Qed.

  Inductive wfe : nat -> nat -> ent -> Prop :=
  | wfe_none : forall L i, wfe L i ENone
  | wfe_key : forall L i k v, good k -> idx k L = i -> wfe L i (EKey k v)
  | wfe_hamt : forall L i h,
      L < M -> length h = 32 -> 2 <= length (contents h) ->
      (forall k v, In (k, v) (contents h) -> idx k L = i) ->
      (forall j, j < 32 -> wfe (S L) (S j) (nth j h ENone)) ->
      wfe L i (EHamt h).

  Definition wfh (L : nat) (h : list ent) : Prop := length h = 32 /\ forall j, j < 32 -> wfe L (S j) (nth j h ENone).

  Lemma wfe_good e : forall L i, wfe L i e -> forall k v, In (k, v) (contents_e e) -> good k /\ idx k L = i.
  Proof.
    induction e as [|k0 v0|h IH] using entry_ind'; intros L i H k v Hin; inversion H; subst.
    - destruct Hin.
    - destruct Hin as [E|[]]. injection E as -> ->. auto.
    - split; [|eauto]. cbn in Hin. apply contents_nth in Hin. destruct Hin as (j & Hj & Hin).
      rewrite Forall_forall in IH. eapply (IH (nth j h ENone)); [apply nth_In, Hj|apply H7; lia|exact Hin].
  Qed.

  Lemma wfh_good L h : wfh L h -> forall k v, In (k, v) (contents h) -> good k.
  Proof.
    intros [Hl H] k v Hin. apply contents_nth in Hin. destruct Hin as (j & Hj & Hin).
    eapply wfe_good; [apply (H j); lia|exact Hin].
  Qed.

  Lemma wfh_new L : wfh L (new_hamt K V).
  Proof.
    split; [reflexivity|]. intros j _. assert (nth j (new_hamt K V) (ENone (K := K) (V := V)) = ENone) as ->; [|constructor].
    unfold new_hamt. apply nth_repeat.
  Qed.

  (** Other entries hold no key with the index of [k]. *)
  Lemma others L h j k k' v' : wfh L h -> good k -> idx k L = S j ->
    In (k', v') (contents (firstn j h)) \/ In (k', v') (contents (skipn (S j) h)) -> eqk k' k = false.
  Proof.
    intros [Hl H] Hk Hj Hin. destruct (eqk k' k) eqn:E; [|reflexivity]. exfalso.
    assert (exists i, i <> j /\ i < 32 /\ In (k', v') (contents_e (nth i h ENone))) as (i & Hne & Hi & Hc).
    { destruct Hin as [Hin|Hin]; [apply contents_firstn in Hin|apply contents_skipn in Hin];
        destruct Hin as (i & H1 & H2 & H3); exists i; repeat split; try lia; assumption. }
    destruct (wfe_good _ _ _ (H i Hi) _ _ Hc) as [Hg Hx].
    pose proof (eqk_idx k' k L Hg Hk E). congruence.
  Qed.

  Lemma wfh_set L h j e : wfh L h -> j < 32 -> wfe L (S j) e -> wfh L (set_nth K V h j e).
  Proof.
    intros [Hl H] Hj He. split; [rewrite set_nth_length; exact Hl|]. intros i Hi. rewrite set_nth_nth by lia.
    destruct (Nat.eqb_spec i j) as [->|]; auto.
  Qed.

  (** *** Looking up *)
  Fixpoint find_kv (q : K) (l : list (K * V)) : option V :=
    match l with
    | [] => None
    | (k, v) :: l => if eqk k q then Some v else find_kv q l
    end.

  Lemma find_app q a b : find_kv q (a ++ b) = match find_kv q a with Some v => Some v | None => find_kv q b end.
  Proof. induction a as [|[k v] a IH]; [reflexivity|]. cbn. destruct (eqk k q); [reflexivity|exact IH]. Qed.

  Lemma find_none q l : (forall k v, In (k, v) l -> eqk k q = false) <-> find_kv q l = None.
  Proof.
    induction l as [|[k v] l IH]; cbn; [split; [reflexivity|intros _ k v []]|]. split.
    - intros H. rewrite (H k v) by (left; reflexivity). apply IH. intros k' v' Hin. apply (H k' v'). right. exact Hin.
    - destruct (eqk k q) eqn:E; [discriminate|]. intros H k' v' [E'|Hin]; [injection E' as <- <-; exact E|].
      eapply IH; eassumption.
  Qed.

  Lemma get_ok n : forall h q L, wfh L h -> good q -> 1 <= L <= M -> M - L < n ->
    get_value K V eqk hk lh n h q 1 L = Ok (find_kv q (contents h)).
  Proof.
    induction n as [|n IH]; intros h q L W Hq HL Hn; [lia|]. cbn [get_value].
    destruct (idx_range q L) as (j & Hj & Hj32). rewrite Hj. cbn [get_entry].
    pose proof W as [Hl H]. rewrite (contents_split K V h j) by lia. rewrite !find_app.
    rewrite (proj1 (find_none q (contents (firstn j h)))) by (intros k v Hin; eapply others; eauto).
    rewrite (proj1 (find_none q (contents (skipn (S j) h)))) by (intros k v Hin; eapply others; eauto).
    pose proof (H j Hj32) as He. destruct (nth j h ENone) as [|k v|h'].
    - reflexivity.
    - cbn. destruct (eqk k q); reflexivity.
    - inversion He; subst. assert (max_level <? L = false) as -> by (apply Nat.ltb_ge; unfold max_level; lia).
      replace (L + 1) with (S L) by lia. rewrite (IH h' q (S L)); [|split; assumption|exact Hq|lia|lia].
      cbn [contents_e]. fold (contents h'). destruct (find_kv q (contents h')); reflexivity.
  Qed.

  (** *** Setting *)
  (** [c'] is [c] with [k] bound to [v]; [b] tells whether [k] is new. *)
  Definition upd (c : list (K * V)) (k : K) (v : V) (b : bool) (c' : list (K * V)) : Prop :=
    if b then Permutation c' ((k, v) :: c) /\ forall k' v', In (k', v') c -> eqk k' k = false
    else exists c1 k0 v0 c2, c = c1 ++ (k0, v0) :: c2 /\ eqk k0 k = true /\ c' = c1 ++ (k, v) :: c2.

  Lemma upd_context a b c k v r c' :
    (forall k' v', In (k', v') a \/ In (k', v') b -> eqk k' k = false) ->
    upd c k v r c' -> upd (a ++ c ++ b) k v r (a ++ c' ++ b).
  Proof.
    intros Hab H. destruct r; cbn in *.
    - destruct H as [H1 H2]. split.
      + rewrite H1. cbn. rewrite (Permutation_middle a (c ++ b) (k, v)). reflexivity.
      + intros k' v' Hin. apply in_app_or in Hin. destruct Hin as [Hin|Hin]; [eauto|].
        apply in_app_or in Hin. destruct Hin as [Hin|Hin]; eauto.
    - destruct H as (c1 & k0 & v0 & c2 & -> & He & ->). exists (a ++ c1), k0, v0, (c2 ++ b).
      rewrite <- !app_assoc. auto.
  Qed.

  Lemma upd_length c k v b c' : upd c k v b c' -> length c' = length c + if b then 1 else 0.
  Proof.
    destruct b; cbn.
    - intros [H _]. apply Permutation_length in H. cbn in H. lia.
    - intros (c1 & k0 & v0 & c2 & -> & _ & ->). rewrite !app_length. cbn. lia.
  Qed.

  Lemma upd_keys c k v b c' : upd c k v b c' -> forall k' v', In (k', v') c' -> (k' = k /\ v' = v) \/ In (k', v') c.
  Proof.
    destruct b; cbn.
    - intros [H _] k' v' Hin. apply (Permutation_in _ H) in Hin. destruct Hin as [E|Hin]; [injection E as -> ->; auto|auto].
    - intros (c1 & k0 & v0 & c2 & -> & _ & ->) k' v' Hin. apply in_app_or in Hin. destruct Hin as [Hin|[E|Hin]].
      + right. apply in_or_app. auto.
      + injection E as -> ->. auto.
      + right. apply in_or_app. right. right. exact Hin.
  Qed.

  Lemma set_ok n : forall h k v L, wfh L h -> good k -> 1 <= L <= M -> M - L < n ->
    (forall k' v', In (k', v') (contents h) -> forall j, 1 <= j < L -> idx k' j = idx k j) ->
    exists h' b, set_key_value K V eqk hk lh n h k v 1 L = Ok (h', b) /\ wfh L h' /\ upd (contents h) k v b (contents h').
  Proof.
    induction n as [|n IH]; intros h k v L W Hk HL Hn Hpre; [lia|]. cbn [set_key_value].
    destruct (idx_range k L) as (j & Hj & Hj32). rewrite Hj. cbn [get_entry set_entry].
    pose proof W as [Hl H]. pose proof (H j Hj32) as He. rewrite ?set_nth_twice.
    assert (Hoth : forall k' v', In (k', v') (contents (firstn j h)) \/ In (k', v') (contents (skipn (S j) h)) -> eqk k' k = false)
      by (intros k' v' Hin; eapply others; eauto).
    pose proof (contents_split K V h j ltac:(lia)) as Hc.
    destruct (nth j h ENone) as [|k0 v0|h0] eqn:Hnth.
    - do 2 eexists. split; [reflexivity|]. split; [apply wfh_set; [exact W|exact Hj32|constructor; assumption]|].
      rewrite Hc, contents_set by lia. apply upd_context; [exact Hoth|]. cbn. split; [reflexivity|intros k' v' []].
    - inversion He; subst. destruct (eqk k0 k) eqn:E.
      + do 2 eexists. split; [reflexivity|]. rewrite ?set_nth_twice. split; [apply wfh_set; [exact W|exact Hj32|constructor; assumption]|].
        rewrite Hc, contents_set by lia. apply upd_context; [exact Hoth|]. cbn. exists [], k0, v0, []. auto.
      + assert (Hag : forall i, 1 <= i <= L -> idx k0 i = idx k i).
        { intros i Hi. destruct (Nat.eq_dec i L) as [->|]; [congruence|]. eapply Hpre; [|lia]. rewrite Hc. apply in_or_app. right. left. reflexivity. }
        assert (L < M). { destruct (Nat.eq_dec L M) as [->|]; [|lia]. rewrite (apart k0 k) in E; [discriminate|assumption..]. }
        replace (L + 1) with (S L) by lia.
        destruct (IH (new_hamt K V) k0 v0 (S L)) as (h1 & b1 & E1 & W1 & U1); [apply wfh_new|assumption|lia|lia|intros ? ? []|].
        rewrite E1. cbn [bind fst]. destruct b1; [|cbn in U1; destruct U1 as ([|] & ? & ? & ? & ? & _); discriminate].
        destruct U1 as [P1 _]. cbn in P1. apply Permutation_sym, Permutation_length_1_inv in P1.
        destruct (IH h1 k v (S L)) as (h2 & b2 & E2 & W2 & U2); [exact W1|assumption|lia|lia| |].
        { rewrite P1. intros k' v' [Eq|[]] i Hi. injection Eq as <- <-. apply Hag. lia. }
        rewrite E2. cbn [bind fst]. rewrite P1 in U2.
        assert (b2 = true) as ->.
        { destruct b2; [reflexivity|]. cbn in U2. destruct U2 as ([|x [|]] & k1 & v1 & c2 & Eq & Et & _); try discriminate.
          cbn in Eq. injection Eq as <- <- <-. congruence. }
        do 2 eexists. split; [reflexivity|]. rewrite ?set_nth_twice. split.
        * apply wfh_set; [exact W|exact Hj32|]. destruct W2 as [Hl2 H2]. constructor; try assumption.
          -- rewrite (upd_length _ _ _ _ _ U2). cbn. lia.
          -- intros k' v' Hin. destruct (upd_keys _ _ _ _ _ U2 k' v' Hin) as [[-> ->]|[Eq|[]]]; [exact Hj|]. injection Eq as <- <-. assumption.
        * rewrite Hc, contents_set by lia. apply upd_context; [exact Hoth|]. exact U2.
    - inversion He; subst. assert (max_level <? L = false) as -> by (apply Nat.ltb_ge; unfold max_level; lia).
      replace (L + 1) with (S L) by lia.
      destruct (IH h0 k v (S L)) as (h1 & b1 & E1 & W1 & U1); [split; assumption|assumption|lia|lia| |].
      { intros k' v' Hin i Hi. destruct (Nat.eq_dec i L) as [->|].
        - rewrite Hj. eauto.
        - eapply Hpre; [|lia]. rewrite Hc. apply in_or_app. right. apply in_or_app. left. exact Hin. }
      rewrite E1. cbn [bind fst snd]. do 2 eexists. split; [reflexivity|]. rewrite ?set_nth_twice. split.
      + apply wfh_set; [exact W|exact Hj32|]. destruct W1 as [Hl1 Hw1]. constructor; try assumption.
        * rewrite (upd_length _ _ _ _ _ U1). lia.
        * intros k' v' Hin. destruct (upd_keys _ _ _ _ _ U1 k' v' Hin) as [[-> ->]|Hin']; [exact Hj|eauto].
      + rewrite Hc, contents_set by lia. apply upd_context; [exact Hoth|exact U1].
  Qed.

  (** *** Distinct keys *)
  Definition distinct (c : list (K * V)) : Prop := ForallOrdPairs (fun x y => eqk (fst x) (fst y) = false) c.
  Definition goods (c : list (K * V)) : Prop := forall k v, In (k, v) c -> good k.

  Lemma eqk_false_sym a b : good a -> good b -> eqk a b = false -> eqk b a = false.
  Proof. intros Ha Hb H. destruct (eqk b a) eqn:E; [|reflexivity]. rewrite (eqk_sym b a Hb Ha E) in H. discriminate. Qed.

  Lemma distinct_perm c c' : goods c -> Permutation c c' -> distinct c -> distinct c'.
  Proof.
    intros Hg HP. revert Hg. induction HP as [|[k v] l l' HP IH|[a v] [b w] l|l m r HP1 IH1 HP2 IH2]; intros Hg H.
    - exact H.
    - inversion H; subst. constructor; [|apply IH; [intros ? ? Hi; eapply Hg; right; exact Hi|assumption]].
      rewrite Forall_forall in *. intros x Hx. apply H2. apply (Permutation_in x (Permutation_sym HP)), Hx.
    - inversion H as [|? ? H1 H2]; subst. inversion H2 as [|? ? H3 H4]; subst. inversion H1 as [|? ? H5 H6]; subst.
      constructor; [constructor; [|exact H3]|constructor; assumption]. cbn in *. apply eqk_false_sym; [eapply Hg; left; reflexivity|eapply Hg; right; left; reflexivity|assumption].
    - apply IH2; [|auto]. intros k v Hin. eapply Hg. apply (Permutation_in _ (Permutation_sym HP1)), Hin.
  Qed.

  Lemma distinct_cons k v c : distinct ((k, v) :: c) <-> (forall k' v', In (k', v') c -> eqk k k' = false) /\ distinct c.
  Proof.
    split.
    - intros H. inversion H as [|? ? H1 H2]; subst. rewrite Forall_forall in H1. split; [|exact H2]. intros k' v' Hin. exact (H1 _ Hin).
    - intros [H1 H2]. constructor; [|exact H2]. apply Forall_forall. intros [k' v'] Hin. exact (H1 _ _ Hin).
  Qed.

  Lemma distinct_middle a k v b : goods (a ++ (k, v) :: b) -> distinct (a ++ (k, v) :: b) ->
    (forall k' v', In (k', v') (a ++ b) -> eqk k k' = false) /\ distinct (a ++ b).
  Proof.
    intros Hg H. apply (distinct_cons k v). eapply distinct_perm; [exact Hg| |exact H]. symmetry. apply Permutation_middle.
  Qed.

  Lemma find_perm q c c' : good q -> goods c -> distinct c -> Permutation c c' -> find_kv q c = find_kv q c'.
  Proof.
    intros Hq Hg Hd HP. revert Hg Hd. induction HP as [|[k v] l l' HP IH|[a v] [b w] l|l m r HP1 IH1 HP2 IH2]; intros Hg Hd.
    - reflexivity.
    - cbn. rewrite IH; [reflexivity| |]; [intros ? ? Hi; eapply Hg; right; exact Hi|]. apply distinct_cons in Hd. tauto.
    - cbn. destruct (eqk a q) eqn:Ea; destruct (eqk b q) eqn:Eb; try reflexivity. exfalso.
      apply distinct_cons in Hd. destruct Hd as [Hd _]. specialize (Hd a v (or_introl eq_refl)).
      assert (good a) by (eapply Hg; right; left; reflexivity). assert (good b) by (eapply Hg; left; reflexivity).
      rewrite (eqk_trans b q a) in Hd; [discriminate|auto..].
    - rewrite IH1 by assumption. apply IH2; [|eapply distinct_perm; eassumption].
      intros k v Hin. eapply Hg. apply (Permutation_in _ (Permutation_sym HP1)), Hin.
  Qed.

  Lemma upd_goods c k v b c' : good k -> goods c -> upd c k v b c' -> goods c'.
  Proof. intros Hk Hg U k' v' Hin. destruct (upd_keys _ _ _ _ _ U k' v' Hin) as [[-> _]|H]; [exact Hk|eapply Hg, H]. Qed.

  Lemma upd_distinct c k v b c' : good k -> goods c -> distinct c -> upd c k v b c' -> distinct c'.
  Proof.
    intros Hk Hg Hd U. pose proof (upd_goods _ _ _ _ _ Hk Hg U) as Hg'. destruct b; cbn in U.
    - destruct U as [HP Hne]. eapply distinct_perm; [|apply Permutation_sym, HP|].
      + intros k' v' [E|Hin]; [injection E as <- <-; exact Hk|eapply Hg, Hin].
      + apply distinct_cons. split; [|exact Hd]. intros k' v' Hin. apply eqk_false_sym; [eapply Hg, Hin|exact Hk|eapply Hne, Hin].
    - destruct U as (c1 & k0 & v0 & c2 & -> & He & ->). apply distinct_middle in Hd; [|exact Hg].
      assert (Hk0 : good k0) by (eapply Hg, in_or_app; right; left; reflexivity).
      eapply distinct_perm; [|apply Permutation_middle|].
      + intros k' v' [E|Hin]; [injection E as <- <-; exact Hk|]. eapply Hg' with v'. apply in_app_or in Hin. apply in_or_app. destruct Hin; [auto|right; right; assumption].
      + apply distinct_cons. split; [|tauto]. intros k' v' Hin.
        assert (Hgk : good k'). { eapply Hg with v'. apply in_app_or in Hin. apply in_or_app. destruct Hin; [auto|right; right; assumption]. }
        destruct Hd as [Hd _]. destruct (eqk k k') eqn:E; [|reflexivity]. specialize (Hd k' v' Hin). rewrite (eqk_trans k0 k k') in Hd; [discriminate|assumption..].
  Qed.

  Lemma upd_find c k v b c' q : good k -> good q -> goods c -> distinct c -> upd c k v b c' ->
    find_kv q c' = if eqk k q then Some v else find_kv q c.
  Proof.
    intros Hk Hq Hg Hd U. pose proof (upd_goods _ _ _ _ _ Hk Hg U) as Hg'. pose proof (upd_distinct _ _ _ _ _ Hk Hg Hd U) as Hd'.
    destruct b; cbn in U.
    - destruct U as [HP _]. rewrite (find_perm q c' _ Hq Hg' Hd' HP). reflexivity.
    - destruct U as (c1 & k0 & v0 & c2 & -> & He & ->). assert (Hk0 : good k0) by (eapply Hg, in_or_app; right; left; reflexivity).
      rewrite (find_perm q (c1 ++ (k, v) :: c2) ((k, v) :: c1 ++ c2) Hq Hg' Hd' (Permutation_sym (Permutation_middle _ _ _))).
      rewrite (find_perm q (c1 ++ (k0, v0) :: c2) ((k0, v0) :: c1 ++ c2) Hq Hg Hd (Permutation_sym (Permutation_middle _ _ _))). cbn.
      destruct (eqk k q) eqn:E; [reflexivity|]. destruct (eqk k0 q) eqn:E0; [|reflexivity]. exfalso.
      rewrite (eqk_trans k k0 q) in E; [discriminate|auto..].
  Qed.

  (** *** Maps *)
  Notation mp := (map K V).
  Definition entries_of (m : mp) : list (K * V) := iterate_map K V m.

  Lemma entries_contents m : entries_of m = contents (map_hamt K V m).
  Proof. unfold entries_of, iterate_map. rewrite iterate_contents, app_nil_r. reflexivity. Qed.

  Definition wfm (m : mp) : Prop :=
    wfh 1 (map_hamt K V m) /\ distinct (entries_of m) /\ map_size K V m = Z.of_nat (length (entries_of m)).

  Lemma wfm_goods m : wfm m -> goods (entries_of m).
  Proof. intros (W & _) k v Hin. rewrite entries_contents in Hin. eapply wfh_good; eassumption. Qed.

  Hypothesis M_pos : 1 <= M.

  Lemma wfm_new : wfm (new_map K V).
  Proof. split; [apply wfh_new|]. split; [constructor|reflexivity]. Qed.

  Lemma get_map_ok n m q : wfm m -> good q -> M <= n -> get_map K V eqk hk lh n m q = Ok (find_kv q (entries_of m)).
  Proof. intros (W & _) Hq Hn. rewrite entries_contents. apply get_ok; [exact W|exact Hq|lia|lia]. Qed.

  Lemma set_map_ok n m k v : wfm m -> good k -> M <= n ->
    exists m' b, set_map K V eqk hk lh n m k v = Ok m' /\ wfm m' /\ upd (entries_of m) k v b (entries_of m').
  Proof.
    intros Wm Hk Hn. pose proof Wm as (W & Hd & Hs). unfold set_map.
    destruct (set_ok n (map_hamt K V m) k v 1) as (h & b & E & W' & U); [exact W|exact Hk|lia|lia|intros ? ? _ j Hj; lia|].
    rewrite E. cbn [bind fst snd]. do 2 eexists. split; [reflexivity|]. rewrite <- entries_contents in U.
    pose proof (upd_length _ _ _ _ _ U) as Hlen.
    assert (Hent : forall s, entries_of {| map_hamt := h; map_size := s |} = contents h) by (intros s; rewrite entries_contents; reflexivity).
    split; [|rewrite Hent; exact U]. split; [exact W'|]. rewrite Hent. split.
    - eapply upd_distinct; [exact Hk|apply wfm_goods, Wm|exact Hd|exact U].
    - cbn [map_size]. rewrite Hs, Hlen. destruct b; lia.
  Qed.

  Lemma set_map_find n m k v m' q : wfm m -> good k -> good q -> M <= n ->
    set_map K V eqk hk lh n m k v = Ok m' -> wfm m' /\ find_kv q (entries_of m') = if eqk k q then Some v else find_kv q (entries_of m).
  Proof.
    intros Wm Hk Hq Hn H. destruct (set_map_ok n m k v Wm Hk Hn) as (m1 & b & E & W1 & U). rewrite E in H. injection H as ->.
    split; [exact W1|]. eapply upd_find; [exact Hk|exact Hq|apply wfm_goods, Wm|apply Wm|exact U].
  Qed.

  (** A sequence of sets. *)
  Definition sets (n : nat) (m : mp) (hist : list (K * V)) : res mp :=
    foldM (fun m kv => set_map K V eqk hk lh n m (fst kv) (snd kv)) m hist.

  Lemma sets_ok n hist : forall m, wfm m -> goods hist -> M <= n ->
    exists m', sets n m hist = Ok m' /\ wfm m' /\
      (forall q, good q -> find_kv q (entries_of m') = find_kv q (rev hist ++ entries_of m)) /\
      (forall k v, In (k, v) (entries_of m') -> In (k, v) hist \/ In (k, v) (entries_of m)).
  Proof.
    induction hist as [|[k v] hist IH]; intros m Wm Hg Hn.
    - exists m. split; [reflexivity|]. split; [exact Wm|]. split; [reflexivity|auto].
    - unfold sets. cbn [foldM fst snd]. destruct (set_map_ok n m k v Wm (Hg k v (or_introl eq_refl)) Hn) as (m1 & b & E & W1 & U).
      rewrite E. cbn [bind]. destruct (IH m1 W1) as (m2 & E2 & W2 & F2 & I2); [intros ? ? Hi; eapply Hg; right; exact Hi|exact Hn|].
      exists m2. split; [exact E2|]. split; [exact W2|]. split.
      + intros q Hq. rewrite (F2 q Hq). cbn [rev]. rewrite <- app_assoc. cbn [app]. rewrite !find_app. destruct (find_kv q (rev hist)); [reflexivity|].
        cbn [find_kv]. rewrite (upd_find _ _ _ _ _ q (Hg k v (or_introl eq_refl)) Hq (wfm_goods m Wm) (proj1 (proj2 Wm)) U). reflexivity.
      + intros k' v' Hin. destruct (I2 _ _ Hin) as [H|H]; [left; right; exact H|].
        destruct (upd_keys _ _ _ _ _ U _ _ H) as [[-> ->]|H']; [left; left; reflexivity|auto].
  Qed.

  (** *** Counting *)
  Lemma cover_length c : forall c', goods c -> goods c' -> distinct c ->
    (forall k v, In (k, v) c -> exists k' v', In (k', v') c' /\ eqk k k' = true) -> length c <= length c'.
  Proof.
    induction c as [|[k v] c IH]; intros c' Hg Hg' Hd H; [cbn; lia|].
    destruct (H k v (or_introl eq_refl)) as (k1 & v1 & Hin & He). apply in_split in Hin. destruct Hin as (x & y & ->).
    apply distinct_cons in Hd. destruct Hd as [Hne Hd].
    assert (Hx : forall k v, In (k, v) (x ++ y) -> In (k, v) (x ++ (k1, v1) :: y)).
    { intros a b Hi. apply in_app_or in Hi. apply in_or_app. destruct Hi; [auto|right; right; assumption]. }
    specialize (IH (x ++ y)). rewrite app_length in *. cbn [length]. rewrite Nat.add_succ_r. apply le_n_S. apply IH.
    - intros a b Hi. eapply Hg. right. exact Hi.
    - intros a b Hi. eapply Hg', Hx, Hi.
    - exact Hd.
    - intros a b Hi. destruct (H a b (or_intror Hi)) as (k2 & v2 & Hin & He2). apply in_app_or in Hin. destruct Hin as [Hin|[Eq|Hin]].
      + exists k2, v2. split; [apply in_or_app; auto|exact He2].
      + injection Eq as <- <-. exfalso. specialize (Hne a b Hi).
        assert (good k) by (eapply Hg; left; reflexivity). assert (good a) by (eapply Hg; right; exact Hi).
        assert (good k1) by (eapply Hg', in_or_app; right; left; reflexivity).
        rewrite (eqk_trans k k1 a) in Hne; [discriminate|auto..].
      + exists k2, v2. split; [apply in_or_app; auto|exact He2].
  Qed.

  Lemma find_some q c v : find_kv q c = Some v -> exists k, In (k, v) c /\ eqk k q = true.
  Proof.
    induction c as [|[k w] c IH]; cbn; [discriminate|]. destruct (eqk k q) eqn:E.
    - intros H. injection H as ->. exists k. auto.
    - intros H. destruct (IH H) as (k' & Hin & He). exists k'. auto.
  Qed.

  Lemma find_in c k v q : goods c -> distinct c -> good q -> In (k, v) c -> eqk k q = true -> find_kv q c = Some v.
  Proof.
    intros Hg Hd Hq Hin He. apply in_split in Hin. destruct Hin as (x & y & ->).
    rewrite (find_perm q _ ((k, v) :: x ++ y) Hq Hg Hd (Permutation_sym (Permutation_middle _ _ _))). cbn. rewrite He. reflexivity.
  Qed.

  Lemma same_keys_length c c' : goods c -> goods c' -> distinct c -> distinct c' ->
    (forall q, good q -> find_kv q c = None <-> find_kv q c' = None) -> length c = length c'.
  Proof.
    intros Hg Hg' Hd Hd' H.
    assert (Hhalf : forall c c', goods c -> goods c' -> distinct c -> (forall q, good q -> find_kv q c = None <-> find_kv q c' = None) -> length c <= length c').
    { clear c c' Hg Hg' Hd Hd' H. intros c c' Hg Hg' Hd H. apply cover_length; [assumption..|]. intros k v Hin.
      assert (Hk : good k) by (eapply Hg, Hin). destruct (find_kv k c') as [v'|] eqn:E.
      - apply find_some in E. destruct E as (k' & Hin' & He). exists k', v'. split; [exact Hin'|]. apply eqk_sym; [eapply Hg', Hin'|exact Hk|exact He].
      - exfalso. apply H in E; [|exact Hk]. rewrite <- find_none in E. specialize (E k v Hin). rewrite eqk_refl in E; [discriminate|exact Hk]. }
    apply Nat.le_antisymm; apply Hhalf; auto. intros q Hq. symmetry. apply H, Hq.
  Qed.

  (** *** Merging *)
  Lemma merge_entry_sets n e : forall m, merge_entry K V eqk hk lh n m e = sets n m (contents_e e).
  Proof.
    assert (Happ : forall a b m, sets n m (a ++ b) = bind (sets n m a) (fun m => sets n m b)).
    { intros a. induction a as [|x a IH]; intros b m; [reflexivity|]. unfold sets in *. cbn [app foldM].
      destruct (set_map K V eqk hk lh n m (fst x) (snd x)); cbn [bind]; auto. }
    induction e as [|k v|h IH] using entry_ind'; intros m.
    - reflexivity.
    - cbn. unfold sets. cbn. destruct (set_map K V eqk hk lh n m k v); reflexivity.
    - cbn [merge_entry contents_e]. revert m. induction IH as [|e h He _ IHh]; intros m; [reflexivity|].
      cbn [flat_map]. rewrite Happ, He. destruct (sets n m (contents_e e)); cbn [bind]; auto.
  Qed.

  Lemma merge_sets n x y : merge_maps K V eqk hk lh n x y = sets n x (entries_of y).
  Proof.
    rewrite entries_contents. unfold merge_maps. generalize (map_hamt K V y). intros h. revert x.
    assert (Happ : forall a b m, sets n m (a ++ b) = bind (sets n m a) (fun m => sets n m b)).
    { intros a. induction a as [|z a IH]; intros b m; [reflexivity|]. unfold sets in *. cbn [app foldM].
      destruct (set_map K V eqk hk lh n m (fst z) (snd z)); cbn [bind]; auto. }
    induction h as [|e h IH]; intros x; [reflexivity|]. cbn [foldM contents flat_map]. rewrite Happ, merge_entry_sets.
    destruct (sets n x (contents_e e)); cbn [bind]; auto.
  Qed.

  Lemma find_rev q c : good q -> goods c -> distinct c -> find_kv q (rev c) = find_kv q c.
  Proof. intros Hq Hg Hd. symmetry. apply find_perm; [assumption..|]. apply Permutation_rev. Qed.

  Lemma merge_ok n x y : wfm x -> wfm y -> M <= n ->
    exists m, merge_maps K V eqk hk lh n x y = Ok m /\ wfm m /\
      forall q, good q -> find_kv q (entries_of m) = match find_kv q (entries_of y) with Some v => Some v | None => find_kv q (entries_of x) end.
  Proof.
    intros Wx Wy Hn. rewrite merge_sets. destruct (sets_ok n (entries_of y) x Wx (wfm_goods y Wy) Hn) as (m & E & W & F & _).
    exists m. split; [exact E|]. split; [exact W|]. intros q Hq. rewrite (F q Hq), find_app, find_rev; [reflexivity|exact Hq|apply wfm_goods, Wy|apply Wy].
  Qed.

  (** *** Equality and hashing *)
  Variable ev : V -> V -> bool.
  Variable hv : V -> N.

  (** The same bindings up to equality of keys and values. *)
  Definition covers (c c' : list (K * V)) : Prop :=
    forall k v, In (k, v) c -> exists k' v', In (k', v') c' /\ eqk k k' = true /\ ev v v' = true.
  Definition covered (c c' : list (K * V)) : Prop :=
    forall k' v', In (k', v') c' -> exists k v, In (k, v) c /\ eqk k k' = true /\ ev v v' = true.
  Definition same (c c' : list (K * V)) : Prop := covers c c' /\ covered c c'.

  Let fk := fun a b => Some (eqk a b).
  Let fv := fun a b => Some (ev a b).

  Lemma equal_entry_hamt h1 h2 : equal_entry K V fk fv (EHamt h1) (EHamt h2) = equal_hamts K V fk fv h1 h2.
  Proof. cbn [equal_entry]. revert h2. induction h1 as [|e h1 IH]; intros h2; [reflexivity|]. cbn [equal_hamts]. reflexivity. Qed.

  Lemma equal_list h1 : forall h2 (Q : nat -> Prop), length h1 = length h2 ->
    (forall j, j < length h1 -> exists b, equal_entry K V fk fv (nth j h1 ENone) (nth j h2 ENone) = Some b /\ (b = true <-> Q j)) ->
    exists b, equal_hamts K V fk fv h1 h2 = Some b /\ (b = true <-> forall j, j < length h1 -> Q j).
  Proof.
    induction h1 as [|e1 h1 IH]; intros [|e2 h2] Q Hl H; try discriminate.
    - exists true. split; [reflexivity|]. split; [intros _ j Hj; cbn in Hj; lia|reflexivity].
    - cbn [equal_hamts hd tl]. destruct (H 0 ltac:(cbn; lia)) as (b & Hb & Q0). cbn in Hb. rewrite Hb.
      destruct (IH h2 (fun j => Q (S j))) as (b' & Hb' & Q').
      + cbn in Hl. lia.
      + intros j Hj. apply (H (S j)). cbn. lia.
      + destruct b; cbn [and_then].
        * exists b'. split; [exact Hb'|]. rewrite Q'. split.
          -- intros G [|j] Hj; [apply Q0; reflexivity|apply G; cbn in Hj; lia].
          -- intros G j Hj. apply G. cbn. lia.
        * exists false. split; [reflexivity|]. split; [discriminate|]. intros G. exfalso.
          assert (false = true) as X by (apply Q0, G; cbn; lia). discriminate X.
  Qed.

  Lemma distinct_app a b : distinct (a ++ b) -> distinct a /\ distinct b.
  Proof.
    induction a as [|[k v] a IH]; intros H; [split; [constructor|exact H]|]. cbn in H. apply distinct_cons in H. destruct H as [H1 H2].
    destruct (IH H2) as [Ha Hb]. split; [|exact Hb]. apply distinct_cons. split; [|exact Ha]. intros k' v' Hi. eapply H1, in_or_app. eauto.
  Qed.

  Lemma distinct_nth h j : distinct (contents h) -> j < length h -> distinct (contents_e (nth j h ENone)).
  Proof.
    intros H Hj. rewrite (contents_split K V h j Hj) in H. apply distinct_app in H. destruct H as [_ H]. apply distinct_app in H. tauto.
  Qed.

  Lemma same_nth L h1 h2 : wfh L h1 -> wfh L h2 ->
    (same (contents h1) (contents h2) <-> forall j, j < 32 -> same (contents_e (nth j h1 ENone)) (contents_e (nth j h2 ENone))).
  Proof.
    intros W1 W2. pose proof W1 as [L1 H1]. pose proof W2 as [L2 H2]. split.
    - intros [C D] j Hj. split.
      + intros k v Hin. destruct (C k v) as (k' & v' & Hin' & Ek & Ev); [apply contents_nth; exists j; split; [lia|exact Hin]|].
        apply contents_nth in Hin'. destruct Hin' as (i & Hi & Hin'). assert (i = j) as ->; [|eauto].
        destruct (wfe_good _ _ _ (H1 j Hj) _ _ Hin) as [Hg Hx]. destruct (wfe_good _ _ _ (H2 i ltac:(lia)) _ _ Hin') as [Hg' Hx'].
        pose proof (eqk_idx _ _ L Hg Hg' Ek). congruence.
      + intros k' v' Hin'. destruct (D k' v') as (k & v & Hin & Ek & Ev); [apply contents_nth; exists j; split; [lia|exact Hin']|].
        apply contents_nth in Hin. destruct Hin as (i & Hi & Hin). assert (i = j) as ->; [|eauto].
        destruct (wfe_good _ _ _ (H2 j Hj) _ _ Hin') as [Hg Hx]. destruct (wfe_good _ _ _ (H1 i ltac:(lia)) _ _ Hin) as [Hg' Hx'].
        pose proof (eqk_idx _ _ L Hg' Hg Ek). congruence.
    - intros H. split.
      + intros k v Hin. apply contents_nth in Hin. destruct Hin as (j & Hj & Hin). destruct (H j ltac:(lia)) as [C _].
        destruct (C k v Hin) as (k' & v' & Hin' & E). exists k', v'. split; [|exact E]. apply contents_nth. exists j. split; [lia|exact Hin'].
      + intros k v Hin. apply contents_nth in Hin. destruct Hin as (j & Hj & Hin). destruct (H j ltac:(lia)) as [_ D].
        destruct (D k v Hin) as (k' & v' & Hin' & E). exists k', v'. split; [|exact E]. apply contents_nth. exists j. split; [lia|exact Hin'].
  Qed.

  Lemma wfe_goods L i e : wfe L i e -> goods (contents_e e).
  Proof. intros H k v Hin. eapply wfe_good; eassumption. Qed.

  Lemma two_vs_one k c : good k -> goods c -> 2 <= length c -> distinct c -> ~ (forall k' v', In (k', v') c -> eqk k k' = true).
  Proof.
    intros Hk Hg Hl Hd H. destruct c as [|[a x] [|[b y] c]]; cbn in Hl; try lia.
    apply distinct_cons in Hd. destruct Hd as [Hd _]. specialize (Hd b y (or_introl eq_refl)).
    assert (good a) by (eapply Hg; left; reflexivity). assert (good b) by (eapply Hg; right; left; reflexivity).
    rewrite (eqk_trans a k b) in Hd; [discriminate|auto| | |apply eqk_sym; auto|]; auto.
    - eapply H. left. reflexivity.
    - eapply H. right. left. reflexivity.
  Qed.

  Lemma equal_entry_spec e1 : forall L i e2, wfe L i e1 -> wfe L i e2 -> distinct (contents_e e1) -> distinct (contents_e e2) ->
    exists b, equal_entry K V fk fv e1 e2 = Some b /\ (b = true <-> same (contents_e e1) (contents_e e2)).
  Proof.
    assert (Hne : forall c : list (K * V), 2 <= length c -> exists k v, In (k, v) c).
    { intros [|[k v] c] H; cbn in H; [lia|]. exists k, v. left. reflexivity. }
    induction e1 as [|k1 v1|h1 IH] using entry_ind'; intros L i e2 W1 W2 D1 D2; destruct e2 as [|k2 v2|h2].
    - exists true. split; [reflexivity|]. split; [|reflexivity]. intros _. split; intros ? ? [].
    - exists false. split; [reflexivity|]. split; [discriminate|]. intros [_ D]. destruct (D k2 v2 (or_introl eq_refl)) as (? & ? & [] & _).
    - exists false. split; [reflexivity|]. split; [discriminate|]. intros [_ D]. inversion W2; subst.
      destruct (Hne (contents h2)) as (k & v & Hin); [assumption|]. destruct (D k v Hin) as (? & ? & [] & _).
    - exists false. split; [reflexivity|]. split; [discriminate|]. intros [C _]. destruct (C k1 v1 (or_introl eq_refl)) as (? & ? & [] & _).
    - cbn. unfold fk, fv. destruct (eqk k1 k2) eqn:Ek; cbn.
      + exists (ev v1 v2). split; [reflexivity|]. split.
        * intros Ev. split; intros k v [E|[]]; injection E as <- <-; do 2 eexists; split; [left; reflexivity|auto|left; reflexivity|auto].
        * intros [C _]. destruct (C k1 v1 (or_introl eq_refl)) as (k' & v' & [E|[]] & _ & Ev). injection E as <- <-. exact Ev.
      + exists false. split; [reflexivity|]. split; [discriminate|]. intros [C _].
        destruct (C k1 v1 (or_introl eq_refl)) as (k' & v' & [E|[]] & Ek' & _). injection E as <- <-. congruence.
    - exists false. split; [reflexivity|]. split; [discriminate|]. intros [_ D]. exfalso. pose proof (wfe_goods _ _ _ W2) as G2.
      inversion W1; subst. inversion W2; subst. apply (two_vs_one k1 (contents h2)); auto.
      intros k v Hin. destruct (D k v Hin) as (k' & v' & [E|[]] & Ek & _). injection E as <- <-. exact Ek.
    - exists false. split; [reflexivity|]. split; [discriminate|]. intros [C _]. inversion W1; subst.
      destruct (Hne (contents h1)) as (k & v & Hin); [assumption|]. destruct (C k v Hin) as (? & ? & [] & _).
    - exists false. split; [reflexivity|]. split; [discriminate|]. intros [C _]. exfalso. pose proof (wfe_goods _ _ _ W1) as G1.
      inversion W1; subst. inversion W2; subst. apply (two_vs_one k2 (contents h1)); auto.
      intros k v Hin. destruct (C k v Hin) as (k' & v' & [E|[]] & Ek & _). injection E as <- <-. apply eqk_sym; auto. eapply G1, Hin.
    - rewrite equal_entry_hamt. inversion W1 as [| |? ? ? _ Hl1 _ _ Hw1]; subst. inversion W2 as [| |? ? ? _ Hl2 _ _ Hw2]; subst.
      destruct (equal_list h1 h2 (fun j => same (contents_e (nth j h1 ENone)) (contents_e (nth j h2 ENone)))) as (b & Hb & HQ).
      + congruence.
      + intros j Hj. rewrite Forall_forall in IH. apply (IH (nth j h1 ENone) ltac:(apply nth_In, Hj) (S L) (S j)).
        * apply Hw1. lia.
        * apply Hw2. lia.
        * apply (distinct_nth h1 j); [exact D1|exact Hj].
        * apply (distinct_nth h2 j); [exact D2|lia].
      + exists b. split; [exact Hb|]. rewrite HQ, Hl1. symmetry. apply (same_nth (S L)); split; assumption.
  Qed.

  Lemma equal_hamts_spec L h1 h2 : wfh L h1 -> wfh L h2 -> distinct (contents h1) -> distinct (contents h2) ->
    exists b, equal_hamts K V fk fv h1 h2 = Some b /\ (b = true <-> same (contents h1) (contents h2)).
  Proof.
    intros W1 W2 D1 D2. pose proof W1 as [Hl1 Hw1]. pose proof W2 as [Hl2 Hw2].
    destruct (equal_list h1 h2 (fun j => same (contents_e (nth j h1 ENone)) (contents_e (nth j h2 ENone)))) as (b & Hb & HQ).
    - congruence.
    - intros j Hj. apply (equal_entry_spec _ L (S j)); [apply Hw1; lia|apply Hw2; lia|apply distinct_nth; assumption|apply distinct_nth; [assumption|lia]].
    - exists b. split; [exact Hb|]. rewrite HQ, Hl1. symmetry. apply (same_nth L); assumption.
  Qed.

  (** Same bindings, in terms of lookups. *)
  Definition agree (c c' : list (K * V)) : Prop :=
    forall q, good q ->
      match find_kv q c, find_kv q c' with
      | Some v, Some v' => ev v v' = true
      | None, None => True
      | _, _ => False
      end.

  Lemma same_agree c c' : goods c -> goods c' -> distinct c -> distinct c' -> (same c c' <-> agree c c').
  Proof.
    intros Hg Hg' Hd Hd'. split.
    - intros [C D] q Hq. destruct (find_kv q c) as [v|] eqn:F.
      + apply find_some in F. destruct F as (k & Hin & Ek). destruct (C k v Hin) as (k' & v' & Hin' & Ek' & Ev).
        assert (good k) by (eapply Hg, Hin). assert (good k') by (eapply Hg', Hin').
        rewrite (find_in c' k' v' q Hg' Hd' Hq Hin'); [exact Ev|]. apply eqk_trans with k; auto.
      + destruct (find_kv q c') as [v'|] eqn:F'; [|exact I].
        apply find_some in F'. destruct F' as (k' & Hin' & Ek'). destruct (D k' v' Hin') as (k & v & Hin & Ek & Ev).
        assert (good k) by (eapply Hg, Hin). assert (good k') by (eapply Hg', Hin').
        rewrite (find_in c k v q Hg Hd Hq Hin) in F; [discriminate|]. apply eqk_trans with k'; auto.
    - intros A. split.
      + intros k v Hin. assert (Hk : good k) by (eapply Hg, Hin). specialize (A k Hk).
        rewrite (find_in c k v k Hg Hd Hk Hin (eqk_refl k Hk)) in A. destruct (find_kv k c') as [v'|] eqn:F; [|destruct A].
        apply find_some in F. destruct F as (k' & Hin' & Ek'). exists k', v'. split; [exact Hin'|]. split; [|exact A].
        apply eqk_sym; [eapply Hg', Hin'|exact Hk|exact Ek'].
      + intros k v Hin. assert (Hk : good k) by (eapply Hg', Hin). specialize (A k Hk).
        rewrite (find_in c' k v k Hg' Hd' Hk Hin (eqk_refl k Hk)) in A. destruct (find_kv k c) as [v'|] eqn:F; [|destruct A].
        apply find_some in F. destruct F as (k' & Hin' & Ek'). exists k', v'. split; [exact Hin'|]. split; [|exact A]. exact Ek'.
  Qed.

  Lemma agree_length c c' : goods c -> goods c' -> distinct c -> distinct c' -> agree c c' -> length c = length c'.
  Proof.
    intros Hg Hg' Hd Hd' A. apply same_keys_length; [assumption..|]. intros q Hq. specialize (A q Hq).
    destruct (find_kv q c), (find_kv q c'); try destruct A; split; congruence.
  Qed.

  Lemma equal_maps_ok x y : wfm x -> wfm y -> (equal_maps K V eqk ev x y = true <-> agree (entries_of x) (entries_of y)).
  Proof.
    intros Wx Wy. pose proof (wfm_goods x Wx) as Gx. pose proof (wfm_goods y Wy) as Gy.
    pose proof Wx as (Hx & Dx & Sx). pose proof Wy as (Hy & Dy & Sy). unfold equal_maps.
    rewrite <- (same_agree _ _ Gx Gy Dx Dy).
    assert (Dx' := Dx). assert (Dy' := Dy). rewrite entries_contents in Dx', Dy'.
    destruct (equal_hamts_spec 1 _ _ Hx Hy Dx' Dy') as (b & Hb & HQ).
    fold fk fv. rewrite Hb. rewrite <- !entries_contents in HQ. rewrite <- HQ.
    destruct (Z.eqb_spec (map_size K V x) (map_size K V y)) as [|Hne]; [reflexivity|].
    split; [discriminate|]. intros ->. exfalso. apply Hne. rewrite Sx, Sy. f_equal.
    apply agree_length; try assumption. apply same_agree; try assumption. apply HQ. reflexivity.
  Qed.

  Hypothesis ev_hash : forall v v', ev v v' = true -> hv v = hv v'.

  Lemma hash_entry_eq e1 : forall L i e2 acc, wfe L i e1 -> wfe L i e2 -> equal_entry K V fk fv e1 e2 = Some true ->
    hash_entry K V hk hv e1 acc = hash_entry K V hk hv e2 acc.
  Proof.
    induction e1 as [|k1 v1|h1 IH] using entry_ind'; intros L i e2 acc W1 W2 H; destruct e2 as [|k2 v2|h2]; try discriminate.
    - reflexivity.
    - cbn in H. unfold fk, fv in H. destruct (eqk k1 k2) eqn:Ek; [|discriminate]. cbn in H. injection H as Ev.
      inversion W1; subst. inversion W2; subst. cbn. rewrite (eqk_hash k1 k2), (ev_hash v1 v2) by assumption. reflexivity.
    - rewrite equal_entry_hamt in H. inversion W1 as [| |? ? ? _ Hl1 _ _ Hw1]; subst. inversion W2 as [| |? ? ? _ Hl2 _ _ Hw2]; subst.
      cbn [hash_entry]. f_equal.
      assert (Hgen : forall h1 h2 acc o, Forall (fun e1 => forall L i e2 acc, wfe L i e1 -> wfe L i e2 -> equal_entry K V fk fv e1 e2 = Some true ->
                hash_entry K V hk hv e1 acc = hash_entry K V hk hv e2 acc) h1 ->
              length h1 = length h2 -> (forall j, j < length h1 -> wfe (S L) (S (o + j)) (nth j h1 ENone)) ->
              (forall j, j < length h1 -> wfe (S L) (S (o + j)) (nth j h2 ENone)) -> equal_hamts K V fk fv h1 h2 = Some true ->
              (fix go (h : list ent) (hash : N) : N := match h with [] => hash | e :: h => go h (hash_entry K V hk hv e hash) end) h1 acc =
              (fix go (h : list ent) (hash : N) : N := match h with [] => hash | e :: h => go h (hash_entry K V hk hv e hash) end) h2 acc).
      { clear h1 h2 IH acc W1 W2 H Hl1 Hl2 Hw1 Hw2. intros h1. induction h1 as [|e1 h1 IHh]; intros [|e2 h2] acc o F Hl A1 A2 H; try discriminate; [reflexivity|].
        inversion F as [|? ? F1 F2]; subst. cbn [equal_hamts hd tl] in H.
        destruct (equal_entry K V fk fv e1 e2) as [[]|] eqn:Ee; try discriminate. cbn [and_then] in H.
        rewrite (F1 (S L) (S (o + 0)) e2 acc (A1 0 ltac:(cbn; lia)) (A2 0 ltac:(cbn; lia)) Ee).
        apply (IHh h2 _ (S o)); [exact F2|cbn in Hl; lia| | |exact H].
        - intros j Hj. replace (S o + j) with (o + S j) by lia. apply (A1 (S j)). cbn. lia.
        - intros j Hj. replace (S o + j) with (o + S j) by lia. apply (A2 (S j)). cbn. lia. }
      apply (Hgen h1 h2 acc 0 IH); [congruence| | |exact H].
      + intros j Hj. apply Hw1. lia.
      + intros j Hj. apply Hw2. lia.
  Qed.

  Lemma hash_maps_ok x y : wfm x -> wfm y -> equal_maps K V eqk ev x y = true -> hash_map K V hk hv x = hash_map K V hk hv y.
  Proof.
    intros ((Hlx & Hx) & _) ((Hly & Hy) & _) H. unfold equal_maps in H. destruct (Z.eqb _ _); [|discriminate].
    fold fk fv in H. unfold hash_map. generalize (number_of_nat 5). revert Hx Hy H Hlx Hly.
    generalize (map_hamt K V x) (map_hamt K V y). intros h1 h2 Hx Hy H Hlx Hly.
    destruct (equal_hamts K V fk fv h1 h2) as [[]|] eqn:E; try discriminate. clear H.
    assert (Hgen : forall h1 h2 acc o, length h1 = length h2 -> (forall j, j < length h1 -> wfe 1 (S (o + j)) (nth j h1 ENone)) ->
              (forall j, j < length h1 -> wfe 1 (S (o + j)) (nth j h2 ENone)) -> equal_hamts K V fk fv h1 h2 = Some true ->
              hash_hamt K V hk hv h1 acc = hash_hamt K V hk hv h2 acc).
    { clear h1 h2 Hx Hy Hlx Hly E. intros h1. induction h1 as [|e1 h1 IHh]; intros [|e2 h2] acc o Hl A1 A2 H; try discriminate; [reflexivity|].
      cbn [equal_hamts hd tl] in H.
      destruct (equal_entry K V fk fv e1 e2) as [[]|] eqn:Ee; try discriminate. cbn [and_then] in H. cbn [hash_hamt].
      rewrite (hash_entry_eq e1 1 (S (o + 0)) e2 acc (A1 0 ltac:(cbn; lia)) (A2 0 ltac:(cbn; lia)) Ee).
      apply (IHh h2 _ (S o)); [cbn in Hl; lia| | |exact H].
      - intros j Hj. replace (S o + j) with (o + S j) by lia. apply (A1 (S j)). cbn. lia.
      - intros j Hj. replace (S o + j) with (o + S j) by lia. apply (A2 (S j)). cbn. lia. }
    intros acc. apply (Hgen h1 h2 acc 0); [congruence| | |exact E].
    - intros j Hj. apply Hx. lia.
    - intros j Hj. apply Hy. lia.
  Qed.

  (** *** Deleting, when unequal keys differ in one of the first two indices *)
  Definition flat (h : list ent) : Prop := Forall (fun e => forall h', e <> EHamt h') h.

  Lemma single_some h k v : flat h -> get_single_entry K V h (EKey k v) = match contents h with [] => EKey k v | _ => ENone end.
  Proof.
    induction 1 as [|e h He _ IH]; [reflexivity|]. destruct e as [|k' v'|h']; [exact IH|reflexivity|]. exfalso. apply (He h'). reflexivity.
  Qed.

  Lemma single_none h : flat h ->
    get_single_entry K V h ENone = match contents h with [(k, v)] => EKey k v | _ => ENone end.
  Proof.
    induction 1 as [|e h He Hf IH]; [reflexivity|]. destruct e as [|k' v'|h']; [exact IH| |exfalso; apply (He h'); reflexivity].
    cbn [get_single_entry]. rewrite single_some by exact Hf. cbn [contents flat_map contents_e app]. fold (contents h).
    destruct (contents h) as [|x c]; reflexivity.
  Qed.

  Definition del (c : list (K * V)) (k : K) (b : bool) (c' : list (K * V)) : Prop :=
    if b then exists c1 k0 v0 c2, c = c1 ++ (k0, v0) :: c2 /\ eqk k0 k = true /\ c' = c1 ++ c2
    else c' = c /\ forall k' v', In (k', v') c -> eqk k' k = false.

  Lemma del_context a b c k r c' :
    (forall k' v', In (k', v') a \/ In (k', v') b -> eqk k' k = false) ->
    del c k r c' -> del (a ++ c ++ b) k r (a ++ c' ++ b).
  Proof.
    intros Hab H. destruct r; cbn in *.
    - destruct H as (c1 & k0 & v0 & c2 & -> & He & ->). exists (a ++ c1), k0, v0, (c2 ++ b). rewrite <- !app_assoc. auto.
    - destruct H as [-> H]. split; [reflexivity|]. intros k' v' Hin. apply in_app_or in Hin. destruct Hin as [Hin|Hin]; [eauto|].
      apply in_app_or in Hin. destruct Hin as [Hin|Hin]; eauto.
  Qed.

  Lemma del_incl c k r c' : del c k r c' -> forall x, In x c' -> In x c.
  Proof.
    destruct r; cbn.
    - intros (c1 & k0 & v0 & c2 & -> & _ & ->) x Hin. apply in_app_or in Hin. apply in_or_app. destruct Hin; [auto|right; right; assumption].
    - intros [-> _] x Hin. exact Hin.
  Qed.

  Lemma del_length c k r c' : del c k r c' -> length c = length c' + if r then 1 else 0.
  Proof.
    destruct r; cbn.
    - intros (c1 & k0 & v0 & c2 & -> & _ & ->). rewrite !app_length. cbn. lia.
    - intros [-> _]. lia.
  Qed.

  Lemma set_same (h : list ent) j : j < length h -> set_nth K V h j (nth j h ENone) = h.
  Proof. intros H. rewrite set_nth_split by exact H. symmetry. apply nth_split_at, H. Qed.

  Hypothesis M_two : M <= 2.

  Lemma flat_second h : wfh 2 h -> flat h.
  Proof.
    intros [Hl H]. apply Forall_forall. intros e He. destruct (In_nth h e ENone He) as (j & Hj & <-). intros h' E.
    specialize (H j ltac:(lia)). rewrite E in H. inversion H; subst. lia.
  Qed.

  Lemma delete_ok n : forall h k L, wfh L h -> good k -> 1 <= L <= M -> M - L < n ->
    exists h' b, delete_key K V eqk hk lh n h k 1 L = Ok (h', b) /\ wfh L h' /\ del (contents h) k b (contents h').
  Proof.
    induction n as [|n IH]; intros h k L W Hk HL Hn; [lia|]. cbn [delete_key].
    destruct (idx_range k L) as (j & Hj & Hj32). rewrite Hj. cbn [get_entry set_entry].
    pose proof W as [Hl H]. pose proof (H j Hj32) as He.
    assert (Hoth : forall k' v', In (k', v') (contents (firstn j h)) \/ In (k', v') (contents (skipn (S j) h)) -> eqk k' k = false)
      by (intros k' v' Hin; eapply others; eauto).
    pose proof (contents_split K V h j ltac:(lia)) as Hc.
    destruct (nth j h ENone) as [|k0 v0|h0] eqn:Hnth.
    - exists h, false. split; [reflexivity|]. split; [exact W|]. rewrite Hc. apply del_context; [exact Hoth|]. cbn. split; [reflexivity|intros ? ? []].
    - destruct (eqk k0 k) eqn:E.
      + do 2 eexists. split; [reflexivity|]. split; [apply wfh_set; [exact W|exact Hj32|constructor]|].
        rewrite Hc, contents_set by lia. apply del_context; [exact Hoth|]. exists [], k0, v0, []. auto.
      + exists h, false. split; [reflexivity|]. split; [exact W|]. rewrite Hc. apply del_context; [exact Hoth|].
        cbn. split; [reflexivity|]. intros ? ? [Eq|[]]. injection Eq as <- <-. exact E.
    - inversion He as [| |? ? ? HLM Hl0 Hlen Hidx Hw]; subst. assert (max_level <? L = false) as -> by (apply Nat.ltb_ge; unfold max_level; lia).
      replace (L + 1) with (S L) by lia.
      destruct (IH h0 k (S L)) as (h1 & b1 & E1 & W1 & U1); [split; assumption|assumption|lia|lia|].
      rewrite E1. cbn [bind fst snd]. do 2 eexists. split; [reflexivity|].
      assert (HL2 : S L = 2) by lia. pose proof W1 as W1'. rewrite HL2 in W1'. pose proof (flat_second h1 W1') as Hflat.
      assert (Hnorm : wfe L (S j) (normalize_hamt K V h1) /\ contents_e (normalize_hamt K V h1) = contents h1).
      { unfold normalize_hamt. rewrite single_none by exact Hflat. pose proof (del_length _ _ _ _ U1) as Hdl. pose proof (del_incl _ _ _ _ U1) as Hdi.
        destruct (contents h1) as [|[k1 v1] [|x c]] eqn:Hc1.
        - exfalso. cbn in Hdl. destruct b1; lia.
        - split; [|reflexivity]. assert (Hi1 : In (k1, v1) (contents h1)) by (rewrite Hc1; left; reflexivity). constructor; [eapply wfh_good; [exact W1|exact Hi1]|]. eapply Hidx, Hdi. left. reflexivity.
        - split; [|exact Hc1]. destruct W1 as [Hl1 H1]. constructor; try assumption.
          + rewrite Hc1. cbn. lia.
          + intros k' v' Hin. eapply Hidx, Hdi. rewrite <- Hc1. exact Hin. }
      destruct Hnorm as [Hn1 Hn2]. split; [apply wfh_set; assumption|].
      rewrite Hc, contents_set, Hn2 by lia. apply del_context; [exact Hoth|exact U1].
  Qed.

  Lemma del_distinct c k r c' : goods c -> distinct c -> del c k r c' -> distinct c'.
  Proof.
    intros Hg Hd. destruct r; cbn.
    - intros (c1 & k0 & v0 & c2 & -> & _ & ->). apply distinct_middle in Hd; [tauto|exact Hg].
    - intros [-> _]. exact Hd.
  Qed.

  Lemma del_find c k r c' q : good k -> good q -> goods c -> distinct c -> del c k r c' ->
    find_kv q c' = if eqk k q then None else find_kv q c.
  Proof.
    intros Hk Hq Hg Hd. destruct r; cbn.
    - intros (c1 & k0 & v0 & c2 & -> & He & ->). assert (Hk0 : good k0) by (eapply Hg, in_or_app; right; left; reflexivity).
      rewrite (find_perm q (c1 ++ (k0, v0) :: c2) ((k0, v0) :: c1 ++ c2) Hq Hg Hd (Permutation_sym (Permutation_middle _ _ _))). cbn.
      apply distinct_middle in Hd; [|exact Hg]. destruct Hd as [Hd _]. destruct (eqk k q) eqn:E.
      + apply find_none. intros k' v' Hin. destruct (eqk k' q) eqn:E'; [|reflexivity]. exfalso. specialize (Hd k' v' Hin).
        assert (good k'). { eapply Hg with v'. apply in_app_or in Hin. apply in_or_app. destruct Hin; [auto|right; right; assumption]. }
        rewrite (eqk_trans k0 k k') in Hd; [discriminate|auto..]. apply eqk_trans with q; auto.
      + destruct (eqk k0 q) eqn:E0; [|reflexivity]. exfalso. rewrite (eqk_trans k k0 q) in E; [discriminate|auto..].
    - intros [-> H]. destruct (eqk k q) eqn:E; [|reflexivity]. apply find_none. intros k' v' Hin. specialize (H k' v' Hin).
      destruct (eqk k' q) eqn:E'; [|reflexivity]. exfalso. rewrite (eqk_trans k' q k) in H; [discriminate|eauto..].
  Qed.

  Lemma delete_map_ok n m k : wfm m -> good k -> M <= n ->
    exists m', delete_map K V eqk hk lh n m k = Ok m' /\ wfm m' /\
      (forall q, good q -> find_kv q (entries_of m') = if eqk k q then None else find_kv q (entries_of m)) /\
      map_size K V m' = (map_size K V m - match find_kv k (entries_of m) with Some _ => 1 | None => 0 end)%Z.
  Proof.
    intros Wm Hk Hn. pose proof Wm as (W & Hd & Hs). unfold delete_map.
    destruct (delete_ok n (map_hamt K V m) k 1) as (h & b & E & W' & U); [exact W|exact Hk|lia|lia|].
    rewrite E. cbn [bind fst snd]. eexists. split; [reflexivity|]. rewrite <- entries_contents in U.
    pose proof (del_length _ _ _ _ U) as Hlen. pose proof (wfm_goods m Wm) as Hg.
    assert (Hent : forall s, entries_of {| map_hamt := h; map_size := s |} = contents h) by (intros s; rewrite entries_contents; reflexivity).
    split; [split; [exact W'|]; rewrite Hent; split|].
    - eapply del_distinct; eassumption.
    - cbn [map_size]. rewrite Hs, Hlen. destruct b; lia.
    - split.
      + intros q Hq. rewrite Hent. eapply del_find; [exact Hk|exact Hq|exact Hg|exact Hd|exact U].
      + cbn [map_size]. destruct b; cbn in U.
        * destruct U as (c1 & k0 & v0 & c2 & Eq & He & _). rewrite (find_in (entries_of m) k0 v0 k); auto. rewrite Eq. apply in_or_app. right. left. reflexivity.
        * destruct U as [_ U]. rewrite (proj1 (find_none k (entries_of m)) U). lia.
  Qed.
End Correct.
