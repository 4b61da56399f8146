From Coq Require Import NArith ZArith List Bool Arith Lia.
From Verif Require Import Base Hash.
Local Open Scope N_scope.

Lemma combine_inj a b c : a < u64_limit -> b < u64_limit -> combine_hashes a c = combine_hashes b c -> a = b.
Proof.
  unfold combine_hashes, wadd, wrap. intros Ha Hb H.
  rewrite !N.add_mod_idemp_l in H by discriminate.
  assert (Z.of_N a = Z.of_N b); [|lia].
  assert (Hm : Z.of_N u64_limit = (2 ^ 64)%Z) by reflexivity.
  assert (HZ : ((Z.of_N a * 31 + Z.of_N c) mod 2 ^ 64 = (Z.of_N b * 31 + Z.of_N c) mod 2 ^ 64)%Z).
  { rewrite <- Hm.
    change (Z.of_N a * 31)%Z with (Z.of_N a * Z.of_N 31)%Z. change (Z.of_N b * 31)%Z with (Z.of_N b * Z.of_N 31)%Z.
    rewrite <- !N2Z.inj_mul, <- !N2Z.inj_add, <- !N2Z.inj_mod by discriminate. f_equal. exact H. }
  assert (Hinv : exists k, (31 * 17256631552825064415 = 1 + k * 2 ^ 64)%Z) by (exists 29%Z; reflexivity).
  destruct Hinv as [k Hk].
  assert (HZ2 : ((Z.of_N a * 31) mod 2 ^ 64 = (Z.of_N b * 31) mod 2 ^ 64)%Z).
  { replace (Z.of_N a * 31)%Z with ((Z.of_N a * 31 + Z.of_N c) - Z.of_N c)%Z by lia.
    replace (Z.of_N b * 31)%Z with ((Z.of_N b * 31 + Z.of_N c) - Z.of_N c)%Z by lia.
    rewrite Zminus_mod, HZ, <- Zminus_mod. reflexivity. }
  assert (HZ3 : forall x, (0 <= x < 2 ^ 64)%Z -> ((((x * 31) mod 2 ^ 64) * 17256631552825064415) mod 2 ^ 64 = x)%Z).
  { intros x Hx. rewrite Z.mul_mod_idemp_l by discriminate. replace (x * 31 * 17256631552825064415)%Z with (x + (x * k) * 2 ^ 64)%Z by nia.
    rewrite Z_mod_plus_full. apply Z.mod_small, Hx. }
  rewrite <- (HZ3 (Z.of_N a)), <- (HZ3 (Z.of_N b)), HZ2 by lia. reflexivity.
Qed.

Lemma combine_range a c : combine_hashes a c < u64_limit.
Proof. unfold combine_hashes, wadd, wrap. apply N.mod_lt. discriminate. Qed.

Lemma digits_inj x y : x < u64_limit -> y < u64_limit ->
  (forall L, (1 <= L <= 13)%nat ->
     N.land (N.shiftr x (N.of_nat (5 * (L - 1)) mod 64)) 31 = N.land (N.shiftr y (N.of_nat (5 * (L - 1)) mod 64)) 31) -> x = y.
Proof.
  intros Hx Hy H. apply N.bits_inj. intros i. destruct (N.ltb_spec i 64) as [Hi|Hi].
  - set (L := S (N.to_nat (i / 5))).
    assert (Hdiv : i = 5 * (i / 5) + i mod 5) by (apply N.div_mod').
    pose proof (N.mod_lt i 5 ltac:(discriminate)) as Hm.
    assert (HL : (1 <= L <= 13)%nat) by (assert (Hd : i / 5 < 13) by (apply N.div_lt_upper_bound; lia); unfold L; clear - Hd; revert Hd; generalize (i / 5); intros d Hd; lia).
    specialize (H L HL). assert (Hs : N.of_nat (5 * (L - 1)) mod 64 = 5 * (i / 5)).
    { assert (Hd : i / 5 < 13) by (apply N.div_lt_upper_bound; lia). unfold L. clear - Hd. revert Hd. generalize (i / 5). intros d Hd.
      replace (N.of_nat (5 * (S (N.to_nat d) - 1))) with (5 * d) by lia. apply N.mod_small. lia. }
    rewrite Hs in H. apply (f_equal (fun z => N.testbit z (i mod 5))) in H.
    rewrite !N.land_spec, !N.shiftr_spec' in H. change 31 with (N.ones 5) in H. rewrite N.ones_spec_low in H by exact Hm.
    rewrite !andb_true_r in H. replace (i mod 5 + 5 * (i / 5)) with i in H by lia. exact H.
  - assert (Hhigh : forall z, z < u64_limit -> N.testbit z i = false).
    { intros z Hz. destruct (N.eq_dec z 0) as [->|Hz0]; [apply N.bits_0|]. apply N.bits_above_log2.
      apply N.log2_lt_pow2; [lia|]. eapply N.lt_le_trans; [exact Hz|]. unfold u64_limit. rewrite N.shiftl_1_l. apply N.pow_le_mono_r; lia. }
    rewrite !Hhigh by assumption. reflexivity.
Qed.

Lemma index_apart a b c : a < u64_limit -> b < u64_limit ->
  (forall L, (1 <= L <= 13)%nat -> hash_to_index a c L = hash_to_index b c L) -> a = b.
Proof.
  intros Ha Hb H. apply (combine_inj a b c Ha Hb). apply digits_inj; [apply combine_range..|].
  intros L HL. specialize (H L HL). unfold hash_to_index in H. injection H as H. apply N2Nat.inj, H.
Qed.
