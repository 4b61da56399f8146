(** Integer literals. *)
From Coq Require Import String Ascii List Bool Arith NArith ZArith Lia SpecFloat.
From Verif Require Import Base HirType Hir Syntax SyntaxSpec Ast Parser ParserSpec ParserToken ParserLiteral Desugar SourceSpec.
From Verif Require Literal Float FloatProofs.
Import ListNotations.
Local Open Scope string_scope.

Lemma radix_from radix s : forall acc, radix_value radix acc s = match radix_value radix 0 s with Some v => Some (acc * radix ^ N.of_nat (String.length s) + v)%N | None => None end.
Proof.
  induction s as [|c s IH]; intros acc; cbn [radix_value String.length]; [f_equal; cbn; lia|].
  destruct (Literal.hex_value c) as [d|]; [|reflexivity]. destruct (d <? radix)%N; [|reflexivity]. rewrite (IH (acc * radix + d)%N), (IH (0 * radix + d)%N).
  destruct (radix_value radix 0 s) as [v|]; [|reflexivity]. f_equal. rewrite Nnat.Nat2N.inj_succ, N.pow_succ_r'. lia.
Qed.
Lemma positional_value radix s v : positional radix s v -> radix_value radix 0 s = Some v.
Proof.
  induction 1 as [c d E L|c d s n E L P IH]; cbn [radix_value]; change (Literal.hex_value c) with (digit_value c); rewrite E, (proj2 (N.ltb_lt _ _) L).
  - cbn [radix_value]. reflexivity.
  - rewrite radix_from, IH. reflexivity.
Qed.
Definition digit_of (radix : N) (c : ascii) : bool := match digit_value c with Some d => (d <? radix)%N | None => false end.
Lemma positional_exists radix s : s <> "" -> all_chars (digit_of radix) s = true -> exists v, positional radix s v.
Proof.
  induction s as [|c s IH]; intros N H; [contradiction|]. cbn [all_chars] in H. apply andb_true_iff in H. destruct H as [H1 H2]. unfold digit_of in H1. destruct (digit_value c) as [d|] eqn:E; [|discriminate]. apply N.ltb_lt in H1.
  destruct s as [|c' s]; [exists d; constructor; assumption|]. destruct IH as (v & V); [discriminate|exact H2|]. eexists. econstructor 2; eassumption.
Qed.
Lemma positional_unique radix s : forall v w, positional radix s v -> positional radix s w -> v = w.
Proof. intros v w H1 H2. apply positional_value in H1, H2. congruence. Qed.
Lemma all_chars_imp (f g : ascii -> bool) s : (forall c, f c = true -> g c = true) -> all_chars f s = true -> all_chars g s = true.
Proof. intros H. induction s as [|c s IH]; [reflexivity|]. cbn. rewrite !andb_true_iff. intros [H1 H2]. auto. Qed.
Lemma bit_digit c : is_bit c = true -> digit_of 2 c = true.
Proof. destruct c as [[] [] [] [] [] [] [] []]; vm_compute; congruence. Qed.
Lemma hex_digit c : is_hex c = true -> digit_of 16 c = true.
Proof. destruct c as [[] [] [] [] [] [] [] []]; vm_compute; congruence. Qed.
Lemma lower_digit c : is_hex c = true -> digit_value (lower c) = digit_value c.
Proof. destruct c as [[] [] [] [] [] [] [] []]; vm_compute; congruence. Qed.
Lemma lower_value s : all_chars is_hex s = true -> forall acc, radix_value 16 acc (smap lower s) = radix_value 16 acc s.
Proof.
  induction s as [|c s IH]; intros H acc; [reflexivity|]. cbn [all_chars] in H. apply andb_true_iff in H. destruct H as [H1 H2]. cbn [smap radix_value]. change (Literal.hex_value (lower c)) with (digit_value (lower c)). change (Literal.hex_value c) with (digit_value c).
  rewrite (lower_digit c H1). destruct (digit_value c) as [d|]; [|reflexivity]. destruct (d <? 16)%N; [apply IH, H2|reflexivity].
Qed.

(** The bits of whole numbers *)
Lemma small_bits z : (0 <= z < 2 ^ 53)%Z -> whole_bits (float_bits (Float.of_int z)) z.
Proof.
  intros [H1 H2]. destruct (Z.eq_dec z 0) as [->|N]; [split; [cbv; split; congruence|left; split; reflexivity]|].
  destruct (FloatProofs.of_int_finite z) as (m & e & -> & E & M & L); [unfold FloatProofs.small; lia|exact N|].
  assert (S : (z <? 0)%Z = false) by (apply Z.ltb_ge; lia). rewrite S. cbn [float_bits]. rewrite Z.abs_eq in M, L by lia.
  assert (P : (2 ^ 52 <= Zpos m < 2 ^ 53)%Z).
  { pose proof (Z.log2_spec z ltac:(lia)) as [Q1 Q2]. rewrite <- M. replace (Z.log2 z) with (e + 52)%Z in Q1, Q2 by lia.
    assert (Q : (2 ^ (e + 52) * 2 ^ (- e) = 2 ^ 52)%Z) by (rewrite <- Z.pow_add_r by lia; f_equal; lia).
    assert (R : (2 ^ Z.succ (e + 52) * 2 ^ (- e) = 2 ^ 53)%Z) by (rewrite <- Z.pow_add_r by lia; f_equal; lia).
    pose proof (Z.pow_pos_nonneg 2 (- e) ltac:(lia) ltac:(lia)). split; [rewrite <- Q|rewrite <- R]; nia. }
  replace (Zpos m <? 2 ^ 52)%Z with false by (symmetry; apply Z.ltb_ge; lia). rewrite Z.add_0_l.
  assert (D : (((e + 1075) * 2 ^ 52 + (Zpos m - 2 ^ 52)) / 2 ^ 52 = e + 1075)%Z) by (rewrite Z.div_add_l by lia; rewrite Z.div_small by lia; lia).
  assert (R : (((e + 1075) * 2 ^ 52 + (Zpos m - 2 ^ 52)) mod 2 ^ 52 = Zpos m - 2 ^ 52)%Z) by (rewrite Z.add_comm, Z.mod_add by lia; apply Z.mod_small; lia).
  split; [nia|]. right. rewrite D, R. split; [lia|]. replace (2 ^ 52 + (Zpos m - 2 ^ 52))%Z with (Zpos m) by lia. rewrite <- M, <- Z.mul_assoc, <- Z.pow_add_r by lia. f_equal. f_equal. lia.
Qed.

Lemma read_digits radix s v : positional radix s v ->
  from_str_radix radix s = if (Z.of_N v <=? 2 ^ 64 - 1)%Z then Ok (float_bits (Float.of_int (Z.of_N v))) else reject "ParseInteger".
Proof.
  intros P. assert (E : radix_value radix 0 s = Some v) by exact (positional_value _ _ _ P). assert (C : exists c t, s = String c t) by (destruct P; eauto). destruct C as (c & t & ->). unfold from_str_radix. rewrite E. reflexivity.
Qed.
Lemma read_lower s v : all_chars is_hex s = true -> positional 16 s v ->
  from_str_radix 16 (smap lower s) = if (Z.of_N v <=? 2 ^ 64 - 1)%Z then Ok (float_bits (Float.of_int (Z.of_N v))) else reject "ParseInteger".
Proof.
  intros H P. assert (E : radix_value 16 0 (smap lower s) = Some v) by (rewrite (lower_value s H); exact (positional_value _ _ _ P)). assert (C : exists c t, s = String c t) by (destruct P; eauto). destruct C as (c & t & ->). cbn [smap] in *. unfold from_str_radix. rewrite E. reflexivity.
Qed.

Lemma binary_read d k x : digits is_bit d -> not_next is_word k = true -> skip x = "0b" ++ d ++ k -> number_literal x = POk (NBinary d) k.
Proof. intros H K E. apply number_ok; [exact H|exact K|discriminate|]. rewrite E. cbn [number_string]. rewrite sapp_assoc. reflexivity. Qed.
Lemma hexadecimal_read d k x : digits is_hex d -> not_next is_word k = true -> skip x = "0x" ++ d ++ k -> number_literal x = POk (NHexadecimal (smap lower d)) k.
Proof.
  intros H K E. unfold number_literal. rewrite E. apply pbind_ok with (a := NHexadecimal (smap lower d)) (s := k).
  - apply alt_right; [reflexivity|]. apply alt_left. unfold hexadecimal_literal. rewrite tag_ok. cbn [pbind]. rewrite (digit1_ok is_hex d k H); [reflexivity|]. eapply not_next_weaken; [apply word_hex|exact K].
  - replace (not_next is_digit k) with true by (symmetry; eapply not_next_weaken; [apply word_digit|exact K]). reflexivity.
Qed.
