(** Proofs about the operations on lists, booleans, numbers and bits. *)
From Coq Require Import String List ZArith Bool Lia.
From Coq Require Import Floats.SpecFloat.
From Verif Require Import Base Float FloatProofs PkgCore PkgCoreSpec.
Import ListNotations.
Local Open Scope Z_scope.

(** ** Booleans *)
Lemma any_of_values bs : any_of (map Ok bs) = Ok (existsb (fun b => b) bs).
Proof. induction bs as [|[] bs IH]; cbn; auto. Qed.
Lemma all_of_values bs : all_of (map Ok bs) = Ok (forallb (fun b => b) bs).
Proof. induction bs as [|[] bs IH]; cbn; auto. Qed.
Lemma any_of_stops bs rest : Forall (fun b => b = false) bs -> any_of (map Ok bs ++ Ok true :: rest) = Ok true.
Proof. induction 1 as [|b bs -> _ IH]; cbn; auto. Qed.
Lemma all_of_stops bs rest : Forall (fun b => b = true) bs -> all_of (map Ok bs ++ Ok false :: rest) = Ok false.
Proof. induction 1 as [|b bs -> _ IH]; cbn; auto. Qed.

(** ** Lists *)
Lemma last_after_snoc {A} (xs : elements A) x y : last_after (xs ++ [x]) y = x.
Proof. revert y. induction xs as [|z xs IH]; intros y; cbn; auto. Qed.
Lemma last_of_snoc {A} (xs : elements A) x fallback : last_of (xs ++ [x]) fallback = x.
Proof. destruct xs as [|y xs]; cbn; [reflexivity|apply last_after_snoc]. Qed.

Definition number_in (x : any_value) : list number := match x with AnyNumber x => [x] | _ => [] end.
Definition string_in (x : any_value) : list string := match x with AnyString x => [x] | _ => [] end.
Definition boolean_in (x : any_value) : list bool := match x with AnyBoolean x => [x] | _ => [] end.
Lemma to_numbers_values xs : to_numbers (map Ok xs) = Ok (flat_map number_in xs).
Proof. induction xs as [|[] xs IH]; cbn; rewrite ?IH; reflexivity. Qed.
Lemma to_strings_values xs : to_strings (map Ok xs) = Ok (flat_map string_in xs).
Proof. induction xs as [|[] xs IH]; cbn; rewrite ?IH; reflexivity. Qed.
Lemma to_booleans_values xs : to_booleans (map Ok xs) = Ok (flat_map boolean_in xs).
Proof. induction xs as [|[] xs IH]; cbn; rewrite ?IH; reflexivity. Qed.

(** ** Numbers *)
Lemma compare_self x : valid x -> is_nan x = false -> SFcompare x x = Some Eq.
Proof.
  intros V N. destruct x as [s|s| |s m e]; try reflexivity; try discriminate; try (destruct s; reflexivity).
  rewrite compare_valid by (assumption || reflexivity). rewrite Z.compare_refl. reflexivity.
Qed.

Lemma maximum_least x y : valid x -> valid y -> is_nan x = false -> is_nan y = false ->
  (maximum x y = x \/ maximum x y = y) /\ at_most x (maximum x y) /\ at_most y (maximum x y).
Proof.
  intros Vx Vy Nx Ny. unfold maximum, at_most. rewrite Nx, Ny. cbn [orb]. unfold lt, SFltb, SFleb.
  pose proof (compare_flip y x Vy Vx) as F. destruct (SFcompare y x) as [[]|] eqn:E.
  - split; [auto|]. rewrite F. cbn. rewrite (compare_self y Vy Ny). auto.
  - split; [auto|]. rewrite (compare_self x Vx Nx), E. auto.
  - split; [auto|]. rewrite F. cbn. rewrite (compare_self y Vy Ny). auto.
  - destruct (compare_none _ _ E); congruence.
Qed.

Lemma minimum_greatest x y : valid x -> valid y -> is_nan x = false -> is_nan y = false ->
  (minimum x y = x \/ minimum x y = y) /\ at_most (minimum x y) x /\ at_most (minimum x y) y.
Proof.
  intros Vx Vy Nx Ny. unfold minimum, at_most. rewrite Nx, Ny. cbn [orb]. unfold lt, SFltb, SFleb.
  pose proof (compare_flip x y Vx Vy) as F. destruct (SFcompare x y) as [[]|] eqn:E.
  - split; [auto|]. rewrite F. cbn. rewrite (compare_self y Vy Ny). auto.
  - split; [auto|]. rewrite (compare_self x Vx Nx), E. auto.
  - split; [auto|]. rewrite F. cbn. rewrite (compare_self y Vy Ny). auto.
  - destruct (compare_none _ _ E); congruence.
Qed.

Lemma integers_none a b : b < a -> integers a b = [].
Proof. intros H. unfold integers. replace (Z.to_nat (b - a + 1)) with O by lia. reflexivity. Qed.
Lemma integers_more a b : a <= b -> integers a b = a :: integers (a + 1) b.
Proof.
  intros H. unfold integers. replace (Z.to_nat (b - a + 1)) with (S (Z.to_nat (b - (a + 1) + 1))) by lia. cbn [seq map].
  f_equal; [lia|]. rewrite <- seq_shift, map_map. apply map_ext. intros i. lia.
Qed.
Lemma integers_in a b z : In z (integers a b) <-> a <= z <= b.
Proof.
  unfold integers. rewrite in_map_iff. split.
  - intros (i & <- & Hi). apply in_seq in Hi. lia.
  - intros H. exists (Z.to_nat (z - a)). split; [lia|]. apply in_seq. lia.
Qed.

Lemma range_integers fuel : forall a b, exact a -> exact b -> exact (b + 1) -> (length (integers a b) <= fuel)%nat ->
  range fuel (of_int a) (of_int b) = Ok (map of_int (integers a b)).
Proof.
  unfold exact. induction fuel as [|fuel IH]; intros a b Ha Hb Hb1 L; cbn [range].
  - rewrite lt_exact by assumption. destruct (Z.ltb_spec b a) as [H|H]; [rewrite integers_none by lia; reflexivity|].
    rewrite integers_more in L by lia. cbn in L. lia.
  - rewrite lt_exact by assumption. destruct (Z.ltb_spec b a) as [H|H]; [rewrite integers_none by lia; reflexivity|].
    rewrite integers_more in * by lia. cbn [length] in L. unfold small in *.
    rewrite add_exact by (unfold small; lia). rewrite IH by lia. reflexivity.
Qed.

Lemma range_stuck x y : lt y x = false -> add x (of_int 1) = x -> forall fuel, range fuel x y = OutOfFuel.
Proof.
  intros H1 H2. induction fuel as [|fuel IH]; cbn [range]; rewrite H1; [reflexivity|]. rewrite H2, IH. reflexivity.
Qed.

(** The elements, for all numbers. *)
Lemma range_elements fuel : forall x y l, range fuel x y = Ok l -> forall i z, nth_error l i = Some z ->
  z = Nat.iter i (fun x => add x (of_int 1)) x /\ lt y z = false.
Proof.
  induction fuel as [|fuel IH]; intros x y l H i z Hz; cbn [range] in H; destruct (lt y x) eqn:E.
  - injection H as <-. destruct i; discriminate.
  - discriminate.
  - injection H as <-. destruct i; discriminate.
  - destruct (range fuel (add x (of_int 1)) y) as [xs| | |] eqn:R; try discriminate. cbn in H. injection H as <-.
    destruct i as [|i]; cbn in Hz.
    + injection Hz as <-. auto.
    + destruct (IH _ _ _ R i z Hz) as [-> H]. split; [|exact H]. clear. induction i as [|i IH]; [reflexivity|].
      change (add (Nat.iter i (fun x => add x (of_int 1)) (add x (of_int 1))) (of_int 1) = add (Nat.iter (S i) (fun x => add x (of_int 1)) x) (of_int 1)).
      rewrite IH. reflexivity.
Qed.

Lemma total_from zs : forall a, fold_left Z.add zs a = a + total zs.
Proof.
  unfold total. induction zs as [|z zs IH]; intros a; cbn; [lia|]. rewrite IH, (IH z). lia.
Qed.

Lemma total_cons z zs : total (z :: zs) = z + total zs.
Proof. exact (total_from zs z). Qed.

Lemma sum_from_integers zs : forall a, exact a -> (forall k, exact (a + total (firstn k zs))) -> Forall exact zs ->
  sum_from (map (fun z => Ok (of_int z)) zs) (of_int a) = Ok (of_int (a + total zs)).
Proof.
  unfold exact. induction zs as [|z zs IH]; intros a Ha Hk Hz; cbn [map sum_from bind].
  - cbn. rewrite Z.add_0_r. reflexivity.
  - inversion Hz as [|? ? Hz1 Hz2]; subst. pose proof (Hk 1%nat) as H1. cbn in H1.
    rewrite add_exact by (unfold small; lia). rewrite IH; [| lia | | exact Hz2].
    + do 2 f_equal. rewrite total_cons. lia.
    + intros k. specialize (Hk (S k)). cbn [firstn] in Hk. rewrite total_cons in Hk. lia.
Qed.

(** ** Bits *)
Lemma bits_64 x : in_64_bits x <-> 0 <= x /\ forall i, 64 <= i -> Z.testbit x i = false.
Proof.
  unfold in_64_bits. split.
  - intros [H1 H2]. split; [exact H1|]. intros i Hi. destruct (Z.eq_dec x 0) as [->|Hx]; [apply Z.testbit_0_l|].
    apply Z.bits_above_log2; [exact H1|]. assert (Z.log2 x < 64) by (apply Z.log2_lt_pow2; lia). lia.
  - intros [H1 H2]. split; [exact H1|]. destruct (Z.lt_ge_cases x (2 ^ 64)) as [H|H]; [exact H|].
    assert (L : 64 <= Z.log2 x) by (apply Z.log2_le_pow2; lia).
    pose proof (H2 (Z.log2 x) L) as E. rewrite Z.bit_log2 in E by lia. discriminate.
Qed.

Lemma and_64 x y : in_64_bits x -> in_64_bits y -> in_64_bits (bit_and x y).
Proof.
  rewrite !bits_64. intros [H1 H2] [H3 H4]. unfold bit_and. split; [apply Z.land_nonneg; auto|]. intros i Hi. rewrite Z.land_spec, H2 by assumption. reflexivity.
Qed.
Lemma or_64 x y : in_64_bits x -> in_64_bits y -> in_64_bits (bit_or x y).
Proof.
  rewrite !bits_64. intros [H1 H2] [H3 H4]. unfold bit_or. split; [apply Z.lor_nonneg; auto|]. intros i Hi. rewrite Z.lor_spec, H2, H4 by assumption. reflexivity.
Qed.
Lemma xor_64 x y : in_64_bits x -> in_64_bits y -> in_64_bits (bit_xor x y).
Proof.
  rewrite !bits_64. intros [H1 H2] [H3 H4]. unfold bit_xor. split; [apply Z.lxor_nonneg; tauto|]. intros i Hi. rewrite Z.lxor_spec, H2, H4 by assumption. reflexivity.
Qed.
Lemma ones_64 : 2 ^ 64 - 1 = Z.ones 64.
Proof. reflexivity. Qed.
Lemma not_64 x : in_64_bits x -> in_64_bits (bit_not x) /\ forall i, 0 <= i < 64 -> Z.testbit (bit_not x) i = negb (Z.testbit x i).
Proof.
  intros H. split.
  - apply xor_64; [exact H|]. split; reflexivity || discriminate.
  - intros i Hi. unfold bit_not. rewrite Z.lxor_spec, ones_64, Z.ones_spec_low by lia. apply xorb_true_r.
Qed.

Lemma count_exact k : 0 <= k < 64 -> shift_count (of_int k) = k.
Proof.
  intros H. unfold shift_count, to_usize. rewrite cast_exact by (unfold small, usize_max; lia).
  replace (Z.max 0 (Z.min k usize_max)) with k by (unfold usize_max; lia). apply Z.mod_small. exact H.
Qed.
Lemma left_shift_exact x k : in_64_bits x -> 0 <= k < 64 -> left_shift x (of_int k) = (x * 2 ^ k) mod 2 ^ 64.
Proof. intros _ H. unfold left_shift. rewrite count_exact by exact H. rewrite Z.shiftl_mul_pow2 by lia. reflexivity. Qed.
Lemma right_shift_exact x k : in_64_bits x -> 0 <= k < 64 -> right_shift x (of_int k) = x / 2 ^ k.
Proof. intros _ H. unfold right_shift. rewrite count_exact by exact H. apply Z.shiftr_div_pow2. lia. Qed.

Lemma integer_round_trip z : exact z -> 0 <= z -> to_integer (of_int z) = z /\ from_integer (to_integer (of_int z)) = of_int z.
Proof.
  intros H H0. assert (E : to_integer (of_int z) = z).
  { unfold to_integer, to_usize. rewrite cast_exact by (unfold small, exact, usize_max in *; lia). unfold usize_max. unfold exact in H. lia. }
  split; [exact E|]. rewrite E. reflexivity.
Qed.
