(** C65: the core package's operations on booleans, lists, numbers and bits. *)
From Coq Require Import String List ZArith Bool Lia.
From Coq Require Import Floats.SpecFloat.
From Verif Require Import Base Float FloatProofs PkgBytesSpec PkgCore PkgCoreSpec PkgCoreProofs.
Import ListNotations.
Local Open Scope Z_scope.

(** [Any] and [All], and which elements they evaluate. *)
Theorem any_is_some bs : any_of (map Ok bs) = Ok true <-> In true bs.
Proof.
  rewrite any_of_values. split.
  - intros [= H]. apply existsb_exists in H as (b & Hb & ->). exact Hb.
  - intros H. f_equal. apply existsb_exists. eauto.
Qed.
Print Assumptions any_is_some.
Theorem all_is_every bs : all_of (map Ok bs) = Ok true <-> ~ In false bs.
Proof.
  rewrite all_of_values. split.
  - intros [= H] Hf. rewrite forallb_forall in H. discriminate (H _ Hf).
  - intros H. f_equal. apply forallb_forall. intros [] Hb; [reflexivity|contradiction].
Qed.
Print Assumptions all_is_every.
Theorem any_all_answer bs : any_of (map Ok bs) <> Panic /\ (exists b, any_of (map Ok bs) = Ok b) /\ exists b, all_of (map Ok bs) = Ok b.
Proof. rewrite any_of_values, all_of_values. split; [discriminate|]. eauto. Qed.
Print Assumptions any_all_answer.
Theorem any_all_stop bs rest :
  (~ In true bs -> any_of (map Ok bs ++ Ok true :: rest) = Ok true) /\
  (~ In false bs -> all_of (map Ok bs ++ Ok false :: rest) = Ok false).
Proof.
  split; intros H; [apply any_of_stops|apply all_of_stops]; apply Forall_forall; intros [] Hb; reflexivity || contradiction.
Qed.
Print Assumptions any_all_stop.
Example any_all_example : any_of (map Ok [false; true; false]) = Ok true /\ any_of [Ok false; Ok true; Panic] = Ok true /\
  all_of [Ok true; Ok false; Panic] = Ok false /\ any_of [Panic; Ok true] = Panic.
Proof. repeat split. Qed.

(** [First] and [Last] evaluate only the element that they give. *)
Theorem first_and_last A (xs : elements A) x fallback :
  first_of (x :: xs) fallback = x /\ last_of (xs ++ [x]) fallback = x /\
  first_of [] fallback = Ok fallback /\ last_of [] fallback = Ok fallback.
Proof. repeat split. apply last_of_snoc. Qed.
Print Assumptions first_and_last.
Example first_and_last_example : last_of [Panic; Ok 2; Ok 3] 0 = Ok 3 /\ first_of [Ok 1; Panic] 0 = Ok 1.
Proof. repeat split. Qed.

(** [ToNumbers], [ToStrings] and [ToBooleans] keep the elements of the type, in
    order. *)
Theorem conversions_keep xs :
  (exists ns, to_numbers (map Ok xs) = Ok ns /\
     map AnyNumber ns = filter (fun x => match x with AnyNumber _ => true | _ => false end) xs) /\
  (exists ss, to_strings (map Ok xs) = Ok ss /\
     map AnyString ss = filter (fun x => match x with AnyString _ => true | _ => false end) xs) /\
  (exists bs, to_booleans (map Ok xs) = Ok bs /\
     map AnyBoolean bs = filter (fun x => match x with AnyBoolean _ => true | _ => false end) xs).
Proof.
  rewrite to_numbers_values, to_strings_values, to_booleans_values.
  split; [|split]; eexists; (split; [reflexivity|]); induction xs as [|[] xs IH]; cbn; rewrite ?IH; reflexivity.
Qed.
Print Assumptions conversions_keep.
Example conversions_example : to_numbers (map Ok [AnyString "a"; AnyNumber (of_int 1); AnyOther 0; AnyNumber (of_int 2)]) = Ok [of_int 1; of_int 2].
Proof. reflexivity. Qed.

(** [Maximum] and [Minimum] *)
Theorem maximum_and_minimum x y : a_number x -> a_number y -> is_nan x = false -> is_nan y = false ->
  (maximum x y = x \/ maximum x y = y) /\ at_most x (maximum x y) /\ at_most y (maximum x y) /\
  (minimum x y = x \/ minimum x y = y) /\ at_most (minimum x y) x /\ at_most (minimum x y) y.
Proof.
  intros Vx Vy Nx Ny. destruct (maximum_least x y Vx Vy Nx Ny) as (H1 & H2 & H3).
  destruct (minimum_greatest x y Vx Vy Nx Ny) as (H4 & H5 & H6). auto 7.
Qed.
Print Assumptions maximum_and_minimum.
Theorem maximum_minimum_nan x y : is_nan x = true \/ is_nan y = true -> is_nan (maximum x y) = true /\ is_nan (minimum x y) = true.
Proof. unfold maximum, minimum. intros [->| ->]; rewrite ?orb_true_r; split; reflexivity. Qed.
Print Assumptions maximum_minimum_nan.
Example maximum_example : a_number (of_int 3) /\ a_number infinity /\ maximum (of_int 3) infinity = infinity /\ minimum (of_int 3) (of_int (-2)) = of_int (-2).
Proof. repeat split. Qed.

(** [Range]: the whole numbers from the one to the other.  Missing: numbers at
    which adding one does not change the number, for which the list has no end
    (see below). *)
Theorem range_counts_partial a b : exact a -> exact b -> exact (b + 1) -> exists n, forall fuel, (n <= fuel)%nat ->
  range fuel (of_int a) (of_int b) = Ok (map of_int (integers a b)).
Proof. intros H1 H2 H3. exists (length (integers a b)). intros fuel H. apply range_integers; assumption. Qed.
Print Assumptions range_counts_partial.
Theorem integers_are a b z : In z (integers a b) <-> a <= z <= b.
Proof. exact (integers_in a b z). Qed.
Print Assumptions integers_are.
(** For all numbers: the elements that a range has are a distance of one apart and
    not greater than the maximum. *)
Theorem range_has fuel x y l : range fuel x y = Ok l -> forall i z, nth_error l i = Some z ->
  z = Nat.iter i (fun x => add x (of_int 1)) x /\ ~ SFltb y z = true.
Proof. intros H i z Hz. destruct (range_elements _ _ _ _ H i z Hz) as [H1 H2]. split; [exact H1|]. unfold lt in H2. congruence. Qed.
Print Assumptions range_has.
Example range_example : range 9 (of_int (-1)) (of_int 2) = Ok (map of_int [-1; 0; 1; 2]) /\ exact (-1) /\ exact 2 /\ exact (2 + 1).
Proof. repeat split. Qed.

(** [Range(9007199254740992, 9007199254740992)] has no end. *)
Theorem range_endless_refuted : exists a, a_number a /\ is_nan a = false /\ forall fuel, range fuel a a = OutOfFuel.
Proof.
  exists (of_int (2 ^ 53)). split; [reflexivity|]. split; [reflexivity|]. apply range_stuck; vm_compute; reflexivity.
Qed.
Print Assumptions range_endless_refuted.

(** [Sum], when nothing is lost on the way *)
Theorem sum_is_exact zs : (forall k, exact (total (firstn k zs))) -> Forall exact zs ->
  sum_of (map (fun z => Ok (of_int z)) zs) = Ok (of_int (total zs)).
Proof. intros H1 H2. exact (sum_from_integers zs 0 ltac:(reflexivity) H1 H2). Qed.
Print Assumptions sum_is_exact.
Example sum_example : let zs := [5; -7; 9] in (forall k, exact (total (firstn k zs))) /\ Forall exact zs /\ total zs = 7.
Proof.
  split; [|split; [repeat constructor|reflexivity]]. intros [|[|[|[|k]]]]; reflexivity.
Qed.

(** ** Bits *)
Theorem bits_are x y i : in_64_bits x -> in_64_bits y -> 0 <= i < 64 ->
  Z.testbit (bit_and x y) i = Z.testbit x i && Z.testbit y i /\
  Z.testbit (bit_or x y) i = Z.testbit x i || Z.testbit y i /\
  Z.testbit (bit_xor x y) i = xorb (Z.testbit x i) (Z.testbit y i) /\
  Z.testbit (bit_not x) i = negb (Z.testbit x i) /\
  in_64_bits (bit_and x y) /\ in_64_bits (bit_or x y) /\ in_64_bits (bit_xor x y) /\ in_64_bits (bit_not x).
Proof.
  intros Hx Hy Hi. destruct (not_64 x Hx) as [N1 N2].
  split; [apply Z.land_spec|]. split; [apply Z.lor_spec|]. split; [apply Z.lxor_spec|]. split; [auto|].
  split; [apply and_64; assumption|]. split; [apply or_64; assumption|]. split; [apply xor_64; assumption|assumption].
Qed.
Print Assumptions bits_are.
Theorem shifts_are_partial x k : in_64_bits x -> 0 <= k < 64 ->
  left_shift x (of_int k) = (x * 2 ^ k) mod 2 ^ 64 /\ right_shift x (of_int k) = x / 2 ^ k.
Proof. intros Hx Hk. split; [apply left_shift_exact|apply right_shift_exact]; assumption. Qed.
Print Assumptions shifts_are_partial.
(** A shift by 64 bits or more does not give 0. *)
Theorem long_shift_refuted : exists x k, in_64_bits x /\ 64 <= k /\ exact k /\
  left_shift x (of_int k) <> (x * 2 ^ k) mod 2 ^ 64 /\ right_shift x (of_int k) <> x / 2 ^ k.
Proof. exists 1, 64. repeat split; vm_compute; discriminate. Qed.
Print Assumptions long_shift_refuted.
Theorem integers_convert_partial z : exact z -> 0 <= z ->
  to_integer (of_int z) = z /\ from_integer (to_integer (of_int z)) = of_int z.
Proof. exact (integer_round_trip z). Qed.
Print Assumptions integers_convert_partial.
(** Negative integers become 0. *)
Theorem negative_integer_refuted : exists z, exact z /\ from_integer (to_integer (of_int z)) <> of_int z.
Proof. exists (-1). split; [reflexivity|]. vm_compute. discriminate. Qed.
Print Assumptions negative_integer_refuted.
Example bits_example : in_64_bits 12 /\ in_64_bits 10 /\ bit_and 12 10 = 8 /\ bit_xor 12 10 = 6 /\ left_shift 12 (of_int 61) = 2 ^ 63 /\ exact 12.
Proof. repeat split; vm_compute; congruence. Qed.
