(** Arithmetic on small integers is exact. *)
From Coq Require Import ZArith Bool Lia Zpower.
From Coq Require Import Floats.SpecFloat.
From Verif Require Import Float.
Local Open Scope Z_scope.

Definition small (z : Z) : Prop := Z.abs z < 2 ^ 53.

Lemma digits_log2 p : Zpos (digits2_pos p) = Z.log2 (Zpos p) + 1.
Proof.
  induction p as [p IH|p IH|].
  - change (digits2_pos p~1) with (Pos.succ (digits2_pos p)). rewrite Pos2Z.inj_succ, IH.
    change (Zpos p~1) with (2 * Zpos p + 1). rewrite Z.log2_succ_double by lia. lia.
  - change (digits2_pos p~0) with (Pos.succ (digits2_pos p)). rewrite Pos2Z.inj_succ, IH.
    change (Zpos p~0) with (2 * Zpos p). rewrite Z.log2_double by lia. lia.
  - reflexivity.
Qed.

Lemma iter_pos_nat {A} (f : A -> A) n x : iter_pos f n x = Nat.iter (Pos.to_nat n) f x.
Proof.
  assert (S : forall a b y, Nat.iter (a + b) f y = Nat.iter a f (Nat.iter b f y)).
  { intros a b y. induction a as [|a IH]; [reflexivity|]. cbn. f_equal. exact IH. }
  revert x. induction n as [n IH|n IH|]; intros x; cbn [iter_pos].
  - rewrite !IH, Pos2Nat.inj_xI, <- S. replace (Datatypes.S (2 * Pos.to_nat n)) with ((Pos.to_nat n + Pos.to_nat n) + 1)%nat by lia.
    rewrite (S (Pos.to_nat n + Pos.to_nat n)%nat 1%nat). reflexivity.
  - rewrite !IH, Pos2Nat.inj_xO, <- S. f_equal. lia.
  - reflexivity.
Qed.

Lemma shr_exact n q : Nat.iter n shr_1 {| shr_m := Zpos q * 2 ^ Z.of_nat n; shr_r := false; shr_s := false |} =
  {| shr_m := Zpos q; shr_r := false; shr_s := false |}.
Proof.
  assert (S : forall a y, Nat.iter (S a) shr_1 y = Nat.iter a shr_1 (shr_1 y)).
  { intros a y. induction a as [|a IH]; [reflexivity|]. change (shr_1 (Nat.iter (S a) shr_1 y) = shr_1 (Nat.iter a shr_1 (shr_1 y))). rewrite IH. reflexivity. }
  induction n as [|n IH]; [cbn; f_equal; lia|]. rewrite S.
  replace (shr_1 _) with {| shr_m := Zpos q * 2 ^ Z.of_nat n; shr_r := false; shr_s := false |}; [exact IH|].
  rewrite Nat2Z.inj_succ, Z.pow_succ_r by lia. assert (P : 0 < Zpos q * 2 ^ Z.of_nat n) by (pose proof (Z.pow_pos_nonneg 2 (Z.of_nat n)); nia).
  replace (Zpos q * (2 * 2 ^ Z.of_nat n)) with (2 * (Zpos q * 2 ^ Z.of_nat n)) by ring.
  destruct (Zpos q * 2 ^ Z.of_nat n) as [|r|r]; [lia| |lia]. reflexivity.
Qed.

(** The mantissa of a small integer *)
Definition shifted (p : positive) : Z := Zpos p * 2 ^ (52 - Z.log2 (Zpos p)).

Lemma small_log2 p : small (Zpos p) -> 0 <= Z.log2 (Zpos p) <= 52.
Proof.
  intros S. split; [apply Z.log2_nonneg|]. unfold small in S. assert (Z.log2 (Zpos p) < 53); [|lia].
  apply Z.log2_lt_pow2; lia.
Qed.

Lemma fexp_small d : 1 <= d <= 53 -> fexp 53 1024 d = d - 53.
Proof. intros H. unfold fexp, emin. lia. Qed.

Lemma shifted_log2 p : small (Zpos p) -> Z.log2 (shifted p) = 52.
Proof. intros S. apply small_log2 in S. unfold shifted. rewrite Z.log2_mul_pow2 by lia. lia. Qed.

Lemma round_aux_exact s p q k : small (Zpos p) -> Zpos q = Zpos p * 2 ^ k -> 52 - Z.log2 (Zpos p) <= k ->
  exists m, Zpos m = shifted p /\ binary_round_aux 53 1024 s (Zpos q) (- k) loc_Exact = S754_finite s m (Z.log2 (Zpos p) - 52).
Proof.
  intros S Q K. pose proof (small_log2 _ S) as B. set (l := Z.log2 (Zpos p)) in *.
  assert (P : 0 < shifted p) by (unfold shifted; pose proof (Z.pow_pos_nonneg 2 (52 - Z.log2 (Zpos p))); nia).
  destruct (shifted p) as [|m|m] eqn:M; try lia. exists m. split; [reflexivity|].
  unfold binary_round_aux.
  assert (D : Zdigits2 (Zpos q) = l + k + 1).
  { cbn [Zdigits2]. rewrite digits_log2, Q, Z.log2_mul_pow2 by lia. lia. }
  assert (H1 : shr_fexp 53 1024 (Zpos q) (- k) loc_Exact = ({| shr_m := Zpos m; shr_r := false; shr_s := false |}, l - 52)).
  { unfold shr_fexp. rewrite D, fexp_small by lia. cbn [shr_record_of_loc].
    assert (E : Zpos q = Zpos m * 2 ^ (l - 52 + k)).
    { rewrite Q, <- M. unfold shifted. fold l. rewrite <- Z.mul_assoc, <- Z.pow_add_r by lia. do 2 f_equal. lia. }
    replace (l + k + 1 + - k - 53 - - k) with (l - 52 + k) by lia. rewrite E.
    destruct (l - 52 + k) as [|n|n] eqn:N; try lia; cbn [shr].
    - f_equal; [f_equal; cbn; lia|lia].
    - f_equal; [|lia]. rewrite iter_pos_nat. replace (2 ^ Zpos n) with (2 ^ Z.of_nat (Pos.to_nat n)) by (f_equal; lia). apply shr_exact. }
  rewrite H1. cbn [shr_m loc_of_shr_record round_nearest_even].
  assert (H2 : shr_fexp 53 1024 (Zpos m) (l - 52) loc_Exact = ({| shr_m := Zpos m; shr_r := false; shr_s := false |}, l - 52)).
  { unfold shr_fexp. cbn [Zdigits2]. rewrite digits_log2, <- M, shifted_log2 by exact S. rewrite fexp_small by lia.
    replace (52 + 1 + (l - 52) - 53 - (l - 52)) with 0 by lia. rewrite M. reflexivity. }
  rewrite H2. cbn [shr_m]. destruct (Z.leb_spec (l - 52) (1024 - 53)); [reflexivity|lia].
Qed.

Lemma round_exact s p q k : small (Zpos p) -> 0 <= k -> Zpos q = Zpos p * 2 ^ k ->
  exists m, Zpos m = shifted p /\ binary_round 53 1024 s q (- k) = S754_finite s m (Z.log2 (Zpos p) - 52).
Proof.
  intros S K Q. pose proof (small_log2 _ S) as B. unfold binary_round.
  rewrite digits_log2, Q, Z.log2_mul_pow2, fexp_small by lia. unfold shl_align.
  replace (k + Z.log2 (Zpos p) + 1 + - k - 53 - - k) with (Z.log2 (Zpos p) - 52 + k) by lia.
  destruct (Z.log2 (Zpos p) - 52 + k) as [|n|n] eqn:N.
  - apply round_aux_exact; [exact S|exact Q|lia].
  - apply round_aux_exact; [exact S|exact Q|lia].
  - replace (k + Z.log2 (Zpos p) + 1 + - k - 53) with (- (52 - Z.log2 (Zpos p))) by lia.
    apply round_aux_exact; [exact S| |lia]. rewrite shift_pos_correct, Q. rewrite Z.mul_comm, <- Z.mul_assoc. f_equal.
    change (Z.pow_pos 2 n) with (2 ^ Zpos n). rewrite <- Z.pow_add_r by lia. f_equal. lia.
Qed.

Lemma of_int_pos p : small (Zpos p) -> exists m, Zpos m = shifted p /\ of_int (Zpos p) = S754_finite false m (Z.log2 (Zpos p) - 52).
Proof. intros S. exact (round_exact false p p 0 S ltac:(lia) ltac:(cbn; lia)). Qed.
Lemma of_int_neg p : small (Zpos p) -> exists m, Zpos m = shifted p /\ of_int (Zneg p) = S754_finite true m (Z.log2 (Zpos p) - 52).
Proof. intros S. exact (round_exact true p p 0 S ltac:(lia) ltac:(cbn; lia)). Qed.

(** Scaled by a power of two *)
Lemma normalize_scaled z k : small z -> 0 <= k -> binary_normalize 53 1024 (z * 2 ^ k) (- k) false = of_int z.
Proof.
  intros S K. assert (P : 0 < 2 ^ k) by (apply Z.pow_pos_nonneg; lia).
  destruct z as [|p|p]; [reflexivity| |].
  - assert (exists q, Zpos p * 2 ^ k = Zpos q) as (q & Q) by (destruct (Zpos p * 2 ^ k) eqn:E; try nia; eauto).
    rewrite Q. cbn [binary_normalize].
    destruct (round_exact false p q k S K (eq_sym Q)) as (m & M & ->). destruct (of_int_pos p S) as (m' & M' & ->).
    rewrite <- M' in M. injection M as ->. reflexivity.
  - assert (exists q, Zpos p * 2 ^ k = Zpos q) as (q & Q) by (destruct (Zpos p * 2 ^ k) eqn:E; try nia; eauto).
    change (Zneg p) with (- Zpos p). rewrite Z.mul_opp_l, Q. cbn [Z.opp binary_normalize].
    destruct (round_exact true p q k S K (eq_sym Q)) as (m & M & ->). destruct (of_int_neg p S) as (m' & M' & ->).
    rewrite <- M' in M. injection M as ->. reflexivity.
Qed.

(** What the representation of a small number other than zero looks like *)
Lemma of_int_finite z : small z -> z <> 0 ->
  exists m e, of_int z = S754_finite (z <? 0) m e /\ -52 <= e <= 0 /\ Z.abs z * 2 ^ (- e) = Zpos m /\ e = Z.log2 (Z.abs z) - 52.
Proof.
  intros S N. destruct z as [|p|p]; [lia| |].
  - pose proof (small_log2 _ S). destruct (of_int_pos p S) as (m & M & ->). do 2 eexists. split; [reflexivity|]. split; [lia|].
    split; [|reflexivity]. rewrite M. cbn [Z.abs]. unfold shifted. do 2 f_equal. lia.
  - pose proof (small_log2 p S). destruct (of_int_neg p S) as (m & M & ->). do 2 eexists. split; [reflexivity|]. split; [lia|].
    split; [|reflexivity]. rewrite M. cbn [Z.abs]. unfold shifted. do 2 f_equal. lia.
Qed.

Lemma align m e e' : e' <= e -> Zpos (fst (shl_align m e e')) = Zpos m * 2 ^ (e - e').
Proof.
  intros H. unfold shl_align. destruct (e' - e) as [|d|d] eqn:D; try lia; cbn [fst].
  - replace (e - e') with 0 by lia. lia.
  - rewrite shift_pos_correct. replace (e - e') with (Zpos d) by lia. change (Z.pow_pos 2 d) with (2 ^ Zpos d). ring.
Qed.

Lemma aligned z m e k : of_int z = S754_finite (z <? 0) m e -> Z.abs z * 2 ^ (- e) = Zpos m -> 0 <= - e <= k ->
  cond_Zopp (z <? 0) (Zpos (fst (shl_align m e (- k)))) = z * 2 ^ k.
Proof.
  intros _ M K. rewrite align by lia. rewrite <- M, <- Z.mul_assoc, <- Z.pow_add_r by lia.
  replace (- e + (e - - k)) with k by lia. unfold cond_Zopp. destruct (Z.ltb_spec z 0); [rewrite Z.abs_neq by lia; ring|].
  rewrite Z.abs_eq by lia. reflexivity.
Qed.

Theorem add_exact a b : small a -> small b -> small (a + b) -> add (of_int a) (of_int b) = of_int (a + b).
Proof.
  intros Sa Sb S. destruct (Z.eq_dec a 0) as [->|Na].
  { destruct (Z.eq_dec b 0) as [->|Nb]; [reflexivity|]. destruct (of_int_finite b Sb Nb) as (m & e & E & _). cbn [Z.add]. rewrite E. reflexivity. }
  destruct (Z.eq_dec b 0) as [->|Nb].
  { rewrite Z.add_0_r. destruct (of_int_finite a Sa Na) as (m & e & E & _). rewrite E. reflexivity. }
  destruct (of_int_finite a Sa Na) as (m & e & E & B & M & _). destruct (of_int_finite b Sb Nb) as (m' & e' & E' & B' & M' & _).
  rewrite E, E'. cbn [add SFadd]. unfold add, SFadd. set (k := - Z.min e e'). replace (Z.min e e') with (- k) by lia.
  rewrite (aligned a m e k E M), (aligned b m' e' k E' M') by lia. rewrite <- Z.mul_add_distr_r. apply normalize_scaled; [exact S|lia].
Qed.

Theorem sub_exact a b : small a -> small b -> small (a - b) -> sub (of_int a) (of_int b) = of_int (a - b).
Proof.
  intros Sa Sb S. destruct (Z.eq_dec a 0) as [->|Na].
  { destruct (Z.eq_dec b 0) as [->|Nb]; [reflexivity|]. destruct b as [|p|p]; [lia| |].
    - destruct (of_int_pos p Sb) as (m & M & ->). destruct (of_int_neg p Sb) as (m' & M' & E). cbn [Z.sub Z.add Z.opp]. rewrite E.
      rewrite <- M in M'. injection M' as ->. reflexivity.
    - destruct (of_int_neg p Sb) as (m & M & ->). destruct (of_int_pos p Sb) as (m' & M' & E). cbn [Z.sub Z.add Z.opp]. rewrite E.
      rewrite <- M in M'. injection M' as ->. reflexivity. }
  destruct (Z.eq_dec b 0) as [->|Nb].
  { rewrite Z.sub_0_r. destruct (of_int_finite a Sa Na) as (m & e & E & _). rewrite E. reflexivity. }
  destruct (of_int_finite a Sa Na) as (m & e & E & B & M & _). destruct (of_int_finite b Sb Nb) as (m' & e' & E' & B' & M' & _).
  rewrite E, E'. unfold sub, SFsub. set (k := - Z.min e e'). replace (Z.min e e') with (- k) by lia.
  rewrite (aligned a m e k E M), (aligned b m' e' k E' M') by lia. rewrite <- Z.mul_sub_distr_r. apply normalize_scaled; [exact S|lia].
Qed.

Theorem compare_exact a b : small a -> small b -> SFcompare (of_int a) (of_int b) = Some (a ?= b).
Proof.
  intros Sa Sb.
  assert (P : forall x y m m' e e', 0 < x -> 0 < y -> x * 2 ^ (- e) = Zpos m -> y * 2 ^ (- e') = Zpos m' ->
    -52 <= e <= 0 -> -52 <= e' <= 0 -> e = Z.log2 x - 52 -> e' = Z.log2 y - 52 ->
    match e ?= e' with Eq => Pcompare m m' Eq | Lt => Lt | Gt => Gt end = (x ?= y)).
  { intros x y m m' e e' X Y M M' B B' Q Q'. destruct (Z.compare_spec e e') as [F|F|F]; symmetry.
    - subst e'. rewrite <- F in M'. change (Pcompare m m' Eq) with (Zpos m ?= Zpos m'). rewrite <- M, <- M'.
      apply Zmult_compare_compat_r. apply Z.lt_gt, Z.pow_pos_nonneg; lia.
    - apply Z.compare_lt_iff. apply Z.log2_lt_cancel. lia.
    - apply Z.compare_gt_iff. apply Z.log2_lt_cancel. lia. }
  destruct (Z.eq_dec a 0) as [->|Na].
  { destruct (Z.eq_dec b 0) as [->|Nb]; [reflexivity|]. destruct (of_int_finite b Sb Nb) as (m & e & -> & _). destruct b; try lia; reflexivity. }
  destruct (Z.eq_dec b 0) as [->|Nb].
  { destruct (of_int_finite a Sa Na) as (m & e & -> & _). destruct a; try lia; reflexivity. }
  destruct (of_int_finite a Sa Na) as (m & e & -> & B & M & Q). destruct (of_int_finite b Sb Nb) as (m' & e' & -> & B' & M' & Q').
  cbn [SFcompare]. f_equal. destruct (Z.ltb_spec a 0), (Z.ltb_spec b 0).
  - pose proof (P (Z.abs a) (Z.abs b) m m' e e' ltac:(lia) ltac:(lia) M M' B B' Q Q') as R.
    rewrite !Z.abs_neq in R by lia. rewrite Z.compare_opp in R.
    rewrite (Z.compare_antisym b a), <- R. destruct (e ?= e'); reflexivity.
  - symmetry. apply Z.compare_lt_iff. lia.
  - symmetry. apply Z.compare_gt_iff. lia.
  - pose proof (P (Z.abs a) (Z.abs b) m m' e e' ltac:(lia) ltac:(lia) M M' B B' Q Q') as R. rewrite !Z.abs_eq in R by lia. exact R.
Qed.

Theorem lt_exact a b : small a -> small b -> lt (of_int a) (of_int b) = (a <? b).
Proof. intros Sa Sb. unfold lt, SFltb, Z.ltb. rewrite compare_exact by assumption. reflexivity. Qed.
Theorem equal_exact a b : small a -> small b -> equal (of_int a) (of_int b) = (a =? b).
Proof.
  intros Sa Sb. unfold equal, SFeqb. rewrite compare_exact by assumption. destruct (Z.compare_spec a b), (Z.eqb_spec a b); lia || reflexivity.
Qed.

Lemma of_int_nan z : small z -> is_nan (of_int z) = false.
Proof.
  intros S. destruct (Z.eq_dec z 0) as [->|N]; [reflexivity|]. destruct (of_int_finite z S N) as (m & e & -> & _). reflexivity.
Qed.

Theorem cast_exact limit z : small z -> 0 <= limit -> cast limit (of_int z) = Z.max 0 (Z.min z limit).
Proof.
  intros S L. destruct (Z.eq_dec z 0) as [->|N]; [cbn; lia|]. destruct (of_int_finite z S N) as (m & e & -> & B & M & _).
  cbn [cast]. destruct (Z.ltb_spec z 0); [lia|]. rewrite Z.abs_eq in M by lia.
  replace (truncate m e) with z; [lia|]. unfold truncate. rewrite <- M. destruct (Z.leb_spec 0 e).
  - replace e with 0 by lia. cbn. lia.
  - symmetry. apply Z.div_mul. apply Z.pow_nonzero; lia.
Qed.

(** ** Comparison with any number *)
Definition valid (x : number) : Prop := valid_binary 53 1024 x = true.
Definition is_finite (x : number) : bool := match x with S754_zero _ | S754_finite _ _ _ => true | _ => false end.
(** The value of a finite number, times 2 ^ 1074 *)
Definition unit_ : Z := 1074.
Definition scaled (x : number) : Z := match x with S754_finite s m e => cond_Zopp s (Zpos m * 2 ^ (e + unit_)) | _ => 0 end.

Lemma bounded_facts m e : bounded 53 1024 m e = true -> - unit_ <= e /\ Zpos m < 2 ^ 53 /\ (e = - unit_ \/ 2 ^ 52 <= Zpos m).
Proof.
  unfold bounded, canonical_mantissa. intros H. apply andb_true_iff in H as (H & _). apply Zeq_bool_eq in H.
  rewrite digits_log2 in H. unfold fexp, emin in H. unfold unit_. split; [lia|]. split.
  - apply Z.log2_lt_cancel. rewrite (Z.log2_pow2 53) by lia. lia.
  - destruct (Z.eq_dec e (-1074)) as [->|N]; [left; reflexivity|right]. apply Z.log2_le_pow2; lia.
Qed.

Lemma compare_pos m e m' e' : bounded 53 1024 m e = true -> bounded 53 1024 m' e' = true ->
  match e ?= e' with Eq => Pcompare m m' Eq | Lt => Lt | Gt => Gt end = (Zpos m * 2 ^ (e + unit_) ?= Zpos m' * 2 ^ (e' + unit_)).
Proof.
  intros B B'.
  assert (K : forall m e m' e', bounded 53 1024 m e = true -> bounded 53 1024 m' e' = true -> e < e' -> Zpos m * 2 ^ (e + unit_) < Zpos m' * 2 ^ (e' + unit_)).
  { clear. intros m e m' e' B B' L. apply bounded_facts in B as (B1 & B2 & _). apply bounded_facts in B' as (_ & _ & B3).
    destruct B3 as [B3|B3]; [lia|]. apply Z.lt_le_trans with (2 ^ 53 * 2 ^ (e + unit_)).
    - apply Z.mul_lt_mono_pos_r; [apply Z.pow_pos_nonneg; lia|exact B2].
    - apply Z.le_trans with (2 ^ 52 * 2 ^ (e' + unit_)).
      + rewrite <- !Z.pow_add_r by lia. apply Z.pow_le_mono_r; lia.
      + apply Z.mul_le_mono_nonneg_r; [apply Z.pow_nonneg; lia|exact B3]. }
  destruct (Z.compare_spec e e') as [->|L|L]; symmetry.
  - change (Pcompare m m' Eq) with (Zpos m ?= Zpos m'). symmetry. apply Zmult_compare_compat_r.
    apply Z.lt_gt, Z.pow_pos_nonneg; [lia|]. apply bounded_facts in B'. lia.
  - apply Z.compare_lt_iff. apply K; assumption.
  - apply Z.compare_gt_iff. apply K; assumption.
Qed.

Lemma scaled_pos m e : bounded 53 1024 m e = true -> 0 < Zpos m * 2 ^ (e + unit_).
Proof. intros B. apply bounded_facts in B. apply Z.mul_pos_pos; [lia|]. apply Z.pow_pos_nonneg; lia. Qed.

Theorem compare_valid x y : valid x -> valid y -> is_finite x = true -> is_finite y = true ->
  SFcompare x y = Some (scaled x ?= scaled y).
Proof.
  unfold valid. intros Vx Vy Fx Fy. destruct x as [s|s| |s m e]; try discriminate; destruct y as [s'|s'| |s' m' e']; try discriminate;
    cbn [valid_binary] in *; cbn [SFcompare scaled]; f_equal.
  - pose proof (scaled_pos _ _ Vy). destruct s'; cbn [cond_Zopp]; symmetry; [apply Z.compare_gt_iff|apply Z.compare_lt_iff]; lia.
  - pose proof (scaled_pos _ _ Vx). destruct s; cbn [cond_Zopp]; symmetry; [apply Z.compare_lt_iff|apply Z.compare_gt_iff]; lia.
  - pose proof (scaled_pos _ _ Vx). pose proof (scaled_pos _ _ Vy). pose proof (compare_pos _ _ _ _ Vx Vy) as R.
    destruct s, s'; cbn [cond_Zopp]; symmetry.
    + rewrite Z.compare_opp, Z.compare_antisym, <- R. destruct (e ?= e'); reflexivity.
    + apply Z.compare_lt_iff. lia.
    + apply Z.compare_gt_iff. lia.
    + symmetry. exact R.
Qed.

Lemma of_int_valid z : small z -> valid (of_int z) /\ is_finite (of_int z) = true /\ scaled (of_int z) = z * 2 ^ unit_.
Proof.
  intros S. destruct (Z.eq_dec z 0) as [->|N]; [repeat split|]. destruct (of_int_finite z S N) as (m & e & -> & B & M & L).
  assert (Lm : Z.log2 (Zpos m) = 52).
  { rewrite <- M, Z.log2_mul_pow2 by lia. lia. }
  split; [|split; [reflexivity|]].
  - unfold valid. cbn [valid_binary]. unfold bounded, canonical_mantissa. rewrite digits_log2, Lm. unfold fexp, emin.
    apply andb_true_iff. split; [|apply Z.leb_le; lia]. apply Zeq_is_eq_bool. lia.
  - cbn [scaled]. rewrite <- M, <- Z.mul_assoc, <- Z.pow_add_r by (unfold unit_; lia). replace (- e + (e + unit_)) with unit_ by lia.
    unfold cond_Zopp. destruct (Z.ltb_spec z 0); [rewrite Z.abs_neq by lia; ring|rewrite Z.abs_eq by lia; reflexivity].
Qed.

Lemma unit_pos : 0 < 2 ^ unit_.
Proof. apply Z.pow_pos_nonneg; unfold unit_; lia. Qed.

(** The integer part *)
Lemma truncate_spec m e : bounded 53 1024 m e = true -> forall i, i <= truncate m e <-> i * 2 ^ unit_ <= Zpos m * 2 ^ (e + unit_).
Proof.
  intros B i. apply bounded_facts in B as (B & _). pose proof unit_pos as U. unfold truncate. destruct (Z.leb_spec 0 e).
  - rewrite Z.pow_add_r, Z.mul_assoc by (unfold unit_; lia). apply Z.mul_le_mono_pos_r. exact U.
  - assert (Q : 2 ^ unit_ = 2 ^ (- e) * 2 ^ (e + unit_)) by (rewrite <- Z.pow_add_r by lia; f_equal; lia).
    rewrite Q, Z.mul_assoc. rewrite <- Z.mul_le_mono_pos_r by (apply Z.pow_pos_nonneg; lia).
    assert (P : 0 < 2 ^ (- e)) by (apply Z.pow_pos_nonneg; lia). split; intros L.
    + pose proof (Z.mul_div_le (Zpos m) (2 ^ (- e)) P). nia.
    + apply Z.div_le_lower_bound; lia.
Qed.

(** [i <= x], for a positive [i], says that the integer part of [x] is at least [i]. *)
Theorem leb_int x i : valid x -> small i -> 0 < i -> i <= usize_max -> SFleb (of_int i) x = (i <=? to_usize x).
Proof.
  intros V S P L. destruct (of_int_valid i S) as (Vi & Fi & Qi). destruct x as [s|s| |s m e].
  - unfold SFleb. rewrite compare_valid, Qi by (assumption || reflexivity). cbn [scaled to_usize cast].
    pose proof unit_pos. destruct (Z.compare_spec (i * 2 ^ unit_) 0), (Z.leb_spec i 0); try reflexivity; nia.
  - destruct (of_int_finite i S) as (m & e & -> & _); [lia|]. unfold to_usize. destruct s; cbn; symmetry; [apply Z.leb_gt; lia|apply Z.leb_le; exact L].
  - destruct (of_int_finite i S) as (m & e & -> & _); [lia|]. cbn. symmetry. apply Z.leb_gt; lia.
  - unfold SFleb. rewrite compare_valid, Qi by (assumption || reflexivity). cbn [scaled to_usize cast]. unfold to_usize, cast. pose proof (scaled_pos m e V).
    destruct s; cbn [cond_Zopp].
    + pose proof unit_pos. destruct (Z.compare_spec (i * 2 ^ unit_) (- (Zpos m * 2 ^ (e + unit_)))), (Z.leb_spec i 0); try reflexivity; nia.
    + pose proof (truncate_spec m e V i) as T. destruct (Z.compare_spec (i * 2 ^ unit_) (Zpos m * 2 ^ (e + unit_))) as [C|C|C].
      * symmetry. apply Z.leb_le. apply Z.min_glb; [apply T; lia|exact L].
      * symmetry. apply Z.leb_le. apply Z.min_glb; [apply T; lia|exact L].
      * symmetry. apply Z.leb_gt. apply Z.min_lt_iff. left. apply Z.nle_gt. rewrite T. lia.
Qed.

Lemma compare_flip x y : valid x -> valid y -> SFcompare y x = match SFcompare x y with Some c => Some (CompOpp c) | None => None end.
Proof.
  intros Vx Vy. destruct (is_finite x) eqn:Fx, (is_finite y) eqn:Fy.
  - rewrite !compare_valid by assumption. f_equal. apply Z.compare_antisym.
  - destruct x as [|[]| |], y as [|[]| |]; try discriminate; reflexivity.
  - destruct x as [|[]| |], y as [|[]| |]; try discriminate; reflexivity.
  - destruct x as [|[]| |], y as [|[]| |]; try discriminate; reflexivity.
Qed.

Lemma compare_none x y : SFcompare x y = None -> is_nan x = true \/ is_nan y = true.
Proof. destruct x as [|[]| |], y as [|[]| |]; cbn; auto; discriminate. Qed.

Lemma lt_int x i : valid x -> is_nan x = false -> small i -> 0 < i -> i <= usize_max -> lt x (of_int i) = negb (i <=? to_usize x).
Proof.
  intros V N S P L. destruct (of_int_valid i S) as (Vi & Fi & _). rewrite <- leb_int by assumption.
  unfold lt, SFltb, SFleb. rewrite (compare_flip (of_int i) x Vi V).
  destruct (SFcompare (of_int i) x) as [[]|] eqn:E; try reflexivity.
  apply compare_none in E as [E|E]; [rewrite of_int_nan in E by exact S; discriminate|congruence].
Qed.

Lemma min_int x n : valid x -> is_nan x = false -> small n -> 0 <= n <= usize_max -> to_usize (rust_min x (of_int n)) = Z.min (to_usize x) n.
Proof.
  intros V N S P. destruct (of_int_valid n S) as (Vn & Fn & Qn). unfold rust_min. rewrite N, of_int_nan by exact S.
  assert (Cn : to_usize (of_int n) = n) by (unfold to_usize; rewrite cast_exact by (assumption || (unfold usize_max; lia)); lia).
  assert (U : forall m, Z.min m usize_max <= usize_max) by (intros; apply Z.le_min_r).
  destruct x as [s|s| |s m e]; [| |discriminate|].
  - unfold lt, SFltb. rewrite compare_valid, Qn by (assumption || reflexivity). cbn [scaled]. pose proof unit_pos.
    destruct (Z.compare_spec (n * 2 ^ unit_) 0); try (rewrite Cn); cbn [to_usize cast]; unfold to_usize, cast; try nia; lia.
  - assert (E : lt (of_int n) (S754_infinity s) = negb s).
    { destruct (Z.eq_dec n 0) as [->|Z]; [destruct s; reflexivity|]. destruct (of_int_finite n S Z) as (m & e & -> & _). destruct s; reflexivity. }
    rewrite E. destruct s; cbn [negb]; [cbn; lia|]. rewrite Cn. cbn [to_usize cast]. unfold to_usize, cast. lia.
  - unfold lt, SFltb. rewrite compare_valid, Qn by (assumption || reflexivity). cbn [scaled]. pose proof unit_pos. pose proof (scaled_pos m e V).
    destruct s; cbn [cond_Zopp].
    + destruct (Z.compare_spec (n * 2 ^ unit_) (- (Zpos m * 2 ^ (e + unit_)))); try nia; cbn [to_usize cast]; unfold to_usize, cast; lia.
    + pose proof (truncate_spec m e V n) as T. pose proof (truncate_spec m e V (n + 1)) as T'.
      destruct (Z.compare_spec (n * 2 ^ unit_) (Zpos m * 2 ^ (e + unit_))) as [C|C|C]; try rewrite Cn; unfold to_usize, cast; try lia; nia.
Qed.
