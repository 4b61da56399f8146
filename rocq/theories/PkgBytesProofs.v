From Coq Require Import String List ZArith Bool Lia Ascii.
From Coq Require Import Floats.SpecFloat.
From Verif Require Import Base Float FloatProofs PkgBytes PkgBytesSpec.
Local Open Scope string_scope.
Local Open Scope Z_scope.

Lemma select_ext P Q i s : (forall j, i <= j < i + size s -> P j = Q j) -> select P i s = select Q i s.
Proof.
  revert i. induction s as [|c s IH]; intros i H; [reflexivity|]. cbn [select].
  unfold size in *. cbn [String.length] in H. rewrite (IH (i + 1)) by (intros j Hj; apply H; lia). rewrite H by lia. reflexivity.
Qed.

Lemma substring_zero s : substring 0 0 s = "".
Proof. destruct s; reflexivity. Qed.

Lemma substring_none n s : substring n 0 s = "".
Proof. revert n. induction s as [|c s IH]; intros [|n]; try reflexivity. apply IH. Qed.

Lemma select_range a b s : forall i,
  select (fun j => (a <=? j) && (j <=? b)) i s = substring (Z.to_nat (a - i)) (Z.to_nat (b - Z.max a i + 1)) s.
Proof.
  induction s as [|c s IH]; intros i; cbn [select].
  - destruct (Z.to_nat (a - i)), (Z.to_nat (b - Z.max a i + 1)); reflexivity.
  - rewrite IH. destruct (Z.leb_spec a i) as [H|H]; cbn [andb].
    + replace (Z.to_nat (a - i)) with 0%nat by lia. replace (Z.to_nat (a - (i + 1))) with 0%nat by lia.
      replace (Z.max a i) with i by lia. replace (Z.max a (i + 1)) with (i + 1) by lia. destruct (Z.leb_spec i b).
      * replace (Z.to_nat (b - i + 1)) with (S (Z.to_nat (b - (i + 1) + 1))) by lia. reflexivity.
      * replace (Z.to_nat (b - i + 1)) with 0%nat by lia. replace (Z.to_nat (b - (i + 1) + 1)) with 0%nat by lia. apply substring_zero.
    + replace (Z.to_nat (a - i)) with (S (Z.to_nat (a - (i + 1)))) by lia. cbn [substring].
      replace (Z.max a (i + 1)) with (Z.max a i) by lia. reflexivity.
Qed.

Lemma reasonable_small s z : reasonable s -> 0 <= z <= size s + 1 -> small z.
Proof. unfold reasonable, size, small. lia. Qed.

Lemma usize_large s : reasonable s -> size s + 1 <= usize_max.
Proof. unfold reasonable, size, usize_max. lia. Qed.

Lemma bytes_at_substring s start stop : reasonable s -> a_number start -> a_number stop -> is_nan start = false ->
  bytes_at start stop s =
  select (fun j => (to_usize start <=? j) && (j <=? to_usize stop)) 1 s.
Proof.
  intros R Vs Ve N. apply select_ext. intros j Hj. pose proof (usize_large s R).
  change (SFltb start (of_int (j + 1))) with (lt start (of_int (j + 1))).
  rewrite lt_int, leb_int by (assumption || (eapply reasonable_small; [exact R|lia]) || lia). f_equal.
  destruct (Z.leb_spec (j + 1) (to_usize start)), (Z.leb_spec (to_usize start) j); lia || reflexivity.
Qed.

Lemma byte_slice_spec s start stop : reasonable s -> a_number start -> a_number stop ->
  SFleb (of_int 1) start = true -> is_nan stop = false -> byte_slice s start stop = Ok (bytes_at start stop s).
Proof.
  intros R Vs Ve L N. pose proof (usize_large s R) as U.
  assert (Ns : is_nan start = false) by (destruct start; try reflexivity; vm_compute in L; discriminate).
  assert (0 <= size s) by (unfold size; lia).
  rewrite leb_int in L by (assumption || (unfold small; lia) || lia). apply Z.leb_le in L.
  rewrite bytes_at_substring, select_range by assumption.
  unfold byte_slice.
  rewrite min_int by (assumption || (eapply reasonable_small; [exact R|lia]) || lia).
  set (a := to_usize start) in *. set (b := to_usize stop) in *.
  assert (G : forall m, (String.length s - Z.to_nat (a - 1) <= m)%nat -> substring (Z.to_nat (a - 1)) m s = substring (Z.to_nat (a - 1)) (String.length s - Z.to_nat (a - 1)) s).
  { generalize (Z.to_nat (a - 1)). clear. induction s as [|c s IH]; intros k m Hm; [destruct k, m; reflexivity|].
    destruct k as [|k]; cbn [substring String.length] in *.
    - destruct m as [|m]; [lia|]. cbn [Nat.sub]. f_equal. rewrite (IH 0%nat) by lia. f_equal. lia.
    - apply IH. lia. }
  assert (Z0 : forall k, (String.length s <= k)%nat -> forall m, substring k m s = "").
  { clear. induction s as [|c s IH]; intros k Hk m; [destruct k, m; reflexivity|].
    destruct k as [|k]; cbn [String.length] in Hk; [lia|]. cbn [substring]. apply IH. lia. }
  replace (Z.max a 1) with a by lia.
  destruct (Z.ltb_spec (Z.min b (size s)) a) as [H1|H1]; cbn [orb].
  { f_equal. symmetry. destruct (Z.le_gt_cases b (size s)).
    - replace (Z.to_nat (b - a + 1)) with 0%nat by lia. apply substring_none.
    - apply Z0. unfold size in *. lia. }
  destruct (Z.ltb_spec (size s) a) as [H2|H2]; [lia|]. cbn [orb]. destruct (Z.eqb_spec (Z.min b (size s)) 0); [lia|].
  unfold usize_sub. destruct (Z.leb_spec 1 a); [|lia]. cbn [bind]. unfold range.
  destruct (Z.leb_spec (a - 1) (Z.min b (size s))); [|lia]. destruct (Z.leb_spec (Z.min b (size s)) (size s)); [|lia]. cbn [andb]. f_equal.
  destruct (Z.le_gt_cases b (size s)).
  - f_equal; lia.
  - rewrite G by (unfold size in *; lia). symmetry. rewrite G by (unfold size in *; lia). reflexivity.
Qed.

(** ** Views *)
Definition shows (v : view) (t : string) : Prop := exists p q,
  v = View (p ++ t ++ q) (of_int (size p + 1)) (of_int (size p + size t)) /\ size p + size t + size q + 2 < 2 ^ 52.

Lemma size_app s t : size (s ++ t) = size s + size t.
Proof. unfold size. induction s as [|c s IH]; cbn [append String.length]; lia. Qed.
Lemma size_nonneg s : 0 <= size s.
Proof. unfold size. lia. Qed.

Lemma length_app s t : String.length (s ++ t) = (String.length s + String.length t)%nat.
Proof. induction s as [|c s IH]; cbn [append String.length]; lia. Qed.
Lemma substring_skip p s m : substring (String.length p) m (p ++ s) = substring 0 m s.
Proof. induction p as [|c p IH]; [reflexivity|exact IH]. Qed.
Lemma substring_take t q : substring 0 (String.length t) (t ++ q) = t.
Proof. induction t as [|c t IH]; cbn [append String.length substring]; [apply substring_zero|]. rewrite IH. reflexivity. Qed.
Lemma app_nil s : s ++ "" = s.
Proof. induction s as [|c s IH]; cbn; congruence. Qed.
Lemma app_assoc (a b c : string) : (a ++ b) ++ c = a ++ b ++ c.
Proof. induction a as [|x a IH]; cbn; congruence. Qed.

Lemma range_middle p t q : range (p ++ t ++ q) (size p) (size p + size t) = Ok t.
Proof.
  unfold range. rewrite !size_app. pose proof (size_nonneg p). pose proof (size_nonneg t). pose proof (size_nonneg q).
  destruct (Z.leb_spec (size p) (size p + size t)); [|lia]. destruct (Z.leb_spec (size p + size t) (size p + (size t + size q))); [|lia]. cbn [andb].
  f_equal. replace (Z.to_nat (size p)) with (String.length p) by (unfold size; lia). replace (Z.to_nat (size p + size t - size p)) with (String.length t) by (unfold size; lia).
  rewrite substring_skip. apply substring_take.
Qed.

Lemma usize_int z : 0 <= z < 2 ^ 52 -> to_usize (of_int z) = z.
Proof. intros H. unfold to_usize. rewrite cast_exact by (unfold small, usize_max; lia). unfold usize_max. lia. Qed.

Lemma shows_string v t : shows v t -> view_to_string v = Ok t.
Proof.
  intros (p & q & -> & B). pose proof (size_nonneg p). pose proof (size_nonneg t). pose proof (size_nonneg q).
  unfold view_to_string. cbn [v_start v_end v_value]. rewrite !usize_int by lia. unfold usize_sub.
  destruct (Z.leb_spec 1 (size p + 1)); [|lia]. cbn [bind]. replace (size p + 1 - 1) with (size p) by lia. apply range_middle.
Qed.

Lemma prefix_spec x t : prefix x t = String.eqb (substring 0 (Nat.min (String.length x) (String.length t)) t) x.
Proof.
  revert t. induction x as [|c x IH]; intros t.
  - destruct t; reflexivity.
  - destruct t as [|d t]; [reflexivity|]. cbn [prefix String.length Nat.min substring]. rewrite IH. cbn [String.eqb].
    destruct (ascii_dec c d) as [->|N]; [rewrite Ascii.eqb_refl; reflexivity|].
    destruct (Ascii.eqb_spec d c) as [->|_]; [elim N; reflexivity|reflexivity].
Qed.

Lemma split_string n t : (n <= String.length t)%nat -> exists x y, t = x ++ y /\ String.length x = n.
Proof.
  revert t. induction n as [|n IH]; intros t H; [exists "", t; split; reflexivity|].
  destruct t as [|c t]; cbn [String.length] in H; [lia|]. destruct (IH t) as (x & y & -> & L); [lia|].
  exists (String c x), y. cbn. split; congruence.
Qed.

Lemma shows_prefix v t x : shows v t -> view_starts_with v x = Ok (prefix x t).
Proof.
  intros (p & q & -> & B). pose proof (size_nonneg p). pose proof (size_nonneg t). pose proof (size_nonneg q).
  unfold view_starts_with. cbn [v_start v_end v_value]. rewrite !usize_int by lia. unfold usize_sub.
  destruct (Z.leb_spec 1 (size p + 1)); [|lia]. cbn [bind]. replace (size p + 1 - 1) with (size p) by lia.
  rewrite prefix_spec. destruct (split_string (Nat.min (String.length x) (String.length t)) t) as (a & b & -> & L); [lia|].
  rewrite <- L, substring_take. replace (Z.min (size p + size x) (size p + size (a ++ b))) with (size p + size a).
  - rewrite app_assoc, range_middle. reflexivity.
  - rewrite size_app in *. rewrite length_app in L. unfold size in *. lia.
Qed.

Lemma shows_length v t : shows v t -> view_length v = of_int (size t).
Proof.
  intros (p & q & -> & B). pose proof (size_nonneg p). pose proof (size_nonneg t). pose proof (size_nonneg q).
  unfold view_length. cbn [v_start v_end]. rewrite sub_exact by (unfold small; lia). rewrite add_exact by (unfold small; lia). f_equal. lia.
Qed.

Lemma shows_new s : reasonable s -> shows (view_new s) s.
Proof. intros R. exists "", "". split; [|unfold reasonable, size in *; cbn; lia]. cbn [append]. rewrite app_nil. reflexivity. Qed.

(** The bounds of a slice *)
Lemma min_exact a b : small a -> small b -> minimum (of_int a) (of_int b) = of_int (Z.min a b).
Proof.
  intros Sa Sb. unfold minimum. rewrite !of_int_nan, lt_exact by assumption. cbn [orb]. destruct (Z.ltb_spec a b); f_equal; lia.
Qed.
Lemma min_infinity b : small b -> minimum infinity (of_int b) = of_int b.
Proof.
  intros S. unfold minimum. rewrite of_int_nan by exact S. cbn [is_nan infinity orb]. destruct (Z.eq_dec b 0) as [->|N]; [reflexivity|].
  destruct (of_int_finite b S N) as (m & e & -> & _). reflexivity.
Qed.
Lemma infinity_moves a : small a -> sub (add (of_int a) infinity) (of_int 1) = infinity.
Proof. intros S. destruct (Z.eq_dec a 0) as [->|N]; [reflexivity|]. destruct (of_int_finite a S N) as (m & e & -> & _). reflexivity. Qed.

(** What a bound means: a position, which may be beyond all strings *)
Definition position (x : number) (n : Z) : Prop := x = of_int n /\ 0 <= n < 2 ^ 52 \/ x = infinity /\ 2 ^ 52 <= n.
Lemma bound_position l x : 0 <= l -> bound l x -> exists n, position x n /\ l <= n.
Proof.
  intros L [->|(n & -> & H)]; [exists (Z.max l (2 ^ 52)); split; [right; split; [reflexivity|lia]|lia]|].
  exists n. split; [left; split; [reflexivity|lia]|lia].
Qed.

Lemma position_min x n a b : position x n -> 1 <= a -> 0 <= b -> a < 2 ^ 52 -> b < 2 ^ 52 ->
  minimum (sub (add (of_int a) x) (of_int 1)) (of_int b) = of_int (Z.min (a + n - 1) b).
Proof.
  intros [(-> & N)|(-> & N)] A B A2 B2.
  - rewrite add_exact, sub_exact by (unfold small; lia). apply min_exact; unfold small; lia.
  - rewrite infinity_moves, min_infinity by (unfold small; lia). f_equal. lia.
Qed.

Lemma position_valid x n : position x n -> a_number x /\ is_nan x = false.
Proof.
  intros [(-> & N)|(-> & N)]; [|split; reflexivity]. split; [apply (of_int_valid n); unfold small; lia|apply of_int_nan; unfold small; lia].
Qed.
Lemma position_usize x n j : position x n -> 0 <= j < 2 ^ 52 -> (j <=? to_usize x) = (j <=? n) /\ (to_usize x <=? j) = (n <=? j).
Proof.
  intros [(-> & N)|(-> & N)] J; [rewrite usize_int by lia; split; reflexivity|]. cbn [to_usize cast infinity]. unfold to_usize, cast, infinity, usize_max.
  split; [destruct (Z.leb_spec j (2 ^ 64 - 1)), (Z.leb_spec j n)|destruct (Z.leb_spec (2 ^ 64 - 1) j), (Z.leb_spec n j)]; lia || reflexivity.
Qed.

Lemma select_middle a b t : 1 <= a -> 0 <= b -> exists x y z, t = x ++ y ++ z /\ select (fun j => (a <=? j) && (j <=? b)) 1 t = y /\
  size x = Z.min (a - 1) (Z.min b (size t)) /\ size x + size y = Z.min b (size t).
Proof.
  intros A B. pose proof (size_nonneg t) as T. set (b' := Z.min b (size t)).
  destruct (split_string (Z.to_nat b') t) as (l & z & -> & L); [unfold size in *; lia|].
  destruct (split_string (Z.to_nat (Z.min (a - 1) b')) l) as (x & y & -> & L'); [lia|].
  assert (Qb : b' = Z.min b (size x + size y + size z)) by (unfold b'; rewrite !size_app; reflexivity). clearbody b'.
  exists x, y, z. split; [apply app_assoc|]. rewrite length_app in L. rewrite !size_app in *. split; [|unfold size in *; rewrite ?length_app in *; lia].
  rewrite select_range. rewrite app_assoc. replace (Z.max a 1) with a by lia.
  pose proof (size_nonneg x). pose proof (size_nonneg y). pose proof (size_nonneg z).
  destruct (Z.le_gt_cases (a - 1) b') as [C|C].
  - replace (Z.to_nat (a - 1)) with (String.length x) by lia. rewrite substring_skip.
    destruct (Z.le_gt_cases b (size x + size y + size z)).
    + replace (Z.to_nat (b - a + 1)) with (String.length y) by (unfold size in *; lia). apply substring_take.
    + assert (z = "") as -> by (destruct z; [reflexivity|]; unfold size in *; cbn [String.length] in *; lia). rewrite app_nil.
      assert (G : forall y m, (String.length y <= m)%nat -> substring 0 m y = y).
      { clear. induction y as [|c y IH]; intros [|m] H; cbn [substring String.length] in *; try reflexivity; [lia|]. rewrite IH by lia. reflexivity. }
      apply G. unfold size in *. cbn [String.length] in *. lia.
  - assert (y = "") as -> by (destruct y; [reflexivity|]; cbn [String.length] in *; lia). cbn [append].
    destruct (Z.le_gt_cases b (size x + size "" + size z)).
    + replace (Z.to_nat (b - a + 1)) with 0%nat by lia. apply substring_none.
    + assert (G : forall s k m, (String.length s <= k)%nat -> substring k m s = "").
      { clear. induction s as [|c s IH]; intros [|k] m H; cbn [substring String.length] in *; try reflexivity; [destruct m; reflexivity|lia|apply IH; lia]. }
      apply G. rewrite length_app. unfold size in *. cbn [String.length] in *. lia.
Qed.

Lemma shows_slice v t start stop a b : shows v t -> position start a -> 1 <= a -> position stop b ->
  shows (view_slice v start stop) (select (fun j => (a <=? j) && (j <=? b)) 1 t).
Proof.
  intros (p & q & -> & B) Pa La Pb. pose proof (size_nonneg p). pose proof (size_nonneg t). pose proof (size_nonneg q).
  assert (0 <= b) by (destruct Pb; lia).
  destruct (select_middle a b t) as (x & y & z & -> & -> & X & Y); [lia|lia|]. rewrite !size_app in *.
  pose proof (size_nonneg x). pose proof (size_nonneg y). pose proof (size_nonneg z).
  unfold view_slice. cbn [v_start v_end v_value].
  rewrite (position_min stop b) by (assumption || lia). rewrite add_exact by (unfold small; lia). rewrite (position_min start a) by (assumption || lia).
  exists (p ++ x), (z ++ q). split; [|rewrite !size_app; lia]. rewrite !app_assoc. rewrite !size_app. f_equal; f_equal; lia.
Qed.

Lemma small_room v t : shows v t -> reasonable t.
Proof. intros (p & q & _ & B). unfold reasonable. pose proof (size_nonneg p). pose proof (size_nonneg q). unfold size in *. lia. Qed.

Lemma viewed_shows v t : viewed v t -> shows v t.
Proof.
  induction 1 as [s R|v t start stop _ IH Ba Bb|v t n _ IH Bn].
  - apply shows_new, R.
  - destruct (bound_position 1 start ltac:(lia) Ba) as (a & Pa & La). destruct (bound_position 0 stop ltac:(lia) Bb) as (b & Pb & Lb).
    destruct (position_valid _ _ Pa), (position_valid _ _ Pb). pose proof (small_room _ _ IH) as R.
    rewrite bytes_at_substring by assumption. erewrite select_ext; [eapply shows_slice; eassumption|].
    intros j Hj. cbv beta. unfold reasonable, size in *. rewrite (proj2 (position_usize start a j Pa ltac:(lia))), (proj1 (position_usize stop b j Pb ltac:(lia))). reflexivity.
  - destruct (bound_position 0 n ltac:(lia) Bn) as (a & Pa & La). pose proof (small_room _ _ IH) as R. unfold view_seek.
    assert (Pi : position infinity (2 ^ 52)) by (right; split; [reflexivity|lia]).
    destruct (position_valid _ _ Pa) as (Va & Na).
    destruct (Z.eq_dec a (2 ^ 52 - 1)) as [Qa|Qa].
    { (* 2^52 - 1 + 1 is no position, but it is beyond the string *)
      destruct Pa as [(-> & Ha)|(-> & Ha)]; [|lia]. rewrite add_exact by (unfold small; lia).
      assert (shows (view_slice v (of_int (a + 1)) infinity) "" ) as S.
      { destruct IH as (p & q & -> & B). pose proof (size_nonneg p). pose proof (size_nonneg t). pose proof (size_nonneg q).
        unfold view_slice. cbn [v_start v_end v_value]. rewrite (position_min infinity (2 ^ 52)) by (assumption || lia).
        rewrite !add_exact by (unfold small; lia). rewrite sub_exact by (unfold small; lia). rewrite min_exact by (unfold small; lia).
        exists (p ++ t), q. split; [|rewrite !size_app; cbn; lia]. rewrite app_assoc. cbn [append]. rewrite size_app. cbn [size String.length]. f_equal; f_equal; unfold size; cbn; unfold size in *; lia. }
      rewrite (select_ext _ (fun _ => false)).
      - replace (select (fun _ => false) 1 t) with ""; [exact S|]. clear. generalize 1. induction t as [|c t IH]; intros i; [reflexivity|]. apply IH.
      - intros j Hj. unfold reasonable, size in *. change (SFltb (of_int a) (of_int j)) with (lt (of_int a) (of_int j)). rewrite lt_exact by (unfold small; lia). apply Z.ltb_ge. lia. }
    assert (Pn : position (add n (of_int 1)) (a + 1)).
    { destruct Pa as [(-> & Ha)|(-> & Ha)]; [left; rewrite add_exact by (unfold small; lia); split; [reflexivity|lia]|right; split; [reflexivity|lia]]. }
    rewrite (select_ext _ (fun j => (a + 1 <=? j) && (j <=? 2 ^ 52))); [apply shows_slice; (assumption || lia)|].
    intros j Hj. unfold reasonable, size in *. change (SFltb n (of_int j)) with (lt n (of_int j)).
    rewrite lt_int by (assumption || unfold small, usize_max; lia). rewrite (proj1 (position_usize n a j Pa ltac:(lia))).
    destruct (Z.leb_spec j a), (Z.leb_spec (a + 1) j), (Z.leb_spec j (2 ^ 52)); lia || reflexivity.
Qed.
