From Coq Require Import String Ascii List ZArith Bool Lia ZifyBool.
From Coq Require Import Floats.SpecFloat.
From Verif Require Import Base Float FloatProofs PkgBytes PkgBytesSpec PkgBytesProofs Utf8 PkgUtf8 PkgUtf8Spec.
Import ListNotations.
Local Open Scope string_scope.
Local Open Scope Z_scope.

Definition chr (b : Z) : ascii := ascii_of_N (Z.to_N b).
Lemma byte_chr b : 0 <= b < 256 -> byte (chr b) = b.
Proof. intros H. unfold byte, chr. rewrite N_ascii_embedding by lia. lia. Qed.
Lemma chr_byte c : chr (byte c) = c.
Proof. unfold byte, chr. rewrite N2Z.id. apply ascii_N_embedding. Qed.
Lemma byte_range c : 0 <= byte c < 256.
Proof. unfold byte. pose proof (N_ascii_bounded c). lia. Qed.

Lemma digits c : 0 <= c -> exists q r, c / 64 = q /\ c mod 64 = r /\ c = 64 * q + r /\ 0 <= r < 64 /\ 0 <= q.
Proof.
  intros H. exists (c / 64), (c mod 64). pose proof (Z.div_mod c 64 ltac:(lia)). pose proof (Z.mod_pos_bound c 64 ltac:(lia)).
  pose proof (Z.div_pos c 64 H ltac:(lia)). repeat split; lia.
Qed.

(** The encoding by cases *)
Lemma encode_cases c : scalar c = true ->
  c < 128 /\ encode c = String (chr c) "" \/
  (exists q r, c = 64 * q + r /\ 0 <= r < 64 /\ 2 <= q < 32 /\ encode c = String (chr (192 + q)) (String (chr (128 + r)) "")) \/
  (exists p q r, c = 64 * (64 * p + q) + r /\ 0 <= r < 64 /\ 0 <= q < 64 /\ 0 <= p < 16 /\ 2048 <= c /\
     encode c = String (chr (224 + p)) (String (chr (128 + q)) (String (chr (128 + r)) ""))) \/
  (exists o p q r, c = 64 * (64 * (64 * o + p) + q) + r /\ 0 <= r < 64 /\ 0 <= q < 64 /\ 0 <= p < 64 /\ 0 <= o < 5 /\ 65536 <= c < 1114112 /\
     encode c = String (chr (240 + o)) (String (chr (128 + p)) (String (chr (128 + q)) (String (chr (128 + r)) "")))).
Proof.
  unfold scalar. intros H. assert (0 <= c < 1114112) by lia. unfold encode.
  destruct (Z.ltb_spec c 128); [left; split; [lia|reflexivity]|]. right.
  destruct (digits c) as (q & r & -> & -> & E & R & Q); [lia|].
  destruct (Z.ltb_spec c 2048); [left; exists q, r; repeat split; lia || reflexivity|]. right.
  destruct (digits q) as (p & q' & -> & -> & E' & R' & Q'); [lia|].
  destruct (Z.ltb_spec c 65536); [left; exists p, q', r; repeat split; lia || reflexivity|]. right.
  destruct (digits p) as (o & p' & -> & -> & E'' & R'' & Q''); [lia|]. exists o, p', q', r. repeat split; lia || reflexivity.
Qed.

Lemma chars_encode c s : scalar c = true -> chars (encode c ++ s) = option_map (cons (encode c)) (chars s).
Proof.
  intros H. pose proof H as S. unfold scalar in S.
  destruct (encode_cases c H) as [(L & ->)|[(q & r & E & R & Q & ->)|[(p & q & r & E & R & Q & P & L & ->)|(o & p & q & r & E & R & Q & P & O & L & ->)]]];
    cbn [append chars]; rewrite ?byte_chr by lia.
  - replace (c <? 128) with true by lia. reflexivity.
  - unfold continuation, between. rewrite !byte_chr by lia. replace (192 + q <? 128) with false by lia.
    replace ((194 <=? 192 + q) && (192 + q <=? 223) && ((128 <=? 128 + r) && (128 + r <=? 191))) with true by lia. reflexivity.
  - unfold three, continuation, between. rewrite !byte_chr by lia. replace (224 + p <? 128) with false by lia.
    match goal with |- (if ?b then _ else _) = _ => replace b with false by lia end.
    match goal with |- (if ?b then _ else _) = _ => replace b with true by lia end. reflexivity.
  - unfold three, four, continuation, between. rewrite !byte_chr by lia. replace (240 + o <? 128) with false by lia.
    match goal with |- (if ?b then _ else _) = _ => replace b with false by lia end.
    match goal with |- (if ?b then _ else _) = _ => replace b with false by lia end.
    match goal with |- (if ?b then _ else _) = _ => replace b with true by lia end. reflexivity.
Qed.

Lemma chars_text cs : characters_ok cs -> chars (text cs) = Some (map encode cs).
Proof.
  induction 1 as [|c cs H _ IH]; [reflexivity|]. cbn [text map]. rewrite chars_encode, IH by exact H. reflexivity.
Qed.

Lemma code_encode c : scalar c = true -> code (encode c) = c.
Proof.
  intros H. pose proof H as S. unfold scalar in S. unfold code.
  destruct (encode_cases c H) as [(L & ->)|[(q & r & E & R & Q & ->)|[(p & q & r & E & R & Q & P & L & ->)|(o & p & q & r & E & R & Q & P & O & L & ->)]]];
    cbn [list_ascii_of_string map]; rewrite !byte_chr by lia; lia.
Qed.

Ltac other_case := exfalso; lia.
Lemma encode_one a : byte a < 128 -> scalar (byte a) = true /\ encode (byte a) = String a "".
Proof.
  intros H. pose proof (byte_range a). assert (S : scalar (byte a) = true) by (unfold scalar; lia). split; [exact S|].
  destruct (encode_cases _ S) as [(L & ->)|[(q & r & E & R & Q & ->)|[(p & q & r & E & R & Q & P & L & ->)|(o & p & q & r & E & R & Q & P & O & L & ->)]]]; try other_case.
  rewrite chr_byte. reflexivity.
Qed.

Lemma encode_two a b : between 194 223 (byte a) && continuation b = true ->
  exists c, scalar c = true /\ encode c = String a (String b "").
Proof.
  unfold continuation, between. intros H. exists (64 * (byte a - 192) + (byte b - 128)).
  assert (S : scalar (64 * (byte a - 192) + (byte b - 128)) = true) by (unfold scalar; lia). split; [exact S|].
  destruct (encode_cases _ S) as [(L & ->)|[(q & r & E & R & Q & ->)|[(p & q & r & E & R & Q & P & L & ->)|(o & p & q & r & E & R & Q & P & O & L & ->)]]]; try other_case.
  replace (192 + q) with (byte a) by lia. replace (128 + r) with (byte b) by lia. rewrite !chr_byte. reflexivity.
Qed.

Lemma encode_three a b d : three a b && continuation d = true ->
  exists c, scalar c = true /\ encode c = String a (String b (String d "")).
Proof.
  unfold three, continuation, between. intros H. exists (64 * (64 * (byte a - 224) + (byte b - 128)) + (byte d - 128)).
  assert (S : scalar (64 * (64 * (byte a - 224) + (byte b - 128)) + (byte d - 128)) = true) by (unfold scalar; lia). split; [exact S|].
  destruct (encode_cases _ S) as [(L & ->)|[(q & r & E & R & Q & ->)|[(p & q & r & E & R & Q & P & L & ->)|(o & p & q & r & E & R & Q & P & O & L & ->)]]]; try other_case.
  assert (p = byte a - 224) by lia. assert (q = byte b - 128) by lia.
  replace (224 + p) with (byte a) by lia. replace (128 + q) with (byte b) by lia. replace (128 + r) with (byte d) by lia. rewrite !chr_byte. reflexivity.
Qed.

Lemma encode_four a b d e : four a b && continuation d && continuation e = true ->
  exists c, scalar c = true /\ encode c = String a (String b (String d (String e ""))).
Proof.
  unfold four, continuation, between. intros H. set (c := 64 * (64 * (64 * (byte a - 240) + (byte b - 128)) + (byte d - 128)) + (byte e - 128)). exists c.
  assert (S : scalar c = true) by (unfold scalar, c; lia). split; [exact S|].
  destruct (encode_cases _ S) as [(L & ->)|[(q & r & E & R & Q & ->)|[(p & q & r & E & R & Q & P & L & ->)|(o & p & q & r & E & R & Q & P & O & L & ->)]]]; unfold c in *; try other_case.
  assert (o = byte a - 240) by lia. assert (p = byte b - 128) by lia. assert (q = byte d - 128) by lia.
  replace (240 + o) with (byte a) by lia. replace (128 + p) with (byte b) by lia. replace (128 + q) with (byte d) by lia. replace (128 + r) with (byte e) by lia.
  rewrite !chr_byte. reflexivity.
Qed.

Lemma chars_sound_length n : forall s l, (String.length s <= n)%nat -> chars s = Some l -> exists cs, characters_ok cs /\ s = text cs.
Proof.
  induction n as [|n IH]; intros [|a s] l L H; try (exists []; split; [constructor|reflexivity]); cbn [String.length] in L; [lia|].
  assert (step : forall c t u, scalar c = true -> String a s = encode c ++ t -> (String.length t <= n)%nat -> option_map (cons u) (chars t) = Some l ->
    exists cs, characters_ok cs /\ String a s = text cs).
  { intros c t u Sc E Lt H'. destruct (chars t) eqn:C; [|discriminate]. destruct (IH t l0 Lt C) as (cs & O & ->). exists (c :: cs).
    split; [constructor; assumption|exact E]. }
  cbn [chars] in H. destruct (Z.ltb_spec (byte a) 128) as [B|_].
  { destruct (encode_one a B) as (Sc & E). eapply step; [exact Sc|rewrite E; reflexivity|lia|exact H]. }
  destruct s as [|b s]; [discriminate|]. destruct (between 194 223 (byte a) && continuation b) eqn:B2.
  { destruct (encode_two _ _ B2) as (c & Sc & E). cbn [String.length] in L. eapply step; [exact Sc|rewrite E; reflexivity|lia|exact H]. }
  destruct s as [|d s]; [discriminate|]. destruct (three a b && continuation d) eqn:B3.
  { destruct (encode_three _ _ _ B3) as (c & Sc & E). cbn [String.length] in L. eapply step; [exact Sc|rewrite E; reflexivity|lia|exact H]. }
  destruct s as [|e s]; [discriminate|]. destruct (four a b && continuation d && continuation e) eqn:B4; [|discriminate].
  destruct (encode_four _ _ _ _ B4) as (c & Sc & E). cbn [String.length] in L. eapply step; [exact Sc|rewrite E; reflexivity|lia|exact H].
Qed.
Lemma chars_sound s l : chars s = Some l -> exists cs, characters_ok cs /\ s = text cs /\ l = map encode cs.
Proof.
  intros H. destruct (chars_sound_length _ s l (le_n _) H) as (cs & O & ->). exists cs. split; [exact O|]. split; [reflexivity|].
  rewrite chars_text in H by exact O. congruence.
Qed.
Lemma encode_inj c d : scalar c = true -> scalar d = true -> encode c = encode d -> c = d.
Proof. intros C D E. rewrite <- (code_encode c C), <- (code_encode d D), E. reflexivity. Qed.
Lemma encodes_inj cs ds : characters_ok cs -> characters_ok ds -> map encode cs = map encode ds -> cs = ds.
Proof.
  intros C. revert ds. induction C as [|c cs Hc _ IH]; intros ds D H; destruct ds as [|d ds]; try discriminate; [reflexivity|].
  inversion D as [|? ? Hd Hds]. subst. injection H as H1 H2. f_equal; [apply encode_inj; assumption|apply IH; assumption].
Qed.
Lemma text_inj cs ds : characters_ok cs -> characters_ok ds -> text cs = text ds -> cs = ds.
Proof.
  intros C D H. apply encodes_inj; try assumption. pose proof (chars_text cs C) as E. rewrite H, chars_text in E by exact D. congruence.
Qed.
Lemma text_app cs ds : text (cs ++ ds)%list = text cs ++ text ds.
Proof. induction cs as [|c cs IH]; [reflexivity|]. cbn. rewrite IH, app_assoc. reflexivity. Qed.

(** The bytes of a character: one that begins it, and others. *)
Lemma encode_bytes c : scalar c = true -> exists a t, encode c = String a t /\ continuation a = false /\ Forall (fun b => continuation b = true) (list_ascii_of_string t).
Proof.
  intros H. pose proof H as S. unfold scalar in S.
  destruct (encode_cases c H) as [(L & ->)|[(q & r & E & R & Q & ->)|[(p & q & r & E & R & Q & P & L & ->)|(o & p & q & r & E & R & Q & P & O & L & ->)]]];
    eexists; eexists; (split; [reflexivity|]); cbn [list_ascii_of_string]; unfold continuation, between; rewrite ?byte_chr by lia;
    (split; [lia|]); repeat constructor; rewrite ?byte_chr by lia; lia.
Qed.

(** *** Picking elements *)
Lemma pick_app {A} P (x y : list A) : forall i, pick P i (x ++ y) = (pick P i x ++ pick P (i + Z.of_nat (List.length x)) y)%list.
Proof.
  induction x as [|a x IH]; intros i; cbn [app pick List.length].
  - f_equal. lia.
  - rewrite IH. replace (i + 1 + Z.of_nat (List.length x)) with (i + Z.of_nat (S (List.length x))) by lia. destruct (P i); reflexivity.
Qed.
Lemma pick_all {A} P (l : list A) : forall i, (forall j, i <= j < i + Z.of_nat (List.length l) -> P j = true) -> pick P i l = l.
Proof.
  induction l as [|a l IH]; intros i H; [reflexivity|]. cbn [pick List.length] in *. rewrite H by lia. f_equal. apply IH. intros j Hj. apply H. lia.
Qed.
Lemma pick_none {A} P (l : list A) : forall i, (forall j, i <= j < i + Z.of_nat (List.length l) -> P j = false) -> pick P i l = [].
Proof.
  induction l as [|a l IH]; intros i H; [reflexivity|]. cbn [pick List.length] in *. rewrite H by lia. apply IH. intros j Hj. apply H. lia.
Qed.

Lemma encode_size c : scalar c = true -> 1 <= size (encode c).
Proof. intros H. destruct (encode_bytes c H) as (a & t & -> & _). unfold size. cbn [String.length]. lia. Qed.
Lemma text_length cs : characters_ok cs -> Z.of_nat (List.length cs) <= size (text cs).
Proof.
  induction 1 as [|c cs H _ IH]; [unfold size; cbn; lia|]. cbn [text List.length]. rewrite size_app. pose proof (encode_size c H). lia.
Qed.

Lemma byte_index_take cs : forall i, 0 <= i -> byte_index (map encode cs) i = size (text (firstn (Z.to_nat i) cs)).
Proof.
  induction cs as [|c cs IH]; intros i H; cbn [map byte_index]; [rewrite firstn_nil; reflexivity|].
  destruct (Z.eqb_spec i 0) as [->|N]; [reflexivity|]. rewrite IH by lia.
  replace (Z.to_nat i) with (S (Z.to_nat (i - 1))) by lia. cbn [firstn text]. rewrite size_app. reflexivity.
Qed.

(** What the bounds mean *)
Lemma max_zero n : - 2 ^ 52 < n < 2 ^ 52 -> rust_max (of_int n) (of_int 0) = of_int (Z.max n 0).
Proof.
  intros H. unfold rust_max. rewrite !of_int_nan, lt_exact by (unfold small; lia). destruct (Z.ltb_spec n 0); f_equal; lia.
Qed.
Lemma usize_negative n : small n -> n < 0 -> to_usize (of_int n) = 0.
Proof.
  intros S N. unfold to_usize. rewrite cast_exact by (exact S || (unfold usize_max; lia)). unfold usize_max. lia.
Qed.
Lemma start_bound x : whole x -> exists a, to_usize (rust_max (sub x (of_int 1)) (of_int 0)) = a /\ 0 <= a /\
  forall j, 1 <= j < 2 ^ 52 -> SFltb x (of_int (j + 1)) = (a <=? j - 1).
Proof.
  intros [->|[->|(n & -> & N)]]; eexists; (split; [reflexivity|]).
  - split; [vm_compute; discriminate|]. intros j J. destruct (of_int_finite (j + 1)) as (m & e & -> & _); [unfold small; lia|lia|].
    change (to_usize (rust_max (sub (S754_infinity false) (of_int 1)) (of_int 0))) with usize_max. unfold usize_max.
    replace (2 ^ 64 - 1 <=? j - 1) with false by lia. destruct (j + 1 <? 0); reflexivity.
  - split; [vm_compute; discriminate|]. intros j J. destruct (of_int_finite (j + 1)) as (m & e & -> & _); [unfold small; lia|lia|].
    change (to_usize (rust_max (sub (S754_infinity true) (of_int 1)) (of_int 0))) with 0.
    replace (0 <=? j - 1) with true by lia. destruct (j + 1 <? 0); reflexivity.
  - rewrite sub_exact by (unfold small; lia). destruct (Z.eq_dec n (1 - 2 ^ 52)) as [E|NE].
    { rewrite E. split; [vm_compute; discriminate|]. intros j J. rewrite (lt_exact (1 - 2 ^ 52)) by (unfold small; lia).
      change (to_usize (rust_max (of_int (1 - 2 ^ 52 - 1)) (of_int 0))) with 0. lia. }
    rewrite max_zero by lia. rewrite usize_int by lia. split; [lia|]. intros j J. rewrite (lt_exact n) by (unfold small; lia). lia.
Qed.
Lemma min_usize x : valid x -> is_nan x = false -> to_usize (rust_min x (of_int usize_max)) = to_usize x.
Proof.
  intros V N. unfold rust_min. rewrite N. change (is_nan (of_int usize_max)) with false. cbn iota.
  destruct (lt (of_int usize_max) x) eqn:L; [|reflexivity]. replace (to_usize (of_int usize_max)) with usize_max by (vm_compute; reflexivity).
  destruct x as [s|[]| |s m e]; try (vm_compute in L; discriminate); [reflexivity|].
  unfold lt, SFltb in L. rewrite compare_valid in L by (assumption || reflexivity).
  replace (scaled (of_int usize_max)) with (2 ^ 64 * 2 ^ unit_) in L by (vm_compute; reflexivity).
  pose proof (truncate_spec m e V) as T. cbn [scaled] in L. pose proof (scaled_pos m e V). pose proof unit_pos.
  destruct s; cbn [cond_Zopp] in L; [destruct (Z.compare_spec (2 ^ 64 * 2 ^ unit_) (- (Zpos m * 2 ^ (e + unit_)))); try discriminate; nia|].
  destruct (Z.compare_spec (2 ^ 64 * 2 ^ unit_) (Zpos m * 2 ^ (e + unit_))) as [C|C|C]; try discriminate.
  assert (2 ^ 64 <= truncate m e) by (apply T; lia). unfold to_usize, cast, usize_max. lia.
Qed.
Lemma stop_bound x : valid x -> is_nan x = false -> exists b, to_usize (rust_min x (of_int usize_max)) = b /\ 0 <= b /\
  forall j, 1 <= j < 2 ^ 52 -> SFleb (of_int j) x = (j <=? b).
Proof.
  intros V N. eexists. split; [reflexivity|]. rewrite min_usize by assumption. split.
  - unfold to_usize, cast, usize_max. destruct x as [s|[]| |[] m e]; try lia. apply Z.min_glb; [|lia]. apply truncate_spec; [exact V|lia].
  - intros j J. apply leb_int; [exact V|unfold small; lia|lia|unfold usize_max; lia].
Qed.

Lemma utf8_slice_spec cs start stop : characters_ok cs -> reasonable (text cs) -> whole start -> a_number stop -> is_nan stop = false ->
  utf8_slice (text cs) start stop = Ok (text (characters_at start stop cs)).
Proof.
  intros C R W A N. destruct (start_bound start W) as (a & Ea & Pa & Ha). destruct (stop_bound stop A N) as (b & Eb & Pb & Hb).
  unfold utf8_slice. rewrite chars_text by exact C. rewrite Ea, Eb. unfold count. rewrite map_length. unfold characters_at.
  pose proof (text_length cs C) as L. unfold reasonable in R. fold (size (text cs)) in R.
  assert (H : forall j, 1 <= j < 1 + Z.of_nat (List.length cs) ->
    SFltb start (of_int (j + 1)) && SFleb (of_int j) stop = (a <=? j - 1) && (j <=? b)) by (intros j J; rewrite Ha, Hb by lia; reflexivity).
  destruct ((size (text cs) =? 0) || (Z.of_nat (List.length cs) <=? a) || (b <=? a)) eqn:Q.
  - rewrite pick_none; [reflexivity|]. intros j J. rewrite H by exact J. lia.
  - rewrite !byte_index_take by lia.
    set (x := firstn (Z.to_nat a) cs). set (y := firstn (Z.to_nat b - Z.to_nat a) (skipn (Z.to_nat a) cs)). set (z := skipn (Z.to_nat b - Z.to_nat a) (skipn (Z.to_nat a) cs)).
    assert (Lx : List.length x = Z.to_nat a) by (unfold x; rewrite firstn_length; lia).
    assert (E : cs = (x ++ y ++ z)%list) by (unfold x, y, z; rewrite !firstn_skipn; reflexivity).
    assert (Ly : (List.length y <= Z.to_nat b - Z.to_nat a)%nat) by (unfold y; rewrite firstn_length; lia).
    assert (Lz : z <> [] -> List.length y = (Z.to_nat b - Z.to_nat a)%nat).
    { intros NZ. unfold y. rewrite firstn_length. destruct (Nat.min_spec (Z.to_nat b - Z.to_nat a) (List.length (skipn (Z.to_nat a) cs))) as [(_ & ->)|(M & ->)]; [reflexivity|].
      exfalso. apply NZ. unfold z. apply skipn_all2. lia. }
    assert (Eb' : firstn (Z.to_nat b) cs = (x ++ y)%list).
    { unfold x, y. rewrite <- (firstn_skipn (Z.to_nat a) cs) at 1. rewrite firstn_app, firstn_length.
      replace (Nat.min (Z.to_nat a) (List.length cs)) with (Z.to_nat a) by lia. f_equal. rewrite firstn_firstn. f_equal. lia. }
    rewrite Eb'. clearbody x y z. subst cs. rewrite !text_app, size_app, range_middle. f_equal. f_equal.
    rewrite !pick_app, (pick_none _ x), (pick_all _ y), (pick_none _ z); [rewrite app_nil_r; reflexivity|..]; intros j J; rewrite H by (rewrite !app_length; lia); try lia.
    destruct z as [|? z]; [cbn in J; lia|]. specialize (Lz ltac:(discriminate)). lia.
Qed.

(** *** Searching *)
Lemma prefix_exists p s : prefix p s = true <-> exists u, s = p ++ u.
Proof.
  revert s. induction p as [|c p IH]; intros s; [split; [exists s; reflexivity|destruct s; reflexivity]|].
  destruct s as [|d s]; cbn [prefix]; [split; [discriminate|intros (u & E); discriminate]|].
  destruct (ascii_dec c d) as [->|N].
  - rewrite IH. split; intros (u & E); exists u; cbn in *; congruence.
  - split; [discriminate|]. intros (u & E). cbn in E. congruence.
Qed.

Lemma chars_texts ps u : characters_ok ps -> chars (text ps ++ u) = option_map (app (map encode ps)) (chars u).
Proof.
  induction 1 as [|p ps H _ IH]; cbn [text map app]; [change ("" ++ u) with u; destruct (chars u); reflexivity|].
  rewrite app_assoc, chars_encode, IH by exact H. destruct (chars u); reflexivity.
Qed.
Lemma text_prefix cs ps u : characters_ok cs -> characters_ok ps -> text cs = text ps ++ u -> exists y, characters_ok y /\ u = text y /\ cs = (ps ++ y)%list.
Proof.
  intros C P E. pose proof (chars_text cs C) as H. rewrite E, chars_texts in H by exact P.
  destruct (chars u) as [l|] eqn:U; [|discriminate]. apply chars_sound in U as (y & Y & -> & _). exists y. split; [exact Y|]. split; [reflexivity|].
  apply text_inj; [exact C|apply Forall_app; split; assumption|]. rewrite text_app. exact E.
Qed.

(** A text can only stand where a character begins. *)
Lemma app_split (a b c d : string) : a ++ b = c ++ d -> (exists t, c = a ++ t /\ b = t ++ d) \/ (exists t, t <> "" /\ a = c ++ t /\ d = t ++ b).
Proof.
  revert c. induction a as [|x a IH]; intros c E; cbn in E; [left; exists c; split; [reflexivity|exact E]|].
  destruct c as [|y c]; cbn in E.
  - right. exists (String x a). split; [discriminate|]. split; [reflexivity|]. symmetry. exact E.
  - injection E as -> E. destruct (IH c E) as [(t & -> & ->)|(t & N & -> & ->)]; [left|right]; exists t; auto.
Qed.
Lemma text_sync ps w : characters_ok ps -> ps <> [] -> forall cs u, characters_ok cs -> text cs = u ++ text ps ++ w ->
  exists x, characters_ok x /\ u = text x.
Proof.
  intros P N cs u C. revert u. induction C as [|c cs Hc C IH]; intros u E.
  - destruct u; [exists []; split; [constructor|reflexivity]|discriminate].
  - cbn [text] in E. destruct (app_split _ _ _ _ E) as [(t & -> & E')|(t & NE & Ec & E')].
    + destruct (IH t E') as (x & X & ->). exists (c :: x). split; [constructor; assumption|reflexivity].
    + destruct u as [|a u]; [exists []; split; [constructor|reflexivity]|]. exfalso.
      destruct ps as [|p ps]; [congruence|]. inversion P as [|? ? Hp _]. subst.
      destruct (encode_bytes c Hc) as (b & t' & Eb & _ & F). rewrite Eb in Ec. injection Ec as _ ->.
      destruct (encode_bytes p Hp) as (d & t'' & Ed & Fd & _). cbn [text] in E'. rewrite Ed in E'.
      destruct t as [|e t]; [congruence|]. cbn in E'. injection E' as -> _.
      assert (F' : forall v, Forall (fun b => continuation b = true) (list_ascii_of_string (v ++ String e t)) -> continuation e = true).
      { induction v as [|x v IHv]; cbn; intros H; inversion H; auto. }
      specialize (F' _ F). congruence.
Qed.

Lemma find_bytes_eq s p : find_bytes s p = if prefix p s then Some 0 else match s with "" => None | String _ s => option_map Z.succ (find_bytes s p) end.
Proof. destruct s; reflexivity. Qed.
Lemma find_bytes_spec p s : match find_bytes s p with
  | Some k => exists u w, s = u ++ p ++ w /\ k = size u /\ forall u' w', s = u' ++ p ++ w' -> size u <= size u'
  | None => forall u w, s <> u ++ p ++ w end.
Proof.
  induction s as [|c s IH]; rewrite find_bytes_eq; destruct (prefix p _) eqn:E.
  - apply prefix_exists in E as (w & E). exists "", w. split; [exact E|]. split; [reflexivity|]. intros u' w' _. apply size_nonneg.
  - intros u w H. symmetry in H. destruct u; [|discriminate]. assert (prefix p "" = true) by (apply prefix_exists; exists w; auto). congruence.
  - apply prefix_exists in E as (w & E). exists "", w. split; [exact E|]. split; [reflexivity|]. intros u' w' _. apply size_nonneg.
  - assert (no : forall w, String c s <> p ++ w) by (intros w H; assert (prefix p (String c s) = true) by (apply prefix_exists; exists w; exact H); congruence).
    destruct (find_bytes s p) as [k|]; cbn [option_map].
    + destruct IH as (u & w & -> & -> & M). exists (String c u), w. split; [reflexivity|]. split; [unfold size; cbn [String.length]; lia|].
      intros u' w' H. destruct u' as [|d u']; [destruct (no _ H)|]. injection H as -> H. specialize (M _ _ H). unfold size in *. cbn [String.length]. lia.
    + intros u w H. destruct u as [|d u]; [destruct (no _ H)|]. injection H as -> H. destruct (IH _ _ H).
Qed.

Lemma occurs_bytes cs ps : characters_ok cs -> characters_ok ps -> ps <> [] -> forall u w, text cs = u ++ text ps ++ w ->
  exists x y, cs = (x ++ ps ++ y)%list /\ u = text x.
Proof.
  intros C P N u w E. destruct (text_sync ps w P N cs u C E) as (x & X & ->).
  destruct (text_prefix cs x _ C X E) as (r & R & E' & ->). symmetry in E'. destruct (text_prefix r ps w R P E') as (y & _ & _ & ->).
  exists x, y. split; reflexivity.
Qed.

Lemma character_at_spec x : characters_ok x -> forall y i at_, y <> [] ->
  character_at (map encode (x ++ y)) i at_ (at_ + size (text x)) = Some (i + Z.of_nat (List.length x)).
Proof.
  induction 1 as [|c x H X IH]; intros y i at_ N; cbn [app map character_at text List.length].
  - destruct y as [|d y]; [congruence|]. cbn [map character_at]. change (size "") with 0. rewrite Z.add_0_r, Z.eqb_refl. f_equal. lia.
  - rewrite size_app. pose proof (encode_size c H). pose proof (size_nonneg (text x)). destruct (Z.eqb_spec at_ (at_ + (size (encode c) + size (text x)))); [lia|].
    replace (at_ + (size (encode c) + size (text x))) with (at_ + size (encode c) + size (text x)) by lia. rewrite IH by exact N. f_equal. lia.
Qed.

Lemma text_shorter (x y x' y' : list Z) : characters_ok (x ++ y) -> (x ++ y)%list = (x' ++ y')%list -> size (text x) <= size (text x') -> (List.length x <= List.length x')%nat.
Proof.
  revert x'. induction x as [|c x IH]; intros x' C E H; cbn [List.length]; [lia|]. inversion C as [|? ? Hc C']. subst.
  destruct x' as [|c' x'].
  - cbn [text] in H. rewrite size_app in H. pose proof (encode_size c Hc). pose proof (size_nonneg (text x)). unfold size in H at 3. cbn in H. lia.
  - cbn [app] in E. injection E as -> E. cbn [text List.length] in *. rewrite !size_app in H. specialize (IH x' C' E). lia.
Qed.

Lemma find_index_spec cs ps : characters_ok cs -> characters_ok ps -> cs <> [] \/ ps <> [] ->
  match find_index (text cs) (text ps) with
  | Some i => exists n, i = Z.of_nat n /\ first_occurs ps cs n
  | None => forall n, ~ occurs ps cs n
  end.
Proof.
  intros C P N. unfold find_index. rewrite !chars_text by assumption. destruct ps as [|p ps].
  - destruct N as [N|N]; [|congruence]. destruct cs as [|c cs]; [congruence|]. replace (find_bytes (text (c :: cs)) (text [])) with (Some 0) by (destruct (text (c :: cs)); reflexivity).
    cbn [map character_at]. rewrite Z.eqb_refl. exists 0%nat. split; [reflexivity|]. split; [exists [], (c :: cs); split; reflexivity|]. intros; lia.
  - assert (NE : p :: ps <> []) by discriminate. pose proof (find_bytes_spec (text (p :: ps)) (text cs)) as F.
    destruct (find_bytes (text cs) (text (p :: ps))) as [k|].
    + destruct F as (u & w & E & -> & M). destruct (occurs_bytes cs (p :: ps) C P NE u w E) as (x & y & Ec & ->).
      assert (X : characters_ok x) by (rewrite Ec in C; apply Forall_app in C as (X & _); exact X).
      rewrite Ec. rewrite <- (Z.add_0_l (size (text x))), character_at_spec by (exact X || discriminate). exists (List.length x). split; [lia|].
      split; [exists x, y; split; reflexivity|]. intros m (x' & y' & E' & ->). rewrite Ec in C, M. eapply text_shorter; [exact C|exact E'|].
      apply (M _ (text y')). rewrite E', !text_app. reflexivity.
    + intros n (x & y & -> & _). apply (F (text x) (text y)). rewrite !text_app. reflexivity.
Qed.

Lemma utf8_find_spec cs ps : characters_ok cs -> characters_ok ps -> reasonable (text cs) -> cs <> [] \/ ps <> [] ->
  (forall n, first_occurs ps cs n -> utf8_find (text cs) (text ps) = Some (of_int (Z.of_nat n + 1))) /\
  ((forall n, ~ occurs ps cs n) -> utf8_find (text cs) (text ps) = None).
Proof.
  intros C P R N. pose proof (find_index_spec cs ps C P N) as F. unfold utf8_find. destruct (find_index (text cs) (text ps)) as [i|].
  - destruct F as (n & -> & O & M). split; [|intros H; destruct (H n O)]. intros m (O' & M'). assert (m = n) by (specialize (M m O'); specialize (M' n O); lia). subst m.
    destruct O as (x & y & E & Ln). pose proof (text_length cs C) as L. unfold reasonable in R. fold (size (text cs)) in R.
    assert (Z.of_nat n <= Z.of_nat (List.length cs)) by (rewrite E, Ln, !app_length; lia).
    rewrite lt_exact by (unfold small; lia). replace (Z.of_nat n + 1 <? 0) with false by lia. reflexivity.
  - split; [intros n (O & _); destruct (F n O)|]. intros _. reflexivity.
Qed.

Lemma starts_with_spec cs ps : characters_ok cs -> characters_ok ps ->
  utf8_starts_with (text cs) (text ps) = true <-> exists y, cs = (ps ++ y)%list.
Proof.
  intros C P. unfold utf8_starts_with, both_valid. rewrite !chars_text by assumption. cbn [andb]. rewrite prefix_exists. split.
  - intros (u & E). destruct (text_prefix cs ps u C P E) as (y & _ & _ & ->). exists y. reflexivity.
  - intros (y & ->). exists (text y). apply text_app.
Qed.
Lemma contains_spec cs ps : characters_ok cs -> characters_ok ps ->
  utf8_contains (text cs) (text ps) = true <-> exists n, occurs ps cs n.
Proof.
  intros C P. unfold utf8_contains, both_valid. rewrite !chars_text by assumption. cbn [andb].
  pose proof (find_bytes_spec (text ps) (text cs)) as F. destruct (find_bytes (text cs) (text ps)) as [k|].
  - split; [|reflexivity]. intros _. destruct ps as [|p ps]; [exists 0%nat, [], cs; split; reflexivity|].
    destruct F as (u & w & E & _). destruct (occurs_bytes cs (p :: ps) C P ltac:(discriminate) u w E) as (x & y & -> & _). exists (List.length x), x, y. split; reflexivity.
  - split; [discriminate|]. intros (n & x & y & -> & _). destruct (F (text x) (text y)). rewrite !text_app. reflexivity.
Qed.
Lemma substring_suffix u t : substring (String.length u) (String.length t) (u ++ t) = t.
Proof. rewrite substring_skip. rewrite <- (app_nil t) at 2. apply substring_take. Qed.
Lemma take_all n s : (String.length s <= n)%nat -> substring 0 n s = s.
Proof. revert s. induction n as [|n IH]; intros [|c s] L; cbn in *; try reflexivity; [lia|]. rewrite IH by lia. reflexivity. Qed.
Lemma drop_split n s : (n <= String.length s)%nat -> exists u, s = u ++ substring n (String.length s - n) s /\ String.length u = n.
Proof.
  revert s. induction n as [|n IH]; intros s L; [exists ""; split; [|reflexivity]; cbn; symmetry; apply take_all; lia|].
  destruct s as [|c s]; cbn [String.length] in *; [lia|]. destruct (IH s) as (u & E & Lu); [lia|]. exists (String c u). split; [|cbn; lia].
  cbn [append substring]. f_equal. exact E.
Qed.
Lemma ends_with_spec cs ps : characters_ok cs -> characters_ok ps ->
  utf8_ends_with (text cs) (text ps) = true <-> exists x, cs = (x ++ ps)%list.
Proof.
  intros C P. unfold utf8_ends_with, both_valid. rewrite !chars_text by assumption. cbn [andb]. rewrite andb_true_iff, String.eqb_eq. split.
  - intros (L & E). unfold size in L. destruct (drop_split (String.length (text cs) - String.length (text ps)) (text cs)) as (u & Eu & _); [lia|].
    replace (String.length (text cs) - (String.length (text cs) - String.length (text ps)))%nat with (String.length (text ps)) in Eu by lia.
    rewrite E in Eu. destruct ps as [|p ps]; [exists cs; rewrite app_nil_r; reflexivity|].
    destruct (occurs_bytes cs (p :: ps) C P ltac:(discriminate) u "") as (x & y & Ec & ->); [rewrite app_nil; exact Eu|].
    assert (text y = "").
    { rewrite Ec, !text_app in Eu. assert (T : size (text x) + (size (text (p :: ps)) + size (text y)) = size (text x) + size (text (p :: ps))) by (rewrite <- !size_app; f_equal; exact Eu).
      destruct (text y); [reflexivity|]. unfold size in T. cbn [String.length] in T. lia. }
    exists x. destruct y as [|c y]; [rewrite Ec, app_nil_r; reflexivity|]. cbn [text] in H. rewrite Ec in C. apply Forall_app in C as (_ & C). apply Forall_app in C as (_ & C). inversion C as [|? ? Hc _]. subst.
    destruct (encode_bytes c Hc) as (a & t & Ea & _). rewrite Ea in H. discriminate.
  - intros (x & ->). rewrite text_app, size_app, length_app. split; [pose proof (size_nonneg (text x)); lia|].
    replace (String.length (text x) + String.length (text ps) - String.length (text ps))%nat with (String.length (text x)) by lia. apply substring_suffix.
Qed.

(** *** Splitting *)
Fixpoint drop (n : nat) (s : string) : string :=
  match n, s with
  | S n, String _ s => drop n s
  | _, _ => s
  end.
Lemma drop_app p s : drop (String.length p) (p ++ s) = s.
Proof. induction p as [|c p IH]; [destruct s; reflexivity|exact IH]. Qed.
Lemma split_not_nil p : forall s skip part, split_bytes p skip part s <> [].
Proof. induction s as [|c s IH]; intros skip part; cbn [split_bytes]; [discriminate|]. destruct skip; [destruct (prefix p _); [discriminate|]|]; apply IH. Qed.
Lemma join_cons x l p : l <> [] -> join (x :: l) p = x ++ p ++ join l p.
Proof. destruct l; [congruence|reflexivity]. Qed.
Lemma split_join p : p <> "" -> forall s skip part, (skip <= String.length s)%nat -> join (split_bytes p skip part s) p = part ++ drop skip s.
Proof.
  intros N. induction s as [|c s IH]; intros skip part L; cbn [split_bytes String.length] in *.
  - destruct skip; [|lia]. cbn. symmetry. apply app_nil.
  - destruct skip as [|skip]; [|cbn [drop]; apply IH; lia]. destruct (prefix p (String c s)) eqn:E.
    + apply prefix_exists in E as (u & E). destruct p as [|d p]; [congruence|]. cbn in E. injection E as -> ->.
      rewrite join_cons by apply split_not_nil. cbn [String.length]. rewrite IH by (rewrite length_app; lia).
      replace (S (String.length p) - 1)%nat with (String.length p) by lia. rewrite drop_app. reflexivity.
    + rewrite IH by lia. rewrite app_assoc. destruct s; reflexivity.
Qed.
Lemma split_parts p : p <> "" -> forall s skip part, (forall x y, x <> part -> String.length x <= String.length part -> part ++ drop skip s <> x ++ p ++ y)%nat ->
  forall q, In q (split_bytes p skip part s) -> forall x y, q <> x ++ p ++ y.
Proof.
  intros N.
  assert (closed : forall part rest, (forall x y, x <> part -> String.length x <= String.length part -> part ++ rest <> x ++ p ++ y)%nat -> forall x y, part <> x ++ p ++ y).
  { intros part rest H x y E. apply (H x (y ++ rest)).
    - intros ->. apply (f_equal String.length) in E. rewrite !length_app in E. destruct p; [congruence|]. cbn in E. lia.
    - rewrite E, !length_app. lia.
    - rewrite E, !app_assoc. reflexivity. }
  induction s as [|c s IH]; intros skip part H q I; cbn [split_bytes] in I.
  - destruct I as [<-|[]]. eapply closed. exact H.
  - destruct skip as [|skip]; [|exact (IH skip part H q I)]. cbn [drop] in H. destruct (prefix p (String c s)) eqn:E.
    + destruct I as [<-|I]; [eapply closed; exact H|]. refine (IH _ "" _ q I). intros x y NE L. destruct x; [congruence|cbn in L; lia].
    + refine (IH 0%nat (part ++ String c "") _ q I). intros x y NE L E'.
      assert (D : drop 0 s = s) by (destruct s; reflexivity). rewrite D in E'. rewrite app_assoc in E'. cbn [append] in E'.
      destruct (string_dec x part) as [->|NX].
      * assert (E2 : String c s = p ++ y).
        { clear -E'. induction part as [|a part IHp]; cbn in E'; [exact E'|]. injection E' as E'. exact (IHp E'). }
        assert (prefix p (String c s) = true) by (apply prefix_exists; exists y; exact E2). congruence.
      * apply (H x y NX); [|exact E']. rewrite length_app in L. cbn [String.length] in L.
        destruct (Nat.eq_dec (String.length x) (String.length part + 1)) as [Lx|]; [|lia]. exfalso. apply NE.
        assert (E3 : part ++ String c s = (part ++ String c "") ++ s) by (rewrite app_assoc; reflexivity). rewrite E3 in E'.
        assert (Lx' : String.length x = String.length (part ++ String c "")) by (rewrite length_app; exact Lx).
        rewrite <- (substring_take x (p ++ y)), <- E', Lx'. rewrite substring_take. reflexivity.
Qed.

Lemma join_texts cs : join (map encode cs ++ [""]) "" = text cs.
Proof.
  induction cs as [|c cs IH]; [reflexivity|]. cbn [map app text]. rewrite join_cons by (destruct cs; discriminate). rewrite IH. reflexivity.
Qed.
Lemma utf8_split_join s p : join (utf8_split s p) p = s.
Proof.
  unfold utf8_split. destruct (chars s) as [l|] eqn:S; [|reflexivity]. destruct (chars p) as [[|x k]|] eqn:P; [| |reflexivity].
  - apply chars_sound in S as (cs & C & -> & ->). apply chars_sound in P as (ps & _ & -> & E). destruct ps; [|discriminate]. cbn [text app].
    rewrite join_cons by (destruct cs; discriminate). cbn [append]. apply join_texts.
  - rewrite split_join; [destruct s; reflexivity| |lia]. intros ->. discriminate.
Qed.
Lemma utf8_split_parts cs ps q : characters_ok cs -> characters_ok ps -> ps <> [] -> In q (utf8_split (text cs) (text ps)) -> forall x y, q <> x ++ text ps ++ y.
Proof.
  intros C P N I. unfold utf8_split in I. rewrite !chars_text in I by assumption. destruct ps as [|p ps]; [congruence|]. cbn [map] in I.
  eapply split_parts; [|..|exact I].
  - inversion P as [|? ? Hp _]. subst. destruct (encode_bytes p Hp) as (a & t & E & _). cbn [text]. rewrite E. discriminate.
  - intros x y NE L. destruct x; [congruence|cbn in L; lia].
Qed.

(** *** Code points *)
Lemma cast_code c : scalar c = true -> cast (2 ^ 32 - 1) (of_int c) = c.
Proof. unfold scalar. intros H. rewrite cast_exact by (unfold small; lia). lia. Qed.
Lemma code_point_inverse c : scalar c = true -> from_code_point (of_int c) = encode c /\ to_code_point (encode c) = of_int c.
Proof.
  intros H. unfold from_code_point, to_code_point. rewrite cast_code, H by exact H. split; [reflexivity|].
  rewrite <- (app_nil (encode c)), chars_encode by exact H. cbn [chars option_map]. rewrite code_encode by exact H. reflexivity.
Qed.
