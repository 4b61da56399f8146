(** Properties of operations on text: C49 (characters), C50 (splitting). *)
From Coq Require Import String Ascii List ZArith Bool Lia.
From Coq Require Import Floats.SpecFloat.
From Verif Require Import Base Float FloatProofs PkgBytes PkgBytesSpec Utf8 PkgUtf8 PkgUtf8Spec PkgUtf8Proofs.
Import ListNotations.
Local Open Scope string_scope.
Local Open Scope Z_scope.

(** *** C49: operations on text count, select and find characters *)
(** A string is the text of at most one sequence of characters.  Operations on
    characters see that sequence, and nothing in other strings. *)
Theorem text_characters : forall s,
  (exists cs, characters_ok cs /\ s = text cs /\ (forall ds, characters_ok ds -> s = text ds -> ds = cs) /\
     utf8_characters s = map encode cs /\ utf8_length s = of_int (Z.of_nat (List.length cs)) /\
     to_code_point s = match cs with [] => S754_nan | c :: _ => of_int c end) \/
  ((forall cs, characters_ok cs -> s <> text cs) /\
     utf8_characters s = [] /\ utf8_length s = S754_nan /\ to_code_point s = S754_nan /\
     forall start stop, utf8_slice s start stop = Ok "").
Proof.
  intros s. unfold utf8_characters, utf8_length, utf8_slice, to_code_point. destruct (chars s) as [l|] eqn:E.
  - left. apply chars_sound in E as (cs & C & -> & ->). exists cs. split; [exact C|]. split; [reflexivity|].
    split; [intros ds D H; symmetry; apply text_inj; assumption|]. unfold count. rewrite map_length. repeat split; try reflexivity.
    destruct C as [|c cs H _]; [reflexivity|]. cbn [map]. rewrite code_encode by exact H. reflexivity.
  - right. repeat split; try reflexivity. intros cs C ->. rewrite chars_text in E by exact C. discriminate.
Qed.
Print Assumptions text_characters.

Example text_case : text [97; 0xE9; 0x20AC; 0x1F600] = String "a" (of_bytes [0xC3; 0xA9; 0xE2; 0x82; 0xAC; 0xF0; 0x9F; 0x98; 0x80]) /\
  characters_ok [97; 0xE9; 0x20AC; 0x1F600] /\
  (forall cs, characters_ok cs -> of_bytes [0xC0; 0x80] <> text cs).
Proof.
  split; [vm_compute; reflexivity|]. split; [repeat constructor|].
  intros cs C E. pose proof (chars_text cs C) as H. rewrite <- E in H. vm_compute in H. discriminate.
Qed.

(** Characters and their numbers *)
Theorem code_points : forall c, scalar c = true -> from_code_point (of_int c) = text [c] /\ to_code_point (text [c]) = of_int c.
Proof.
  intros c H. cbn [text]. rewrite PkgBytesProofs.app_nil. apply code_point_inverse, H.
Qed.
Print Assumptions code_points.
(** Missing: negative numbers, for which it is false, and numbers that are not whole. *)
Theorem other_code_points_partial : forall n, 0 <= n < 2 ^ 32 -> scalar n = false -> from_code_point (of_int n) = "".
Proof.
  intros n B H. unfold from_code_point. rewrite cast_exact by (unfold small; lia).
  replace (Z.max 0 (Z.min n (2 ^ 32 - 1))) with n by lia. rewrite H. reflexivity.
Qed.
Print Assumptions other_code_points_partial.
(** Negative numbers are not code points, but give the character 0. *)
Theorem negative_code_point_refuted : exists n, scalar n = false /\ from_code_point (of_int n) <> "".
Proof. exists (-1). split; vm_compute; [reflexivity|discriminate]. Qed.
Print Assumptions negative_code_point_refuted.

(** A slice has the characters from [start] to [stop].  Missing: starts that are not
    whole; bounds that are not numbers, for which it is false. *)
Theorem text_slice_selects_partial : forall cs start stop, characters_ok cs -> reasonable (text cs) ->
  whole start -> a_number stop -> SFeqb stop stop = true ->
  utf8_slice (text cs) start stop = Ok (text (characters_at start stop cs)).
Proof.
  intros cs start stop C R W A N. apply utf8_slice_spec; try assumption. destruct stop as [|[]| |]; reflexivity || discriminate.
Qed.
Print Assumptions text_slice_selects_partial.
Example text_slice_case : characters_at (of_int 2) (of_int 3) [97; 0xE9; 0x20AC; 0x1F600] = [0xE9; 0x20AC] /\
  characters_at (S754_infinity true) infinity [97; 0xE9] = [97; 0xE9].
Proof. split; vm_compute; reflexivity. Qed.

(** A slice from or to NaN has characters, although no position is above or below NaN. *)
Theorem text_slice_nan_refuted : exists cs x, characters_ok cs /\ whole x /\
  characters_at S754_nan x cs = [] /\ utf8_slice (text cs) S754_nan x <> Ok "" /\
  characters_at x S754_nan cs = [] /\ utf8_slice (text cs) x S754_nan <> Ok "".
Proof.
  exists [97], (of_int 1). split; [repeat constructor|]. split; [right; right; exists 1; split; [reflexivity|lia]|].
  repeat split; vm_compute; try reflexivity; discriminate.
Qed.
Print Assumptions text_slice_nan_refuted.

(** Patterns are found where their characters stand, and only there.  Missing: an
    empty pattern in an empty text, for which it is false. *)
Theorem text_find_partial : forall cs ps, characters_ok cs -> characters_ok ps -> reasonable (text cs) -> cs <> [] \/ ps <> [] ->
  (forall n, first_occurs ps cs n -> utf8_find (text cs) (text ps) = Some (of_int (Z.of_nat n + 1))) /\
  ((forall n, ~ occurs ps cs n) -> utf8_find (text cs) (text ps) = None).
Proof. exact utf8_find_spec. Qed.
Print Assumptions text_find_partial.
Example text_find_case : first_occurs [0xE9; 97] [97; 0xE9; 0xE9; 97; 0xE9; 97] 2.
Proof.
  split; [exists [97; 0xE9], [0xE9; 97]; split; reflexivity|]. intros m (x & y & E & ->).
  destruct x as [|a [|b x]]; cbn [app] in E; [discriminate|discriminate|]. cbn [List.length]. lia.
Qed.
Theorem text_find_empty_refuted : exists cs ps n, characters_ok cs /\ characters_ok ps /\ first_occurs ps cs n /\ utf8_find (text cs) (text ps) = None.
Proof.
  exists [], [], 0%nat. repeat split; try constructor; [exists [], []; split; reflexivity|]. intros; lia.
Qed.
Print Assumptions text_find_empty_refuted.

Theorem text_tests : forall cs ps, characters_ok cs -> characters_ok ps ->
  (utf8_contains (text cs) (text ps) = true <-> exists n, occurs ps cs n) /\
  (utf8_starts_with (text cs) (text ps) = true <-> exists y, cs = (ps ++ y)%list) /\
  (utf8_ends_with (text cs) (text ps) = true <-> exists x, cs = (x ++ ps)%list).
Proof. intros cs ps C P. split; [apply contains_spec|split; [apply starts_with_spec|apply ends_with_spec]]; assumption. Qed.
Print Assumptions text_tests.

(** *** C50: splitting a string and joining the parts gives the string back *)
Theorem split_and_join : forall s p, join (utf8_split s p) p = s.
Proof. exact utf8_split_join. Qed.
Print Assumptions split_and_join.
Theorem split_parts_separated : forall cs ps q, characters_ok cs -> characters_ok ps -> ps <> [] ->
  In q (utf8_split (text cs) (text ps)) -> forall x y, q <> x ++ text ps ++ y.
Proof. exact utf8_split_parts. Qed.
Print Assumptions split_parts_separated.
Example split_case : utf8_split (text [97; 0xE9; 98; 0xE9]) (text [0xE9]) = ["a"; "b"; ""] /\ utf8_split "aaa" "aa" = [""; "a"].
Proof. split; vm_compute; reflexivity. Qed.
