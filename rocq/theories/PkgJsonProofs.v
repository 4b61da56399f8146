From Coq Require Import String Ascii List ZArith Bool Lia.
From Coq Require Import Floats.SpecFloat.
From Verif Require Import Base Float FloatProofs PkgBytes PkgBytesSpec PkgBytesProofs Utf8 PkgUtf8 PkgUtf8Spec PkgUtf8Proofs.
From Verif Require Import PkgHtml PkgHtmlSpec PkgHtmlProofs PkgJson PkgJsonSpec.
Import ListNotations.
Local Open Scope string_scope.

(** *** Views of the rest of a string *)
Definition vw (p t : string) : view := View (p ++ t) (of_int (size p + 1)) (of_int (size p + size t)).
Lemma vw_new s : view_new s = vw "" s.
Proof. reflexivity. Qed.
Lemma vw_shows p t : reasonable (p ++ t) -> shows (vw p t) t.
Proof.
  intros R. exists p, "". rewrite app_nil. split; [reflexivity|]. unfold reasonable in R. rewrite length_app in R. unfold size. cbn [String.length]. lia.
Qed.
Lemma starts p t x : reasonable (p ++ t) -> view_starts_with (vw p t) x = Ok (prefix x t).
Proof. intros R. apply shows_prefix, vw_shows, R. Qed.
Lemma seek p x t : reasonable (p ++ x ++ t) -> view_seek (vw p (x ++ t)) (of_int (size x)) = vw (p ++ x) t.
Proof.
  intros R. unfold reasonable in R. rewrite !length_app in R. unfold vw, view_seek, view_slice. cbn [v_start v_end v_value]. rewrite !size_app.
  rewrite (position_min infinity (2 ^ 52)) by (try (right; split; [reflexivity|lia]); unfold size; lia).
  rewrite !add_exact by (unfold small, size; lia). rewrite sub_exact by (unfold small, size; lia). rewrite min_exact by (unfold small, size; lia).
  rewrite app_assoc. f_equal; f_equal; unfold size; lia.
Qed.
Lemma raw_ok p x t : reasonable (p ++ x ++ t) -> raw (vw p (x ++ t)) x = Ok (vw (p ++ x) t).
Proof.
  intros R. unfold raw. rewrite starts by exact R. cbn [bind]. replace (prefix x (x ++ t)) with true; [|symmetry; apply prefix_exists; exists t; reflexivity].
  unfold byte_length. rewrite seek by exact R. reflexivity.
Qed.
Lemma raw_fails p x t : reasonable (p ++ t) -> prefix x t = false -> exists e, raw (vw p t) x = NotFound e.
Proof. intros R F. unfold raw. rewrite starts, F by exact R. eexists. reflexivity. Qed.

(** The first byte *)
Definition first (P : ascii -> bool) (t : string) : bool := match t with "" => false | String c _ => P c end.
Lemma prefix_first a t : prefix (String a "") t = first (Ascii.eqb a) t.
Proof. destruct t as [|c t]; [reflexivity|]. cbn [prefix first]. destruct (ascii_dec a c) as [->|N]; [rewrite Ascii.eqb_refl; destruct t; reflexivity|]. symmetry. apply Ascii.eqb_neq. exact N. Qed.
Definition is_blank (c : ascii) : bool := (Ascii.eqb " " c || Ascii.eqb "009" c || Ascii.eqb "010" c)%char.
Lemma blank_ok fuel p t : reasonable (p ++ t) -> (1 <= fuel)%nat -> first is_blank t = false -> blank fuel (vw p t) = Ok (vw p t).
Proof.
  intros R L F. destruct fuel as [|fuel]; [lia|]. cbn [blank any]. change (literal "\t") with (String "009" ""). change (literal "\n") with (String "010" "").
  rewrite !starts by exact R. rewrite !prefix_first. cbn [bind any].
  destruct t as [|c t]; [reflexivity|]. cbn [first] in *. unfold is_blank in F. apply orb_false_iff in F as (F & F3). apply orb_false_iff in F as (F1 & F2).
  rewrite F1, F2, F3. reflexivity.
Qed.
Lemma token_ok fuel p x t : reasonable (p ++ x ++ t) -> (1 <= fuel)%nat -> first is_blank (x ++ t) = false -> token fuel (vw p (x ++ t)) x = Ok (vw (p ++ x) t).
Proof. intros R L F. unfold token. rewrite blank_ok by assumption. cbn [bind]. apply raw_ok, R. Qed.
Lemma token_fails fuel p x t : reasonable (p ++ t) -> (1 <= fuel)%nat -> first is_blank t = false -> prefix x t = false -> exists e, token fuel (vw p t) x = NotFound e.
Proof. intros R L F P. unfold token. rewrite blank_ok by assumption. cbn [bind]. apply raw_fails; assumption. Qed.

(** *** Digits *)
Lemma any_vw p t cs : reasonable (p ++ t) -> any (map (view_starts_with (vw p t)) cs) = Ok (existsb (fun c => prefix c t) cs).
Proof. intros R. apply any_starts, vw_shows, R. Qed.
Definition nonzero (c : ascii) : bool := is_digit c && negb (Ascii.eqb c "0").
Lemma starts_digit t : existsb (fun p => prefix p t) digit_strings = first nonzero t.
Proof. destruct t as [|c t]; [reflexivity|]. destruct c as [[] [] [] [] [] [] [] []], t; vm_compute; reflexivity. Qed.
Lemma nonzero_spec p t : reasonable (p ++ t) ->
  nonzero_digit (vw p t) = Ok (match t with String c t => if nonzero c then Some (vw (p ++ String c "") t) else None | "" => None end).
Proof.
  intros R. unfold nonzero_digit. rewrite any_vw, starts_digit by exact R. cbn [bind]. destruct t as [|c t]; [reflexivity|]. cbn [first].
  destruct (nonzero c); [|reflexivity]. change (of_int 1) with (of_int (size (String c ""))). change (String c t) with (String c "" ++ t) at 1. rewrite seek by exact R. reflexivity.
Qed.
Lemma digit_spec p t : reasonable (p ++ t) ->
  digit (vw p t) = Ok (match t with String c t => if is_digit c then Some (vw (p ++ String c "") t) else None | "" => None end).
Proof.
  intros R. unfold digit. rewrite nonzero_spec by exact R. cbn [bind]. destruct t as [|c t].
  - destruct (raw_fails p "0" "" R eq_refl) as (e & ->). reflexivity.
  - unfold nonzero. destruct (Ascii.eqb_spec c "0") as [->|N].
    + cbn [andb negb is_digit]. rewrite andb_false_r. change (String "0" t) with ("0" ++ t). rewrite raw_ok by exact R. reflexivity.
    + rewrite andb_true_r. destruct (is_digit c); [reflexivity|]. destruct (raw_fails p "0" (String c t) R) as (e & ->); [|reflexivity].
      rewrite (prefix_first "0"). cbn [first]. apply Ascii.eqb_neq. congruence.
Qed.
Lemma digits_spec d : all is_digit d -> forall fuel p t, reasonable (p ++ d ++ t) -> (String.length d < fuel)%nat -> first is_digit t = false ->
  digits fuel (vw p (d ++ t)) = Ok (vw (p ++ d) t).
Proof.
  unfold all. induction d as [|c d IH]; intros A fuel p t R L F; (destruct fuel as [|fuel]; [cbn in L; lia|]); cbn [digits].
  - cbn [append] in *. rewrite digit_spec by exact R. cbn [bind]. rewrite app_nil. destruct t as [|c t]; [reflexivity|]. cbn [first] in F. rewrite F. reflexivity.
  - cbn [append list_ascii_of_string forallb String.length] in *. apply andb_true_iff in A as (Ac & A). rewrite digit_spec by exact R. cbn [bind]. rewrite Ac.
    assert (E : p ++ String c (d ++ t) = (p ++ String c "") ++ d ++ t) by (rewrite app_assoc; reflexivity).
    rewrite IH; [|exact A|rewrite <- E; exact R|lia|exact F]. rewrite app_assoc. reflexivity.
Qed.

Lemma slice_middle p s t : reasonable (p ++ s ++ t) -> s <> "" ->
  byte_slice (p ++ s ++ t) (of_int (size p + 1)) (sub (of_int (size (p ++ s) + 1)) (of_int 1)) = Ok s.
Proof.
  intros R N. unfold reasonable in R. rewrite !length_app in R. assert (P : (1 <= size s)%Z) by (destruct s; [congruence|unfold size; cbn [String.length]; lia]).
  unfold byte_slice. rewrite !size_app. rewrite sub_exact by (unfold small, size; lia).
  destruct (of_int_valid (size p + size s + 1 - 1)) as (V & _); [unfold small, size; lia|].
  rewrite min_int by (exact V || (apply of_int_nan) || unfold usize_max; unfold small, size; lia).
  rewrite !usize_int by (unfold size in *; lia).
  rewrite (proj2 (Z.ltb_ge _ _)) by (unfold size in *; lia). rewrite (proj2 (Z.ltb_ge _ _)) by (unfold size in *; lia). rewrite (proj2 (Z.eqb_neq _ _)) by (unfold size in *; lia).
  cbn [orb]. unfold usize_sub. rewrite (proj2 (Z.leb_le _ _)) by (unfold size in *; lia). cbn [bind].
  replace (Z.min (size p + size s + 1 - 1) (size p + (size s + size t)))%Z with (size p + size s)%Z by (unfold size in *; lia).
  replace (size p + 1 - 1)%Z with (size p) by lia. apply range_middle.
Qed.

(** *** Numbers *)
Lemma integer_spec i fuel p t : whole_text i -> reasonable (p ++ i ++ t) -> (String.length i < fuel)%nat -> first is_digit t = false ->
  integer fuel (vw p (i ++ t)) = Ok (vw (p ++ i) t).
Proof.
  intros [->|(c & u & -> & D & N & A)] R L F; unfold integer; rewrite nonzero_spec by exact R; cbn [bind append].
  - change (nonzero "0") with false. cbn iota. change (String "0" t) with ("0" ++ t). rewrite raw_ok by exact R. reflexivity.
  - unfold nonzero. rewrite D. destruct (Ascii.eqb_spec c "0"); [congruence|]. cbn [andb negb].
    rewrite digits_spec; [rewrite app_assoc; reflexivity|exact A|rewrite app_assoc; exact R|cbn [String.length] in L; lia|exact F].
Qed.
Lemma whole_first i t : whole_text i -> exists c u, i ++ t = String c u /\ is_digit c = true.
Proof. intros [->|(c & u & -> & D & _)]; [exists "0"%char, t; split; reflexivity|exists c, (u ++ t); split; [reflexivity|exact D]]. Qed.
Lemma digit_facts c : is_digit c = true -> Ascii.eqb "-" c = false /\ is_blank c = false /\ Ascii.eqb "." c = false.
Proof. destruct c as [[] [] [] [] [] [] [] []]; vm_compute; intros; try discriminate; repeat split. Qed.

(** What comes after a value *)
Definition follow (t : string) : Prop := t = "" \/ exists c u, t = String c u /\ In c [","; "]"; "}"]%char.
Lemma follow_first t : follow t -> first is_digit t = false /\ first (Ascii.eqb ".") t = false /\ first is_blank t = false.
Proof. intros [->|(c & u & -> & [<-|[<-|[<-|[]]]])]; repeat split; reflexivity. Qed.

Lemma loose_number_spec scan s fuel p t : loose_numeral s -> reasonable (p ++ s ++ t) -> (String.length s + 1 < fuel)%nat -> first is_digit t = false -> first (Ascii.eqb ".") t = false ->
  decode_number scan fuel (vw p (s ++ t)) = Ok (Number (scan s), vw (p ++ s) t).
Proof.
  intros (sign & i & f & -> & S & W & F) R L F1 F2. unfold decode_number.
  destruct (whole_first i (f ++ t) W) as (c & u & Ec & Dc). destruct (digit_facts c Dc) as (N1 & N2 & _).
  rewrite !app_assoc in R. rewrite !app_assoc. rewrite !length_app in L.
  assert (E1 : or_else (token fuel (vw p (sign ++ i ++ f ++ t)) "-") (fun w => Ok w) (Ok (vw p (sign ++ i ++ f ++ t))) = Ok (vw (p ++ sign) (i ++ f ++ t))).
  { destruct S as [->| ->].
    - cbn [append]. cbn [append] in R. rewrite app_nil. destruct (token_fails fuel p "-" (i ++ f ++ t)) as (e & ->); [exact R|lia|rewrite Ec; exact N2|rewrite Ec, (prefix_first "-"); exact N1|reflexivity].
    - rewrite token_ok by (exact R || lia || reflexivity). reflexivity. }
  rewrite E1. cbn [bind].
  assert (Ff : first is_digit (f ++ t) = false) by (destruct F as [->|(d & -> & _)]; [exact F1|reflexivity]).
  assert (R2 : reasonable ((p ++ sign) ++ i ++ f ++ t)) by (rewrite app_assoc; exact R).
  rewrite integer_spec by (assumption || lia). cbn [bind].
  assert (R3 : reasonable (((p ++ sign) ++ i) ++ f ++ t)) by (rewrite !app_assoc; exact R).
  assert (E3 : or_else (raw (vw ((p ++ sign) ++ i) (f ++ t)) ".") (fun w => digits fuel w) (Ok (vw ((p ++ sign) ++ i) (f ++ t))) = Ok (vw (((p ++ sign) ++ i) ++ f) t)).
  { destruct F as [->|(d & -> & A)].
    - cbn [append] in *. rewrite app_nil. destruct (raw_fails ((p ++ sign) ++ i) "." t) as (e & ->); [exact R3|rewrite (prefix_first "."); exact F2|reflexivity].
    - rewrite (app_assoc "." d t). rewrite (app_assoc "." d t) in R3. rewrite raw_ok by exact R3. cbn [or_else].
      rewrite digits_spec; [rewrite !app_assoc; reflexivity|exact A|rewrite !app_assoc; rewrite !app_assoc in R3; exact R3|rewrite length_app in L; lia|exact F1]. }
  rewrite E3. cbn [bind].
  assert (E4 : byte_slice (v_value (vw (((p ++ sign) ++ i) ++ f) t)) (v_start (vw p (sign ++ i ++ f ++ t))) (sub (v_start (vw (((p ++ sign) ++ i) ++ f) t)) (of_int 1)) = Ok (sign ++ i ++ f)).
  { unfold vw. cbn [v_value v_start]. rewrite !app_assoc. replace (p ++ sign ++ i ++ f ++ t) with (p ++ (sign ++ i ++ f) ++ t) by (rewrite !app_assoc; reflexivity).
    apply slice_middle; [rewrite !app_assoc; exact R|]. intros E. apply (f_equal String.length) in E. rewrite !length_app in E.
    destruct W as [->|(c' & u' & -> & _)]; cbn [String.length] in E; lia. }
  rewrite E4. cbn [bind]. rewrite !app_assoc. reflexivity.
Qed.
Lemma number_loose s : number_text s -> loose_numeral s.
Proof. intros (sign & i & f & E & S & W & F). exists sign, i, f. repeat split; try assumption. destruct F as [->|(d & -> & _ & A)]; [left; reflexivity|]. right. exists d. split; [reflexivity|exact A]. Qed.
Lemma number_spec scan s fuel p t : number_text s -> reasonable (p ++ s ++ t) -> (String.length s + 1 < fuel)%nat -> first is_digit t = false -> first (Ascii.eqb ".") t = false ->
  decode_number scan fuel (vw p (s ++ t)) = Ok (Number (scan s), vw (p ++ s) t).
Proof. intros N. apply loose_number_spec, number_loose, N. Qed.


(** *** Strings *)
Definition escape_quote (c : ascii) : string := if Ascii.eqb c """" then "\""" else String c "".
Definition escape_backslash (c : ascii) : string := if Ascii.eqb c "\" then "\\" else String c "".

Lemma split_one a r : forall s part, join (split_bytes (String a "") 0 part s) r = part ++ escape (fun c => if Ascii.eqb c a then r else String c "") s.
Proof.
  induction s as [|c s IH]; intros part; cbn [split_bytes escape].
  - cbn. symmetry. apply app_nil.
  - rewrite prefix_first. cbn [first]. rewrite Ascii.eqb_sym. destruct (Ascii.eqb c a).
    + rewrite join_cons by apply split_not_nil. cbn [String.length Nat.sub]. rewrite IH. reflexivity.
    + rewrite IH, app_assoc. reflexivity.
Qed.
Lemma chars_ascii : chars (String "\" "") = Some ["\"] /\ chars (String """" "") = Some [""""] /\ chars "\\" = Some ["\"; "\"] /\ chars "\""" = Some ["\"; """"].
Proof. repeat split. Qed.
Lemma replace_valid s a r l : chars s = Some l -> chars (String a "") = Some [String a ""] -> (exists k, chars r = Some k) ->
  utf8_replace s (String a "") r = escape (fun c => if Ascii.eqb c a then r else String c "") s.
Proof.
  intros S A (k & K). unfold utf8_replace, utf8_split. rewrite S, A, K. rewrite split_one. reflexivity.
Qed.
Lemma escape_none P r s : no P s -> escape (fun c => if Ascii.eqb c P then r else String c "") s = s.
Proof.
  unfold no, all. induction s as [|c s IH]; cbn [list_ascii_of_string forallb escape]; [reflexivity|]. intros H. apply andb_true_iff in H as (Hc & H).
  apply negb_true_iff in Hc. rewrite Hc, IH by exact H. reflexivity.
Qed.

Lemma encode_string_plain s : plain s -> encode_string s = [""""; escape escape_quote s; """"].
Proof.
  intros (B & Q). unfold encode_string. change (literal "\\") with (String "\" ""). change (literal "\\\\") with "\\". change (literal "\""") with (String """" "").
  change (literal "\\\""") with "\""". f_equal. f_equal. destruct (chars s) as [l|] eqn:C.
  - rewrite (replace_valid s "\" "\\" l C) by (reflexivity || (eexists; reflexivity)). rewrite escape_none by exact B.
    rewrite (replace_valid s """" "\""" l C) by (reflexivity || (eexists; reflexivity)). reflexivity.
  - assert (E : forall p r, utf8_replace s p r = s) by (intros p r; unfold utf8_replace; rewrite C; reflexivity). rewrite !E.
    destruct Q as [(cs & O & ->)|Q]; [rewrite chars_text in C by exact O; discriminate|]. symmetry. apply (escape_none """" "\""" s Q).
Qed.

Lemma character_other p c t : reasonable (p ++ String c t) -> prefix "\""" (String c t) = false -> string_character (vw p (String c t)) = Ok (String c "", vw (p ++ String c "") t).
Proof.
  intros R N. unfold string_character. change (literal "\\\""") with "\""".
  destruct (raw_fails p "\""" (String c t) R N) as (e & ->). cbn [or_else].
  pose proof (vw_shows p (String c t) R) as S. rewrite (shows_length _ _ S). pose proof (small_room _ _ S) as M. unfold reasonable in M.
  rewrite equal_exact by (unfold small, size; lia). rewrite (proj2 (Z.eqb_neq _ _)) by (unfold size; cbn [String.length]; lia).
  assert (S1 : shows (view_slice (vw p (String c t)) (of_int 1) (of_int 1)) (String c "")).
  { replace (String c "") with (select (fun j => (1 <=? j) && (j <=? 1))%Z 1 (String c t)).
    - apply shows_slice; [exact S|left; split; [reflexivity|lia]|lia|left; split; [reflexivity|lia]].
    - cbn [select]. change ((1 <=? 1)%Z && (1 <=? 1)%Z) with true. cbn iota. f_equal.
      assert (G : forall u i, (2 <= i)%Z -> select (fun j => (1 <=? j) && (j <=? 1))%Z i u = "").
      { induction u as [|d u IH]; intros i L; [reflexivity|]. cbn [select]. destruct (Z.leb_spec i 1); [lia|]. rewrite andb_false_r. apply IH. lia. }
      apply G. lia. }
  rewrite (shows_string _ _ S1). cbn [bind]. change (of_int 1) with (of_int (size (String c ""))). change (String c t) with (String c "" ++ t) at 1. rewrite seek by exact R. reflexivity.
Qed.
Lemma character_plain p c t : reasonable (p ++ String c t) -> c <> "\"%char -> string_character (vw p (String c t)) = Ok (String c "", vw (p ++ String c "") t).
Proof. intros R N. apply character_other; [exact R|]. cbn [prefix]. destruct (ascii_dec "\" c); [congruence|reflexivity]. Qed.
Lemma characters_spec s : no "\" s -> forall fuel p t, reasonable (p ++ escape escape_quote s ++ """" ++ t) -> (String.length s < fuel)%nat ->
  exists ss, string_characters fuel (vw p (escape escape_quote s ++ """" ++ t)) = Ok (ss, vw (p ++ escape escape_quote s) ("""" ++ t)) /\ concatenate ss = s.
Proof.
  unfold no, all. induction s as [|c s IH]; intros B fuel p t R L; (destruct fuel as [|fuel]; [cbn in L; lia|]); cbn [escape string_characters append] in *; change (literal "\""") with """".
  - rewrite starts by exact R. rewrite (prefix_first """"). cbn [first bind]. rewrite Ascii.eqb_refl. rewrite app_nil. exists []. split; reflexivity.
  - cbn [list_ascii_of_string forallb String.length] in *. apply andb_true_iff in B as (Bc & B). apply negb_true_iff, Ascii.eqb_neq in Bc.
    rewrite !app_assoc in *. rewrite starts by exact R. rewrite (prefix_first """"). cbn [bind]. destruct (Ascii.eqb_spec c """") as [->|N].
    + change (escape_quote """") with "\""" in *. cbn [append first]. change (Ascii.eqb """" "\") with false. cbn iota. unfold string_character at 1. change (literal "\\\""") with "\""". change (literal "\""") with """".
      change (String "\" (String """" (escape escape_quote s ++ String """" t))) with ("\""" ++ escape escape_quote s ++ String """" t) in *.
      rewrite raw_ok by exact R. cbn [or_else bind fst snd].
      destruct (IH B fuel (p ++ "\""") t) as (ss & E & Es); [rewrite app_assoc; exact R|lia|].
      change ("""" ++ t) with (String """" t) in E. rewrite E. cbn [bind fst snd]. exists ("""" :: ss). rewrite app_assoc. split; [reflexivity|]. rewrite concatenate_cons, Es. reflexivity.
    + assert (Ee : escape_quote c = String c "") by (unfold escape_quote; rewrite (proj2 (Ascii.eqb_neq _ _) N); reflexivity). rewrite Ee in *.
      cbn [append first]. rewrite (proj2 (Ascii.eqb_neq """" c)) by congruence.
      change (String c "" ++ escape escape_quote s ++ String """" t) with (String c (escape escape_quote s ++ String """" t)) in R.
      rewrite character_plain by assumption. cbn [bind fst snd].
      destruct (IH B fuel (p ++ String c "") t) as (ss & E & Es); [rewrite app_assoc; exact R|lia|].
      change ("""" ++ t) with (String """" t) in E. rewrite E. cbn [bind fst snd]. exists (String c "" :: ss). rewrite app_assoc. split; [reflexivity|]. rewrite concatenate_cons, Es. reflexivity.
Qed.
Lemma string_spec s fuel p t : plain s -> reasonable (p ++ concatenate (encode_string s) ++ t) -> (String.length s < fuel)%nat ->
  decode_string fuel (vw p (concatenate (encode_string s) ++ t)) = Ok (Text s, vw (p ++ concatenate (encode_string s)) t).
Proof.
  intros P R L. rewrite encode_string_plain in * by exact P. rewrite !concatenate_cons in *. change (concatenate []) with "" in *. rewrite app_nil in *.
  unfold decode_string. change (literal "\""") with """". rewrite !app_assoc in *. rewrite token_ok by (exact R || lia || reflexivity). cbn [bind].
  destruct (characters_spec s (proj1 P) fuel (p ++ """") t) as (ss & E & Es); [rewrite app_assoc; exact R|lia|]. rewrite E. cbn [bind fst snd].
  rewrite raw_ok by (rewrite !app_assoc; exact R). cbn [bind]. rewrite Es, !app_assoc. reflexivity.
Qed.

(** *** Values *)
Section JsonInd.
  Variable P : json -> Prop.
  Hypothesis Hn : P Null.
  Hypothesis Hb : forall b, P (Boolean b).
  Hypothesis Hm : forall n, P (Number n).
  Hypothesis Ht : forall s, P (Text s).
  Hypothesis Ha : forall vs, Forall P vs -> P (Array vs).
  Hypothesis Ho : forall es, Forall (fun e => P (snd e)) es -> P (Object es).
  Fixpoint json_ind' (v : json) : P v :=
    match v with
    | Null => Hn
    | Boolean b => Hb b
    | Number n => Hm n
    | Text s => Ht s
    | Array vs => Ha vs ((fix go vs := match vs return Forall P vs with [] => Forall_nil P | v :: vs => Forall_cons v (json_ind' v) (go vs) end) vs)
    | Object es => Ho es ((fix go es := match es return Forall (fun e => P (snd e)) es with
        | [] => Forall_nil _ | (k, v) :: es => Forall_cons (k, v) (json_ind' v) (go es) end) es)
    end.
End JsonInd.

Fixpoint rest_text (xs : list string) : string := match xs with [] => "" | x :: xs => "," ++ x ++ rest_text xs end.
Definition list_text (xs : list string) : string := match xs with [] => "" | x :: xs => x ++ rest_text xs end.

Lemma index_next n : (2 <= n <= 2 ^ 53)%Z -> equal (of_int n) (of_int 1) = false /\ exists m, (2 <= m <= 2 ^ 53)%Z /\ add (of_int n) (of_int 1) = of_int m.
Proof.
  intros H. destruct (Z.eq_dec n (2 ^ 53)) as [->|N1]; [split; [vm_compute; reflexivity|exists (2 ^ 53)%Z; split; [lia|vm_compute; reflexivity]]|].
  split; [rewrite equal_exact by (unfold small; lia); apply Z.eqb_neq; lia|].
  destruct (Z.eq_dec n (2 ^ 53 - 1)) as [->|N2]; [exists (2 ^ 53)%Z; split; [lia|vm_compute; reflexivity]|].
  exists (n + 1)%Z. split; [lia|]. apply add_exact; unfold small; lia.
Qed.
Lemma elements_rest {A} (f : A -> list string) vs : forall n, (2 <= n <= 2 ^ 53)%Z ->
  concatenate (elements f (of_int n) vs) = rest_text (map (fun v => concatenate (f v)) vs).
Proof.
  induction vs as [|v vs IH]; intros n H; [reflexivity|]. cbn [elements map rest_text]. destruct (index_next n H) as (E & m & Hm & ->). rewrite E.
  rewrite concatenate_cons, concatenate_app, IH by exact Hm. reflexivity.
Qed.
Lemma elements_text {A} (f : A -> list string) vs : concatenate (elements f (of_int 1) vs) = list_text (map (fun v => concatenate (f v)) vs).
Proof.
  destruct vs as [|v vs]; [reflexivity|]. cbn [elements map list_text]. change (equal (of_int 1) (of_int 1)) with true. cbn iota.
  rewrite concatenate_cons, concatenate_app. change (add (of_int 1) (of_int 1)) with (of_int 2). rewrite elements_rest by lia. reflexivity.
Qed.

Section Round.
Variable print : number -> string.
Variable scan : string -> number.
Definition ok (n : number) : Prop := number_text (print n) /\ scan (print n) = n.
Definition E (v : json) : string := concatenate (encode_value print v).
Definition K (s : string) : string := concatenate (encode_string s).
Definition Ee (e : string * json) : string := K (fst e) ++ ":" ++ E (snd e).

Lemma E_array vs : E (Array vs) = "[" ++ list_text (map E vs) ++ "]".
Proof. unfold E. cbn [encode_value]. rewrite concatenate_cons, concatenate_app, elements_text. reflexivity. Qed.
Lemma E_object es : E (Object es) = "{" ++ list_text (map Ee es) ++ "}".
Proof.
  unfold E at 1. cbn [encode_value]. rewrite concatenate_cons, concatenate_app, elements_text.
  replace (map (fun e => concatenate (encode_string (fst e) ++ ":" :: encode_value print (snd e))) es) with (map Ee es); [reflexivity|].
  apply map_ext. intros e. unfold Ee, K, E. rewrite concatenate_app, concatenate_cons. reflexivity.
Qed.

Definition decodes (v : json) : Prop := forall fuel p t, reasonable (p ++ E v ++ t) -> (2 * String.length (E v) + 2 <= fuel)%nat -> follow t ->
  decode_value scan fuel (vw p (E v ++ t)) = Ok (v, vw (p ++ E v) t).

Lemma fails_on_bracket fuel p t : (2 <= fuel)%nat -> reasonable (p ++ "]" ++ t) -> exists e, decode_value scan fuel (vw p ("]" ++ t)) = NotFound e.
Proof.
  intros L R. destruct fuel as [|fuel]; [lia|]. cbn [decode_value]. change (literal "\""") with (String """" ""). rewrite blank_ok by (exact R || lia || reflexivity). cbn [bind].
  rewrite !starts by exact R. rewrite !prefix_first. cbn [append first bind]. cbn -[decode_number vw].
  change (String "]" t) with ("]" ++ t) in *. unfold decode_number.
  destruct (token_fails fuel p "-" ("]" ++ t) R) as (e & ->); [lia|reflexivity|reflexivity|]. cbn [or_else bind].
  unfold integer. rewrite nonzero_spec by exact R. cbn [bind append]. change (nonzero "]") with false. cbn iota. change (String "]" t) with ("]" ++ t).
  destruct (raw_fails p "0" ("]" ++ t) R eq_refl) as (e' & ->). cbn [or_else bind]. eexists. reflexivity.
Qed.

Lemma elements_spec vs : Forall decodes vs -> vs <> [] -> forall fuel p t, reasonable (p ++ list_text (map E vs) ++ "]" ++ t) ->
  (2 * String.length (list_text (map E vs)) + 3 <= fuel)%nat ->
  array_elements scan fuel (vw p (list_text (map E vs) ++ "]" ++ t)) = Ok (vs, vw (p ++ list_text (map E vs)) ("]" ++ t)).
Proof.
  induction 1 as [|v vs H _ IH]; intros NE fuel p t R L; [congruence|]. destruct fuel as [|fuel]; [lia|]. cbn [map list_text] in *.
  rewrite !app_assoc in *. rewrite !length_app in L.
  assert (Fo : follow (rest_text (map E vs) ++ "]" ++ t)).
  { right. destruct vs; cbn [map rest_text append]; eexists; eexists; (split; [reflexivity|cbn; tauto]). }
  cbn [array_elements]. rewrite H by (exact R || exact Fo || lia). cbn [or_else fst snd].
  assert (R2 : reasonable ((p ++ E v) ++ rest_text (map E vs) ++ "]" ++ t)) by (rewrite app_assoc; exact R).
  destruct vs as [|w vs].
  - cbn [map rest_text append] in *. rewrite app_nil. change (String "]" t) with ("]" ++ t) in *.
    destruct (token_fails fuel (p ++ E v) "," ("]" ++ t) R2) as (e & ->); [lia|reflexivity|reflexivity|reflexivity].
  - assert (T : rest_text (map E (w :: vs)) = "," ++ list_text (map E (w :: vs))) by reflexivity.
    rewrite T in *. rewrite (app_assoc "," _ _) in *. rewrite token_ok by (exact R2 || lia || reflexivity). cbn [or_else]. rewrite length_app in L. cbn [String.length] in L.
    rewrite IH; [|discriminate|rewrite !app_assoc in *; exact R2|lia]. cbn [bind fst snd]. rewrite !app_assoc. reflexivity.
Qed.

Lemma entries_spec es : Forall (fun e => decodes (snd e)) es -> (forall k v, In (k, v) es -> plain k) -> es <> [] -> forall fuel p t,
  reasonable (p ++ list_text (map Ee es) ++ "}" ++ t) -> (2 * String.length (list_text (map Ee es)) + 3 <= fuel)%nat ->
  object_entries scan fuel (vw p (list_text (map Ee es) ++ "}" ++ t)) = Ok (es, vw (p ++ list_text (map Ee es)) ("}" ++ t)).
Proof.
  induction 1 as [|(k, v) es H _ IH]; intros Pl NE fuel p t R L; [congruence|]. destruct fuel as [|fuel]; [lia|]. cbn [map list_text] in *.
  specialize (IH (fun k' v' I => Pl k' v' (or_intror I))). specialize (Pl k v (or_introl eq_refl)).
  change (Ee (k, v)) with (K k ++ ":" ++ E v) in *. cbn [snd] in H. rewrite !app_assoc in *. rewrite !length_app in L.
  assert (Lk : (String.length k <= String.length (K k))%nat).
  { unfold K. rewrite encode_string_plain by exact Pl. rewrite !concatenate_cons, !length_app.
    assert (G : forall s, (String.length s <= String.length (escape escape_quote s))%nat).
    { induction s as [|c s IHs]; [cbn; lia|]. cbn [escape]. rewrite length_app. unfold escape_quote at 1. destruct (Ascii.eqb c """"); cbn [String.length]; lia. }
    specialize (G k). lia. }
  assert (Fo : follow (rest_text (map Ee es) ++ "}" ++ t)).
  { right. destruct es; cbn [map rest_text append]; eexists; eexists; (split; [reflexivity|cbn; tauto]). }
  cbn [object_entries]. unfold K at 1. rewrite string_spec by (exact Pl || exact R || lia). cbn [or_else fst snd bind]. fold (K k).
  rewrite token_ok; [|rewrite !app_assoc; exact R|lia|reflexivity]. cbn [bind].
  rewrite H; [|rewrite !app_assoc; exact R|lia|exact Fo]. cbn [bind fst snd].
  assert (R2 : reasonable ((((p ++ K k) ++ ":") ++ E v) ++ rest_text (map Ee es) ++ "}" ++ t)) by (rewrite !app_assoc; exact R).
  destruct es as [|e es].
  - cbn [map rest_text append] in *. rewrite !app_nil. change (String "}" t) with ("}" ++ t) in *.
    destruct (token_fails fuel _ "," ("}" ++ t) R2) as (x & ->); [lia|reflexivity|reflexivity|]. rewrite !app_assoc. reflexivity.
  - assert (T : rest_text (map Ee (e :: es)) = "," ++ list_text (map Ee (e :: es))) by reflexivity.
    rewrite T in *. rewrite (app_assoc "," _ _) in *. rewrite token_ok by (exact R2 || lia || reflexivity). cbn [or_else]. rewrite length_app in L. cbn [String.length] in L.
    rewrite IH; [|discriminate|rewrite !app_assoc in *; exact R2|lia]. cbn [bind fst snd]. rewrite !app_assoc. reflexivity.
Qed.

Lemma entries_distinct es : NoDup (map fst es) -> entries_to_map es = es.
Proof.
  induction es as [|(k, v) es IH]; intros D; [reflexivity|]. cbn [map fst] in D. inversion D as [|? ? N D']. subst. cbn [entries_to_map]. rewrite IH by exact D'.
  destruct (existsb (fun e => String.eqb k (fst e)) es) eqn:X; [|reflexivity]. exfalso. apply N. apply existsb_exists in X as (e & I & Q). apply String.eqb_eq in Q as ->.
  apply in_map. exact I.
Qed.
Lemma fails_on_brace fuel p t : (2 <= fuel)%nat -> reasonable (p ++ "}" ++ t) -> object_entries scan fuel (vw p ("}" ++ t)) = Ok ([], vw p ("}" ++ t)).
Proof.
  intros L R. destruct fuel as [|fuel]; [lia|]. cbn [object_entries]. unfold decode_string. change (literal "\""") with (String """" "").
  destruct (token_fails fuel p """" ("}" ++ t) R) as (e & ->); [lia|reflexivity|reflexivity|reflexivity].
Qed.

Lemma array_elements_S fuel v : array_elements scan (S fuel) v =
      or_else (decode_value scan fuel v)
        (fun r =>
          or_else (token fuel (snd r) ",")
            (fun v =>
              bind (array_elements scan fuel v) (fun rs =>
              match fst rs with
              | [] => NotFound "unexpected trailing , in array"
              | _ => Ok (fst r :: fst rs, snd rs)
              end))
            (Ok ([fst r], snd r)))
        (Ok ([], v)).
Proof. reflexivity. Qed.
Lemma dispatch fuel p c u : (1 <= fuel)%nat -> reasonable (p ++ String c u) -> is_blank c = false ->
  decode_value scan (S fuel) (vw p (String c u)) =
    if Ascii.eqb "n" c then keyword fuel (vw p (String c u)) "null" Null
    else if Ascii.eqb "t" c then keyword fuel (vw p (String c u)) "true" (Boolean true)
    else if Ascii.eqb "f" c then keyword fuel (vw p (String c u)) "false" (Boolean false)
    else if Ascii.eqb """" c then decode_string fuel (vw p (String c u))
    else if Ascii.eqb "[" c then
      bind (token fuel (vw p (String c u)) "[") (fun v => bind (array_elements scan fuel v) (fun r => bind (token fuel (snd r) "]") (fun v => Ok (Array (fst r), v))))
    else if Ascii.eqb "{" c then
      bind (token fuel (vw p (String c u)) "{") (fun v => bind (object_entries scan fuel v) (fun r => bind (token fuel (snd r) "}") (fun v => Ok (Object (entries_to_map (fst r)), v))))
    else decode_number scan fuel (vw p (String c u)).
Proof.
  intros L R B. cbn [decode_value]. change (literal "\""") with (String """" ""). rewrite blank_ok by (exact R || lia || exact B). cbn [bind].
  rewrite !starts by exact R. rewrite !prefix_first. cbn [first bind].
  destruct (Ascii.eqb "n" c); [reflexivity|]. destruct (Ascii.eqb "t" c); [reflexivity|]. destruct (Ascii.eqb "f" c); [reflexivity|].
  destruct (Ascii.eqb """" c); [reflexivity|]. destruct (Ascii.eqb "[" c); [reflexivity|]. destruct (Ascii.eqb "{" c); reflexivity.
Qed.
Theorem good_decodes v : good ok plain v -> decodes v.
Proof.
  induction v as [|b|n|s|vs IH|es IH] using json_ind'; intros G fuel p t R L Fo; inversion G; subst.
  - destruct fuel as [|fuel]; [lia|]. change (E Null) with (String "n" "ull") in *. cbn [append] in *. rewrite dispatch by (exact R || (cbn in L; lia) || reflexivity).
    cbn iota. change (Ascii.eqb "n" "n") with true. cbn iota. change (String "n" (String "u" (String "l" (String "l" t)))) with ("null" ++ t) in *.
    unfold keyword. rewrite token_ok by (exact R || (cbn in L; lia) || reflexivity). reflexivity.
  - destruct fuel as [|fuel]; [lia|]. destruct b.
    + change (E (Boolean true)) with "true" in *. cbn [append] in *. rewrite dispatch by (exact R || (cbn in L; lia) || reflexivity).
      change (Ascii.eqb "n" "t") with false. change (Ascii.eqb "t" "t") with true. cbn iota. change (String "t" (String "r" (String "u" (String "e" t)))) with ("true" ++ t) in *.
      unfold keyword. rewrite token_ok by (exact R || (cbn in L; lia) || reflexivity). reflexivity.
    + change (E (Boolean false)) with "false" in *. cbn [append] in *. rewrite dispatch by (exact R || (cbn in L; lia) || reflexivity).
      change (Ascii.eqb "n" "f") with false. change (Ascii.eqb "t" "f") with false. change (Ascii.eqb "f" "f") with true. cbn iota.
      change (String "f" (String "a" (String "l" (String "s" (String "e" t))))) with ("false" ++ t) in *.
      unfold keyword. rewrite token_ok by (exact R || (cbn in L; lia) || reflexivity). reflexivity.
  - change (E (Number n)) with (print n) in *. destruct H0 as (N & Sc).
    assert (F : exists c u, print n ++ t = String c u /\ (is_digit c = true \/ c = "-"%char)).
    { destruct N as (sg & i & f & -> & Sg & W & _). rewrite !app_assoc. destruct (whole_first i (f ++ t) W) as (c & u & Ec & Dc). destruct Sg as [->| ->]; cbn [append].
      - exists c, u. split; [exact Ec|left; exact Dc].
      - eexists; eexists. split; [reflexivity|right; reflexivity]. }
    destruct F as (c & u & Ec & Fc). rewrite Ec in R |- *.
    assert (B : is_blank c = false /\ Ascii.eqb "n" c = false /\ Ascii.eqb "t" c = false /\ Ascii.eqb "f" c = false /\ Ascii.eqb """" c = false /\ Ascii.eqb "[" c = false /\ Ascii.eqb "{" c = false).
    { destruct Fc as [Fc| ->]; [|repeat split; reflexivity]. clear -Fc. destruct c as [[] [] [] [] [] [] [] []]; vm_compute in Fc |- *; try discriminate; repeat split. }
    destruct B as (B & C1 & C2 & C3 & C4 & C5 & C6). destruct fuel as [|fuel]; [lia|]. rewrite dispatch by (exact R || lia || exact B). rewrite C1, C2, C3, C4, C5, C6.
    rewrite <- Ec in R |- *. rewrite number_spec; [rewrite Sc; reflexivity|exact N|exact R| |apply follow_first, Fo|apply follow_first, Fo].
    assert (1 <= String.length (print n))%nat by (destruct N as (sg & i & f & -> & _ & [->|(c' & u' & -> & _)] & _); rewrite !length_app; cbn [String.length]; lia). lia.
  - change (E (Text s)) with (concatenate (encode_string s)) in *. pose proof (encode_string_plain s H0) as Q.
    assert (X : concatenate (encode_string s) ++ t = String """" (escape escape_quote s ++ """" ++ t)) by (rewrite Q, !concatenate_cons, !app_assoc; reflexivity).
    destruct fuel as [|fuel]; [lia|]. rewrite X in R |- *. rewrite dispatch by (exact R || lia || reflexivity).
    rewrite <- X in R |- *. change (Ascii.eqb "n" """") with false. change (Ascii.eqb "t" """") with false. change (Ascii.eqb "f" """") with false. change (Ascii.eqb """" """") with true. cbn iota.
    apply string_spec; [exact H0|exact R|]. rewrite Q, !concatenate_cons, !length_app in L.
    assert (G' : forall s, (String.length s <= String.length (escape escape_quote s))%nat).
    { clear. induction s as [|c s IHs]; [cbn; lia|]. cbn [escape]. rewrite length_app. unfold escape_quote at 1. destruct (Ascii.eqb c """"); cbn [String.length]; lia. }
    specialize (G' s). cbn [String.length] in L. lia.
  - rewrite E_array in *. rewrite !app_assoc in *. rewrite !length_app in L. cbn [String.length] in L. destruct fuel as [|fuel]; [lia|].
    change ("[" ++ list_text (map E vs) ++ "]" ++ t) with (String "[" (list_text (map E vs) ++ "]" ++ t)) in *. rewrite dispatch by (exact R || lia || reflexivity).
    change (Ascii.eqb "n" "[") with false. change (Ascii.eqb "t" "[") with false. change (Ascii.eqb "f" "[") with false. change (Ascii.eqb """" "[") with false. change (Ascii.eqb "[" "[") with true. cbn iota. change (String "[" (list_text (map E vs) ++ "]" ++ t)) with ("[" ++ list_text (map E vs) ++ "]" ++ t) in *.
    rewrite token_ok by (exact R || lia || reflexivity). cbn [bind].
    destruct vs as [|v vs].
    + cbn [map list_text append] in *. change (String "]" t) with ("]" ++ t) in *. destruct fuel as [|fuel]; [lia|]. rewrite array_elements_S.
      change (String "[" ("]" ++ t)) with ("[" ++ "]" ++ t) in R.
      assert (R2 : reasonable ((p ++ "[") ++ "]" ++ t)) by (rewrite app_assoc; exact R).
      destruct (fails_on_bracket fuel (p ++ "[") t ltac:(lia) R2) as (e & ->). cbn [or_else bind snd fst].
      rewrite token_ok by (exact R2 || lia || reflexivity). cbn [bind]. rewrite !app_assoc. reflexivity.
    + rewrite elements_spec; [|apply Forall_forall; intros w I; exact (proj1 (Forall_forall _ _) IH w I (H0 w I))|discriminate|rewrite app_assoc; exact R|lia].
      cbn [bind fst snd]. rewrite token_ok; [|rewrite !app_assoc; exact R|lia|reflexivity]. cbn [bind]. rewrite !app_assoc. reflexivity.
  - rewrite E_object in *. rewrite !app_assoc in *. rewrite !length_app in L. cbn [String.length] in L. destruct fuel as [|fuel]; [lia|].
    change ("{" ++ list_text (map Ee es) ++ "}" ++ t) with (String "{" (list_text (map Ee es) ++ "}" ++ t)) in *. rewrite dispatch by (exact R || lia || reflexivity).
    change (Ascii.eqb "n" "{") with false. change (Ascii.eqb "t" "{") with false. change (Ascii.eqb "f" "{") with false. change (Ascii.eqb """" "{") with false. change (Ascii.eqb "[" "{") with false. change (Ascii.eqb "{" "{") with true. cbn iota. change (String "{" (list_text (map Ee es) ++ "}" ++ t)) with ("{" ++ list_text (map Ee es) ++ "}" ++ t) in *.
    rewrite token_ok by (exact R || lia || reflexivity). cbn [bind].
    destruct es as [|e es].
    + cbn [map list_text append] in *. change (String "}" t) with ("}" ++ t) in *.
      change (String "{" ("}" ++ t)) with ("{" ++ "}" ++ t) in R.
      assert (R2 : reasonable ((p ++ "{") ++ "}" ++ t)) by (rewrite app_assoc; exact R).
      rewrite fails_on_brace by (exact R2 || lia). cbn [bind snd fst]. rewrite token_ok by (exact R2 || lia || reflexivity). cbn [bind]. rewrite !app_assoc. reflexivity.
    + rewrite entries_spec; [|apply Forall_forall; intros (k, w) I; exact (proj1 (Forall_forall _ _) IH (k, w) I (proj2 (H1 k w I)))|intros k w I; exact (proj1 (H1 k w I))|discriminate|rewrite app_assoc; exact R|lia].
      cbn [bind fst snd]. rewrite token_ok; [|rewrite !app_assoc; exact R|lia|reflexivity]. cbn [bind]. rewrite !app_assoc, entries_distinct by assumption. reflexivity.
Qed.
End Round.
