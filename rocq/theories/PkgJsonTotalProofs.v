From Coq Require Import String Ascii List ZArith Bool Lia.
From Coq Require Import Floats.SpecFloat.
From Verif Require Import Base Float FloatProofs PkgBytes PkgBytesSpec PkgBytesProofs Utf8 PkgUtf8 PkgUtf8Spec PkgUtf8Proofs.
From Verif Require Import PkgHtml PkgHtmlSpec PkgHtmlProofs PkgJson PkgJsonSpec PkgJsonProofs PkgJsonDecodeProofs.
Import ListNotations.
Local Open Scope string_scope.

(** *** Decoding ends with a value or an error *)
(** The result is an error, or a part of the text is read for which [good] holds. *)
Definition goes {A} (good : string -> A -> Prop) (r : res (A * view)) (p t : string) : Prop :=
  match r with
  | Ok (a, v) => exists y x, t = y ++ x /\ v = vw (p ++ y) x /\ good y a
  | NotFound _ => True
  | _ => False
  end.
Definition goes_view (good : string -> Prop) (r : res view) (p t : string) : Prop :=
  match r with
  | Ok v => exists y x, t = y ++ x /\ v = vw (p ++ y) x /\ good y
  | NotFound _ => True
  | _ => False
  end.

Lemma raw_goes p t x : reasonable (p ++ t) -> goes_view (fun y => y = x) (raw (vw p t) x) p t.
Proof.
  intros R. destruct (prefix x t) eqn:P.
  - apply prefix_exists in P as (u & ->). rewrite raw_ok by exact R. exists x, u. repeat split.
  - destruct (raw_fails p x t R P) as (e & ->). exact I.
Qed.
Lemma token_goes fuel p t x : reasonable (p ++ t) -> (String.length t < fuel)%nat -> goes_view (fun y => exists w, spaces w /\ y = w ++ x) (token fuel (vw p t) x) p t.
Proof.
  intros R L. unfold token. destruct (blank_total fuel p t R L) as (w & u & -> & W & F & ->). cbn [bind].
  pose proof (raw_goes (p ++ w) u x ltac:(rewrite app_assoc; exact R)) as G. destruct (raw (vw (p ++ w) u) x); try exact G.
  destruct G as (y & z & -> & -> & ->). exists (w ++ x), z. rewrite !app_assoc. repeat split. exists w. split; [exact W|reflexivity].
Qed.
Lemma character_cases p t : reasonable (p ++ t) ->
  t = "" /\ (exists e, string_character (vw p t) = NotFound e) \/
  (exists u, t = "\""" ++ u /\ string_character (vw p t) = Ok ("""", vw (p ++ "\""") u)) \/
  (exists c u, t = String c u /\ prefix "\""" t = false /\ string_character (vw p t) = Ok (String c "", vw (p ++ String c "") u)).
Proof.
  intros R. destruct t as [|c t].
  - left. split; [reflexivity|]. unfold string_character. change (literal "\\\""") with "\""". destruct (raw_fails p "\""" "" R eq_refl) as (e & ->). cbn [or_else].
    rewrite (shows_length _ _ (vw_shows p "" R)). eexists. reflexivity.
  - right. destruct (prefix "\""" (String c t)) eqn:P.
    + left. apply prefix_exists in P as (u & P). exists u. split; [exact P|]. rewrite P in *. unfold string_character. change (literal "\\\""") with "\""". rewrite raw_ok by exact R. reflexivity.
    + right. exists c, t. repeat split. apply character_other; assumption.
Qed.
(** The characters before the closing quote [rest] *)
Lemma characters_goes fuel : forall p t, reasonable (p ++ t) -> (String.length t < fuel)%nat ->
  match string_characters fuel (vw p t) with
  | Ok (ss, v) => exists y x, t = y ++ String """" x /\ v = vw (p ++ y) (String """" x) /\ loose_inside y (concatenate ss)
  | NotFound _ => True
  | _ => False
  end.
Proof.
  induction fuel as [|fuel IH]; intros p t R L; [lia|]. cbn [string_characters]. rewrite starts by exact R. cbn [bind]. change (literal "\""") with (String """" ""). rewrite prefix_first.
  destruct (first (Ascii.eqb """") t) eqn:Q.
  { destruct t as [|c t]; [discriminate|]. cbn [first] in Q. apply Ascii.eqb_eq in Q as <-. exists "", t. rewrite app_nil. repeat split. constructor. }
  destruct (character_cases p t R) as [(-> & e & ->)|[(u & -> & ->)|(c & u & -> & P & ->)]]; cbn [bind fst snd]; [exact I| |].
  - cbn [append String.length] in *. specialize (IH (p ++ "\""") u ltac:(rewrite app_assoc; exact R) ltac:(lia)).
    destruct (string_characters fuel (vw (p ++ "\""") u)) as [(ss & v)|e| |]; try exact IH. destruct IH as (y & x & -> & -> & H). exists ("\""" ++ y), x. rewrite !app_assoc. repeat split.
    rewrite concatenate_cons. constructor. exact H.
  - cbn [first] in Q. cbn [append String.length] in *. specialize (IH (p ++ String c "") u ltac:(rewrite app_assoc; exact R) ltac:(lia)).
    destruct (string_characters fuel (vw (p ++ String c "") u)) as [(ss & v)|e| |]; try exact IH. destruct IH as (y & x & -> & -> & H). exists (String c y), x. rewrite !app_assoc. repeat split.
    rewrite concatenate_cons. constructor; [intros ->; discriminate| |exact H]. intros -> ->. clear -P. vm_compute in P. destruct x; discriminate P.
Qed.
Definition quoted (y : string) (v : json) : Prop := exists w i s, spaces w /\ loose_inside i s /\ y = w ++ """" ++ i ++ """" /\ v = Text s.
Lemma string_goes fuel p t : reasonable (p ++ t) -> (String.length t < fuel)%nat -> goes quoted (decode_string fuel (vw p t)) p t.
Proof.
  intros R L. unfold decode_string. change (literal "\""") with """". pose proof (token_goes fuel p t """" R L) as G. destruct (token fuel (vw p t) """") as [v|e| |]; try exact G.
  destruct G as (y & x & -> & -> & w & W & ->). rewrite length_app in L. cbn [bind].
  pose proof (characters_goes fuel (p ++ w ++ """") x ltac:(rewrite app_assoc; exact R) ltac:(lia)) as H. destruct (string_characters fuel (vw (p ++ w ++ """") x)) as [(ss & v)|e| |]; try exact H.
  destruct H as (y' & x' & -> & -> & H). cbn [bind fst snd]. change (String """" x') with ("""" ++ x') in *. rewrite raw_ok by (rewrite !app_assoc in *; exact R). cbn [bind].
  exists (w ++ """" ++ y' ++ """"), x'. rewrite !app_assoc. repeat split. exists w, y', (concatenate ss). repeat split; assumption.
Qed.
Lemma split_digits t : exists d r, t = d ++ r /\ all is_digit d /\ first is_digit r = false.
Proof.
  induction t as [|c t (d & r & -> & A & F)]; [exists "", ""; repeat split; reflexivity|]. destruct (is_digit c) eqn:D.
  - exists (String c d), r. split; [reflexivity|]. split; [|exact F]. unfold all. cbn [list_ascii_of_string forallb]. rewrite D. exact A.
  - exists "", (String c (d ++ r)). repeat split. exact D.
Qed.
Lemma digits_goes fuel p t : reasonable (p ++ t) -> (String.length t < fuel)%nat -> exists d r, t = d ++ r /\ all is_digit d /\ digits fuel (vw p t) = Ok (vw (p ++ d) r).
Proof.
  intros R L. destruct (split_digits t) as (d & r & -> & A & F). rewrite length_app in L. exists d, r. repeat split; [exact A|]. apply digits_spec; assumption || lia.
Qed.
Lemma integer_goes fuel p t : reasonable (p ++ t) -> (String.length t < fuel)%nat -> goes_view whole_text (integer fuel (vw p t)) p t.
Proof.
  intros R L. unfold integer. rewrite nonzero_spec by exact R. cbn [bind].
  assert (Z : goes_view whole_text (or_else (raw (vw p t) "0") (fun v => Ok v) (NotFound "number expected")) p t).
  { pose proof (raw_goes p t "0" R) as G. destruct (raw (vw p t) "0") as [v|e| |]; try (exact G || exact I). destruct G as (y & x & -> & -> & ->). exists "0", x. repeat split. left. reflexivity. }
  destruct t as [|c t]; [exact Z|]. destruct (nonzero c) eqn:N; [|exact Z]. clear Z.
  destruct (digits_goes fuel (p ++ String c "") t ltac:(rewrite app_assoc; exact R) ltac:(cbn in L; lia)) as (d & r & -> & A & ->).
  exists (String c d), r. rewrite app_assoc. repeat split. right. exists c, d. unfold nonzero in N. apply andb_true_iff in N as (N1 & N2). apply negb_true_iff, Ascii.eqb_neq in N2. repeat split; assumption.
Qed.

Section Total.
Variable scan : string -> number.
Notation D := (denotes simple_blank loose_numeral scan loose_inside).
Notation Ds := (denotes_elements simple_blank loose_numeral scan loose_inside).
Notation De := (denotes_entries simple_blank loose_numeral scan loose_inside).
Lemma leading w t v : spaces w -> D t v -> D (w ++ t) v.
Proof. intros W H. rewrite <- (app_nil t). apply denotes_white; [exact W|reflexivity|exact H]. Qed.
Lemma trailing t x v : spaces x -> D t v -> D (t ++ x) v.
Proof. intros W H. apply (denotes_white _ _ _ _ ""); [reflexivity|exact W|exact H]. Qed.
Lemma D_length t v : D t v -> (1 <= String.length t)%nat.
Proof. intros H. destruct (value_first scan t v H) as (w & c & u & -> & _). rewrite length_app. cbn [String.length]. lia. Qed.
Lemma quoted_D y v : quoted y v -> D y v.
Proof. intros (w & i & s & W & I & -> & ->). apply leading; [exact W|]. apply denotes_text. exact I. Qed.
Lemma number_goes fuel p t : reasonable (p ++ t) -> (String.length t < fuel)%nat -> first is_blank t = false -> goes D (decode_number scan fuel (vw p t)) p t.
Proof.
  intros R L Fb. unfold decode_number.
  assert (S : exists y x, t = y ++ x /\ (y = "" \/ y = "-") /\ or_else (token fuel (vw p t) "-") (fun w => Ok w) (Ok (vw p t)) = Ok (vw (p ++ y) x)).
  { pose proof (token_goes fuel p t "-" R L) as G. destruct (token fuel (vw p t) "-") as [v|e| |]; cbn [or_else]; try contradiction.
    - destruct G as (y & x & -> & -> & w & W & ->). destruct w as [|c w]; [exists "-", x; repeat split; right; reflexivity|]. destruct (spaces_cons _ _ W) as (B & _). cbn [append first] in Fb. congruence.
    - exists "", t. rewrite app_nil. repeat split. left. reflexivity. }
  destruct S as (y & x & -> & Sy & ->). cbn [bind]. rewrite length_app in L.
  pose proof (integer_goes fuel (p ++ y) x ltac:(rewrite app_assoc; exact R) ltac:(lia)) as G. destruct (integer fuel (vw (p ++ y) x)) as [v|e| |]; try exact G. cbn [bind].
  destruct G as (y1 & x1 & -> & -> & W1). rewrite length_app in L.
  assert (S : exists y2 x2, x1 = y2 ++ x2 /\ (y2 = "" \/ exists d, y2 = "." ++ d /\ all is_digit d) /\
    or_else (raw (vw ((p ++ y) ++ y1) x1) ".") (fun w => digits fuel w) (Ok (vw ((p ++ y) ++ y1) x1)) = Ok (vw (((p ++ y) ++ y1) ++ y2) x2)).
  { pose proof (raw_goes ((p ++ y) ++ y1) x1 "." ltac:(rewrite !app_assoc; exact R)) as G. destruct (raw (vw ((p ++ y) ++ y1) x1) ".") as [v|e| |]; cbn [or_else]; try contradiction.
    - destruct G as (y2 & x2 & -> & -> & ->). rewrite length_app in L.
      destruct (digits_goes fuel (((p ++ y) ++ y1) ++ ".") x2) as (d & r & -> & A & ->); [rewrite !app_assoc in *; exact R|lia|]. exists ("." ++ d), r. rewrite !app_assoc. repeat split.
      right. exists d. split; [reflexivity|exact A].
    - exists "", x1. rewrite app_nil. repeat split. left. reflexivity. }
  destruct S as (y2 & x2 & -> & Sy2 & ->). cbn [bind].
  assert (NE : y ++ y1 ++ y2 <> "").
  { intros E. apply (f_equal String.length) in E. rewrite !length_app in E. cbn [String.length] in E. destruct W1 as [->|(c & u & -> & _)]; cbn [String.length] in E; lia. }
  assert (Sl : byte_slice (v_value (vw (((p ++ y) ++ y1) ++ y2) x2)) (v_start (vw p (y ++ y1 ++ y2 ++ x2))) (sub (v_start (vw (((p ++ y) ++ y1) ++ y2) x2)) (of_int 1)) = Ok (y ++ y1 ++ y2)).
  { unfold vw. cbn [v_value v_start]. rewrite !app_assoc. replace (p ++ y ++ y1 ++ y2 ++ x2) with (p ++ (y ++ y1 ++ y2) ++ x2) by (rewrite !app_assoc; reflexivity).
    apply slice_middle; [rewrite !app_assoc; exact R|exact NE]. }
  rewrite Sl. cbn [bind]. exists (y ++ y1 ++ y2), x2. rewrite !app_assoc. repeat split. apply denotes_number. exists y, y1, y2. repeat split; assumption.
Qed.
Lemma keyword_goes fuel p t s v : reasonable (p ++ t) -> (String.length t < fuel)%nat -> D s v -> goes D (keyword fuel (vw p t) s v) p t.
Proof.
  intros R L N. unfold keyword. pose proof (token_goes fuel p t s R L) as G. destruct (token fuel (vw p t) s) as [w|e| |]; try exact G.
  destruct G as (y & x & -> & -> & w0 & W & ->). exists (w0 ++ s), x. repeat split. apply leading; assumption.
Qed.
Definition listed {A} (P : string -> list A -> Prop) (y : string) (vs : list A) : Prop := vs = [] /\ y = "" \/ vs <> [] /\ P y vs.
Lemma value_goes fuel :
  (forall p t, reasonable (p ++ t) -> (2 * String.length t + 2 <= fuel)%nat -> goes D (decode_value scan fuel (vw p t)) p t) /\
  (forall p t, reasonable (p ++ t) -> (2 * String.length t + 3 <= fuel)%nat -> goes (listed Ds) (array_elements scan fuel (vw p t)) p t) /\
  (forall p t, reasonable (p ++ t) -> (2 * String.length t + 3 <= fuel)%nat -> goes (listed De) (object_entries scan fuel (vw p t)) p t).
Proof.
  induction fuel as [|fuel (IHv & IHa & IHo)]; [repeat split; intros; lia|]. repeat split; intros p t R L.
  - destruct (blank_total fuel p t R ltac:(lia)) as (w & u & -> & W & F & B).
    assert (Q : decode_value scan (S fuel) (vw p (w ++ u)) = decode_value scan (S fuel) (vw (p ++ w) u)).
    { apply decode_same_blank. rewrite B. symmetry. rewrite blank_ok; [reflexivity|rewrite app_assoc; exact R|lia|exact F]. }
    rewrite Q. assert (R' : reasonable ((p ++ w) ++ u)) by (rewrite app_assoc; exact R). rewrite length_app in L.
    assert (G : goes D (decode_value scan (S fuel) (vw (p ++ w) u)) (p ++ w) u).
    { clear Q B R. remember (p ++ w) as q. clear Heqq.
      assert (Gn : goes D (decode_number scan fuel (vw q u)) q u) by (apply number_goes; [exact R'|lia|exact F]).
      destruct u as [|c u].
      { cbn [decode_value]. rewrite blank_ok by (exact R' || lia || exact F). cbn [bind]. rewrite !starts by exact R'. exact Gn. }
      rewrite dispatch by (exact R' || lia || exact F). remember (String c u) as s.
      destruct (Ascii.eqb "n" c); [apply keyword_goes; [exact R'|lia|constructor]|]. destruct (Ascii.eqb "t" c); [apply keyword_goes; [exact R'|lia|constructor]|].
      destruct (Ascii.eqb "f" c); [apply keyword_goes; [exact R'|lia|constructor]|].
      destruct (Ascii.eqb """" c).
      { pose proof (string_goes fuel q s R' ltac:(lia)) as G. destruct (decode_string fuel (vw q s)) as [(v & z)|e| |]; try exact G. destruct G as (y & x & Ey & Ez & Hq). exists y, x. repeat split; try assumption. apply quoted_D, Hq. }
      destruct (Ascii.eqb "[" c).
      { pose proof (token_goes fuel q s "[" R' ltac:(lia)) as G. destruct (token fuel (vw q s) "[") as [v|e| |]; try exact G. destruct G as (y & x & Ey & -> & wy & Wy & ->). rewrite Ey in *. cbn [bind].
        rewrite !length_app in L. cbn [String.length] in L. specialize (IHa (q ++ wy ++ "[") x ltac:(rewrite app_assoc; exact R') ltac:(lia)).
        destruct (array_elements scan fuel (vw (q ++ wy ++ "[") x)) as [(vs & v)|e| |]; try exact IHa. destruct IHa as (y' & x' & -> & -> & Li). cbn [bind fst snd]. rewrite length_app in L.
        pose proof (token_goes fuel ((q ++ wy ++ "[") ++ y') x' "]" ltac:(rewrite !app_assoc in *; exact R') ltac:(lia)) as G. destruct (token fuel (vw ((q ++ wy ++ "[") ++ y') x') "]") as [v|e| |]; try exact G.
        destruct G as (y2 & x2 & -> & -> & w2 & W2 & ->). cbn [bind]. exists (wy ++ ("[" ++ (y' ++ w2) ++ "]")), x2. rewrite !app_assoc. repeat split. rewrite <- (app_assoc y').
        apply leading; [exact Wy|]. destruct Li as [(-> & ->)|(Ne & Hd)]; [apply denotes_empty_array; exact W2|]. apply denotes_array.
        clear -Hd W2. induction Hd as [t v H|t v u vs H Hd IH]; [constructor; apply trailing; assumption|]. rewrite !app_assoc. apply denotes_more; assumption. }
      destruct (Ascii.eqb "{" c).
      { pose proof (token_goes fuel q s "{" R' ltac:(lia)) as G. destruct (token fuel (vw q s) "{") as [v|e| |]; try exact G. destruct G as (y & x & Ey & -> & wy & Wy & ->). rewrite Ey in *. cbn [bind].
        rewrite !length_app in L. cbn [String.length] in L. specialize (IHo (q ++ wy ++ "{") x ltac:(rewrite app_assoc; exact R') ltac:(lia)).
        destruct (object_entries scan fuel (vw (q ++ wy ++ "{") x)) as [(vs & v)|e| |]; try exact IHo. destruct IHo as (y' & x' & -> & -> & Li). cbn [bind fst snd]. rewrite length_app in L.
        pose proof (token_goes fuel ((q ++ wy ++ "{") ++ y') x' "}" ltac:(rewrite !app_assoc in *; exact R') ltac:(lia)) as G. destruct (token fuel (vw ((q ++ wy ++ "{") ++ y') x') "}") as [v|e| |]; try exact G.
        destruct G as (y2 & x2 & -> & -> & w2 & W2 & ->). cbn [bind]. exists (wy ++ ("{" ++ (y' ++ w2) ++ "}")), x2. rewrite !app_assoc. repeat split. rewrite <- (app_assoc y'), (entries_latest scan).
        apply leading; [exact Wy|]. destruct Li as [(-> & ->)|(Ne & Hd)]; [apply denotes_empty_object; exact W2|]. apply denotes_object.
        clear -Hd W2. induction Hd as [t k u v H H'|t k u v s es H H' Hd IH]; rewrite !app_assoc; [apply denotes_last_entry; [exact H|apply trailing; assumption]|]. apply denotes_more_entries; assumption. }
      exact Gn. }
    destruct (decode_value scan (S fuel) (vw (p ++ w) u)) as [(v & z)|e| |]; try exact G. destruct G as (y & x & -> & -> & Ly). exists (w ++ y), x. rewrite !app_assoc. repeat split. apply leading; assumption.
  - rewrite array_elements_S. specialize (IHv p t R ltac:(lia)). assert (Z : goes (listed Ds) (@Ok (list json * view) ([], vw p t)) p t) by (exists "", t; rewrite app_nil; repeat split; left; split; reflexivity).
    destruct (decode_value scan fuel (vw p t)) as [(v & z)|e| |]; cbn [or_else]; try exact IHv; try exact Z. clear Z. destruct IHv as (y & x & -> & -> & Hy). cbn [fst snd]. rewrite length_app in L. pose proof (D_length _ _ Hy) as Ly.
    assert (Z : goes (listed Ds) (@Ok (list json * view) ([v], vw (p ++ y) x)) p (y ++ x)) by (exists y, x; repeat split; right; split; [discriminate|constructor; exact Hy]).
    pose proof (token_goes fuel (p ++ y) x "," ltac:(rewrite app_assoc; exact R) ltac:(lia)) as G. destruct (token fuel (vw (p ++ y) x) ",") as [z|e| |]; cbn [or_else]; try exact G; try exact Z. clear Z.
    destruct G as (y' & x' & -> & -> & w' & W' & ->). rewrite !length_app in L. cbn [String.length] in L.
    specialize (IHa ((p ++ y) ++ w' ++ ",") x' ltac:(rewrite !app_assoc in *; exact R) ltac:(lia)). destruct (array_elements scan fuel (vw ((p ++ y) ++ w' ++ ",") x')) as [(vs & z)|e| |]; try exact IHa.
    destruct IHa as (y2 & x2 & -> & -> & Li). cbn [bind fst snd]. destruct Li as [(-> & ->)|(Ne & Hd)]; [exact I|]. destruct vs; [congruence|]. exists ((y ++ w') ++ "," ++ y2), x2. rewrite !app_assoc. repeat split. right. split; [discriminate|].
    rewrite <- (app_assoc y). apply denotes_more; [apply trailing; assumption|exact Hd].
  - rewrite object_entries_S. pose proof (string_goes fuel p t R ltac:(lia)) as K. assert (Z : goes (listed De) (@Ok (list (string * json) * view) ([], vw p t)) p t) by (exists "", t; rewrite app_nil; repeat split; left; split; reflexivity).
    destruct (decode_string fuel (vw p t)) as [(k & z)|e| |]; cbn [or_else]; try exact K; try exact Z. clear Z. destruct K as (y & x & -> & -> & Hk). apply quoted_D in Hk. cbn [fst snd]. rewrite length_app in L. pose proof (D_length _ _ Hk) as Lk.
    destruct k as [| | |s| |]; cbn [bind]; try exact I.
    pose proof (token_goes fuel (p ++ y) x ":" ltac:(rewrite app_assoc; exact R) ltac:(lia)) as G. destruct (token fuel (vw (p ++ y) x) ":") as [z|e| |]; cbn [bind]; try exact G.
    destruct G as (y1 & x1 & -> & -> & w1 & W1 & ->). rewrite !length_app in L. specialize (IHv ((p ++ y) ++ w1 ++ ":") x1 ltac:(rewrite !app_assoc in *; exact R) ltac:(lia)).
    destruct (decode_value scan fuel (vw ((p ++ y) ++ w1 ++ ":") x1)) as [(v & z)|e| |]; cbn [bind]; try exact IHv. destruct IHv as (y2 & x2 & -> & -> & Hv). cbn [fst snd]. rewrite length_app in L.
    assert (Z : goes (listed De) (@Ok (list (string * json) * view) ([(s, v)], vw (((p ++ y) ++ w1 ++ ":") ++ y2) x2)) p (y ++ (w1 ++ ":") ++ y2 ++ x2)).
    { exists ((y ++ w1) ++ ":" ++ y2), x2. rewrite !app_assoc. repeat split. right. split; [discriminate|]. rewrite <- (app_assoc y). apply denotes_last_entry; [apply trailing; assumption|exact Hv]. }
    pose proof (token_goes fuel (((p ++ y) ++ w1 ++ ":") ++ y2) x2 "," ltac:(rewrite !app_assoc in *; exact R) ltac:(lia)) as G. destruct (token fuel (vw (((p ++ y) ++ w1 ++ ":") ++ y2) x2) ",") as [z|e| |]; cbn [or_else]; try exact G; try exact Z. clear Z.
    destruct G as (y3 & x3 & -> & -> & w3 & W3 & ->). rewrite !length_app in L. cbn [String.length] in L.
    specialize (IHo ((((p ++ y) ++ w1 ++ ":") ++ y2) ++ w3 ++ ",") x3 ltac:(rewrite !app_assoc in *; exact R) ltac:(lia)).
    destruct (object_entries scan fuel (vw ((((p ++ y) ++ w1 ++ ":") ++ y2) ++ w3 ++ ",") x3)) as [(vs & z)|e| |]; try exact IHo.
    destruct IHo as (y4 & x4 & -> & -> & Li). cbn [bind fst snd]. destruct Li as [(-> & ->)|(Ne & Hd)]; [exact I|]. destruct vs; [congruence|].
    exists ((y ++ w1) ++ ":" ++ (y2 ++ w3) ++ "," ++ y4), x4. rewrite !app_assoc. repeat split. right. split; [discriminate|]. rewrite <- (app_assoc y), <- (app_assoc y2).
    apply denotes_more_entries; [apply trailing; assumption|apply trailing; assumption|exact Hd].
Qed.
Theorem decode_outcome s fuel : reasonable s -> (2 * String.length s + 2 <= fuel)%nat -> (exists v, decode scan fuel s = Ok v /\ D s v) \/ (exists e, decode scan fuel s = NotFound e).
Proof.
  intros R L. unfold decode. rewrite vw_new. pose proof (proj1 (value_goes fuel) "" s R L) as G. destruct (decode_value scan fuel (vw "" s)) as [(v & z)|e| |]; cbn [bind]; try contradiction; [|right; eexists; reflexivity].
  destruct G as (y & x & -> & -> & Hy). cbn [fst snd append]. rewrite length_app in L. destruct (blank_total fuel y x R ltac:(lia)) as (w & u & -> & W & _ & ->). cbn [bind].
  assert (S : shows (vw (y ++ w) u) u) by (apply vw_shows; rewrite !app_assoc; exact R). rewrite (shows_length _ _ S). pose proof (small_room _ _ S) as M. unfold reasonable in M.
  rewrite equal_exact by (unfold small, size; lia). destruct (Z.eqb_spec (size u) 0) as [Z|Z]; [|right; eexists; reflexivity]. destruct u as [|c u]; [|unfold size in Z; cbn [String.length] in Z; lia].
  left. eexists. split; [reflexivity|]. rewrite app_nil. apply trailing; assumption.
Qed.
End Total.
