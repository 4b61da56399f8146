From Coq Require Import String Ascii List ZArith Bool Lia.
From Coq Require Import Floats.SpecFloat.
From Verif Require Import Base Float FloatProofs PkgBytes PkgBytesSpec PkgBytesProofs Utf8 PkgUtf8 PkgUtf8Spec PkgUtf8Proofs.
From Verif Require Import PkgHtml PkgHtmlSpec PkgHtmlProofs PkgJson PkgJsonSpec PkgJsonProofs.
Import ListNotations.
Local Open Scope string_scope.

(** *** White space *)
Notation spaces := (white simple_blank).
Lemma simple_is_blank c : simple_blank c = is_blank c.
Proof. destruct c as [[] [] [] [] [] [] [] []]; reflexivity. Qed.
Lemma spaces_cons c w : spaces (String c w) -> is_blank c = true /\ spaces w.
Proof. unfold white, all. cbn [list_ascii_of_string forallb]. rewrite andb_true_iff, simple_is_blank. tauto. Qed.
Lemma spaces_app w x : spaces w -> spaces x -> spaces (w ++ x).
Proof.
  induction w as [|c w IH]; intros W X; [exact X|]. destruct (spaces_cons _ _ W) as (B & W'). specialize (IH W' X).
  unfold white, all in *. cbn [append list_ascii_of_string forallb]. rewrite IH, simple_is_blank, B. reflexivity.
Qed.
Lemma split_spaces t : exists w u, t = w ++ u /\ spaces w /\ first is_blank u = false.
Proof.
  induction t as [|c t (w & u & -> & W & F)]; [exists "", ""; repeat split; reflexivity|]. destruct (is_blank c) eqn:B.
  - exists (String c w), u. split; [reflexivity|]. split; [|exact F]. unfold white, all. cbn [list_ascii_of_string forallb]. rewrite simple_is_blank, B. exact W.
  - exists "", (String c (w ++ u)). repeat split. exact B.
Qed.
Lemma blank_skip w : spaces w -> forall fuel p t, reasonable (p ++ w ++ t) -> (String.length w < fuel)%nat -> first is_blank t = false ->
  blank fuel (vw p (w ++ t)) = Ok (vw (p ++ w) t).
Proof.
  induction w as [|c w IH]; intros W fuel p t R L F; cbn [append] in *; [rewrite app_nil; apply blank_ok; assumption || lia|]. destruct fuel as [|fuel]; [lia|].
  destruct (spaces_cons _ _ W) as (B & W'). cbn [blank any]. change (literal "\t") with (String "009" ""). change (literal "\n") with (String "010" "").
  rewrite !starts by exact R. rewrite !prefix_first. cbn [bind any first].
  match goal with |- ?l = _ => transitivity (blank fuel (view_seek (vw p (String c (w ++ t))) (of_int 1))) end.
  { clear -B. unfold is_blank in B. destruct (Ascii.eqb " " c); [reflexivity|]. destruct (Ascii.eqb "009" c); [reflexivity|]. cbn [orb] in B. rewrite B. reflexivity. }
  change (of_int 1) with (of_int (size (String c ""))). change (String c (w ++ t)) with (String c "" ++ (w ++ t)). rewrite seek by exact R.
  rewrite IH; [rewrite app_assoc; reflexivity|exact W'|rewrite app_assoc; exact R|cbn [String.length] in L; lia|exact F].
Qed.
Lemma blank_total fuel p t : reasonable (p ++ t) -> (String.length t < fuel)%nat -> exists w u, t = w ++ u /\ spaces w /\ first is_blank u = false /\ blank fuel (vw p t) = Ok (vw (p ++ w) u).
Proof.
  intros R L. destruct (split_spaces t) as (w & u & -> & W & F). exists w, u. rewrite length_app in L. repeat split; try assumption. apply blank_skip; assumption || lia.
Qed.
Lemma token_skip fuel w p x t : spaces w -> reasonable (p ++ w ++ x ++ t) -> (String.length w < fuel)%nat -> first is_blank (x ++ t) = false ->
  token fuel (vw p (w ++ x ++ t)) x = Ok (vw (p ++ w ++ x) t).
Proof. intros W R L F. unfold token. rewrite blank_skip by assumption. cbn [bind]. rewrite raw_ok by (rewrite app_assoc; exact R). rewrite app_assoc. reflexivity. Qed.
Lemma token_skip_fails fuel w p x t : spaces w -> reasonable (p ++ w ++ t) -> (String.length w < fuel)%nat -> first is_blank t = false -> prefix x t = false ->
  exists e, token fuel (vw p (w ++ t)) x = NotFound e.
Proof. intros W R L F P. unfold token. rewrite blank_skip by assumption. cbn [bind]. apply raw_fails; [rewrite app_assoc; exact R|exact P]. Qed.

(** *** Strings *)
Lemma loose_not_quote t s : loose_inside t s -> forall u, t <> String """" u.
Proof. intros H u E. subst t. inversion H. congruence. Qed.
Lemma inside_characters i s : loose_inside i s -> forall fuel p t, reasonable (p ++ i ++ """" ++ t) -> (String.length i < fuel)%nat ->
  exists ss, string_characters fuel (vw p (i ++ """" ++ t)) = Ok (ss, vw (p ++ i) ("""" ++ t)) /\ concatenate ss = s.
Proof.
  induction 1 as [|c i s U B Hi IH|i s _ IH]; intros fuel p t R L; (destruct fuel as [|fuel]; [cbn in L; lia|]); cbn [string_characters append String.length] in *; change (literal "\""") with """".
  - rewrite starts by exact R. rewrite (prefix_first """"). cbn [first bind]. rewrite Ascii.eqb_refl, app_nil. exists []. split; reflexivity.
  - rewrite starts by exact R. rewrite (prefix_first """"). cbn [first bind]. rewrite (proj2 (Ascii.eqb_neq """" c)) by congruence.
    assert (P : prefix "\""" (String c (i ++ String """" t)) = false).
    { cbn [prefix]. destruct (ascii_dec "\" c) as [<-|]; [|reflexivity]. destruct i as [|d i]; [specialize (B eq_refl); congruence|]. cbn [append prefix].
      destruct (ascii_dec """" d) as [<-|]; [destruct (loose_not_quote _ _ Hi i eq_refl)|reflexivity]. }
    rewrite character_other by assumption. cbn [bind fst snd].
    destruct (IH fuel (p ++ String c "") t) as (ss & E & Es); [rewrite app_assoc; exact R|lia|].
    rewrite E. cbn [bind fst snd]. exists (String c "" :: ss). rewrite app_assoc. split; [reflexivity|]. rewrite concatenate_cons, Es. reflexivity.
  - rewrite starts by exact R. rewrite (prefix_first """"). cbn [first bind]. change (Ascii.eqb """" "\") with false. cbn iota.
    unfold string_character at 1. change (literal "\\\""") with "\""". change (literal "\""") with """".
    change (String "\" (String """" (i ++ String """" t))) with ("\""" ++ i ++ String """" t) in *.
    rewrite raw_ok by exact R. cbn [or_else bind fst snd].
    destruct (IH fuel (p ++ "\""") t) as (ss & E & Es); [rewrite app_assoc; exact R|lia|].
    rewrite E. cbn [bind fst snd]. exists ("""" :: ss). rewrite app_assoc. split; [reflexivity|]. rewrite concatenate_cons, Es. reflexivity.
Qed.
Lemma text_decodes fuel w i s p t : spaces w -> loose_inside i s -> reasonable (p ++ w ++ ("""" ++ i ++ """") ++ t) -> (String.length w + String.length i < fuel)%nat ->
  decode_string fuel (vw p (w ++ ("""" ++ i ++ """") ++ t)) = Ok (Text s, vw (p ++ w ++ """" ++ i ++ """") t).
Proof.
  intros W I R L. unfold decode_string. change (literal "\""") with """". rewrite !app_assoc in *.
  rewrite token_skip by (assumption || lia || reflexivity). cbn [bind].
  destruct (inside_characters i s I fuel (p ++ w ++ """") t) as (ss & E & Es); [rewrite !app_assoc; exact R|lia|]. rewrite E. cbn [bind fst snd].
  rewrite raw_ok by (rewrite !app_assoc; exact R). cbn [bind]. rewrite Es, !app_assoc. reflexivity.
Qed.

(** *** Values *)
Section Decode.
Variable scan : string -> number.
Notation D := (denotes simple_blank loose_numeral scan loose_inside).
Notation Ds := (denotes_elements simple_blank loose_numeral scan loose_inside).
Notation De := (denotes_entries simple_blank loose_numeral scan loose_inside).

Lemma key_text t v : D t v -> forall k, v = Text k -> exists w i x, t = w ++ ("""" ++ i ++ """") ++ x /\ spaces w /\ spaces x /\ loose_inside i k.
Proof.
  induction 1; intros k Q; try discriminate.
  - injection Q as ->. exists "", t, "". rewrite app_nil. repeat split; try reflexivity. assumption.
  - destruct (IHdenotes k Q) as (w' & i & x' & -> & W & X & I). exists (w ++ w'), i, (x' ++ x). split; [rewrite !app_assoc; reflexivity|].
    repeat split; try (apply spaces_app; assumption). exact I.
Qed.

(** What comes after a value *)
Definition stop (c : ascii) : bool := (is_blank c || Ascii.eqb c "," || Ascii.eqb c "]" || Ascii.eqb c "}")%bool.
Definition after (t : string) : Prop := t = "" \/ first stop t = true.
Lemma after_first t : after t -> first is_digit t = false /\ first (Ascii.eqb ".") t = false.
Proof.
  intros [->|H]; [split; reflexivity|]. destruct t as [|c t]; [discriminate|]. cbn [first] in *. destruct c as [[] [] [] [] [] [] [] []]; vm_compute in H |- *; discriminate || (split; reflexivity).
Qed.
Lemma after_spaces x t : spaces x -> after t -> after (x ++ t).
Proof.
  destruct x as [|c x]; intros X A; [exact A|]. destruct (spaces_cons _ _ X) as (B & _). right. cbn [append first]. unfold stop. rewrite B. reflexivity.
Qed.

Definition value_ok (t : string) (v : json) : Prop := forall fuel p u, reasonable (p ++ t ++ u) -> (2 * String.length t + 2 <= fuel)%nat -> after u ->
  exists y x, t = y ++ x /\ spaces x /\ decode_value scan fuel (vw p (t ++ u)) = Ok (v, vw (p ++ y) (x ++ u)).
Definition elements_ok (t : string) (vs : list json) : Prop := vs <> [] /\ forall fuel p u, reasonable (p ++ t ++ "]" ++ u) -> (2 * String.length t + 4 <= fuel)%nat ->
  exists y x, t = y ++ x /\ spaces x /\ array_elements scan fuel (vw p (t ++ "]" ++ u)) = Ok (vs, vw (p ++ y) (x ++ "]" ++ u)).
Definition entries_ok (t : string) (es : list (string * json)) : Prop := es <> [] /\ forall fuel p u, reasonable (p ++ t ++ "}" ++ u) -> (2 * String.length t + 4 <= fuel)%nat ->
  exists y x, t = y ++ x /\ spaces x /\ object_entries scan fuel (vw p (t ++ "}" ++ u)) = Ok (es, vw (p ++ y) (x ++ "}" ++ u)).

Scheme denotes_rec := Induction for denotes Sort Prop
  with denotes_elements_rec := Induction for denotes_elements Sort Prop
  with denotes_entries_rec := Induction for denotes_entries Sort Prop.

Lemma decode_same_blank fuel v w : blank fuel v = blank fuel w -> decode_value scan (S fuel) v = decode_value scan (S fuel) w.
Proof. intros E. cbn [decode_value]. rewrite E. reflexivity. Qed.
Lemma decode_spaces fuel w w' p c t : spaces w -> spaces w' -> is_blank c = false -> reasonable (p ++ w ++ w' ++ String c t) -> (String.length w + String.length w' < fuel)%nat ->
  decode_value scan (S fuel) (vw p (w ++ w' ++ String c t)) = decode_value scan (S fuel) (vw (p ++ w) (w' ++ String c t)).
Proof.
  intros W W' B R L. apply decode_same_blank.
  rewrite (blank_skip w' W' fuel (p ++ w) (String c t)) by (try (rewrite app_assoc; exact R); assumption || lia).
  rewrite <- (app_assoc w). rewrite blank_skip; [rewrite !app_assoc; reflexivity|apply spaces_app; assumption|rewrite app_assoc; exact R|rewrite length_app; lia|exact B].
Qed.
Lemma numeral_first s : loose_numeral s -> exists c t, s = String c t /\
  is_blank c = false /\ Ascii.eqb "n" c = false /\ Ascii.eqb "t" c = false /\ Ascii.eqb "f" c = false /\ Ascii.eqb """" c = false /\ Ascii.eqb "[" c = false /\ Ascii.eqb "{" c = false.
Proof.
  intros (sign & i & f & -> & [->| ->] & W & _).
  - destruct (whole_first i f W) as (c & u & E & Dc). cbn [append]. exists c, u. split; [exact E|]. clear -Dc. destruct c as [[] [] [] [] [] [] [] []]; vm_compute in Dc |- *; try discriminate; repeat split.
  - eexists. eexists. split; [reflexivity|]. repeat split.
Qed.
Lemma value_first t v : D t v -> exists w c u, t = w ++ String c u /\ spaces w /\ is_blank c = false.
Proof.
  induction 1; try (exists ""; eexists; eexists; split; [reflexivity|split; reflexivity]).
  - destruct (numeral_first s H) as (c & u & -> & B & _). exists "", c, u. repeat split. exact B.
  - destruct IHdenotes as (w' & c & u & -> & W & B). exists (w ++ w'), c, (u ++ x). split; [rewrite !app_assoc; reflexivity|]. split; [apply spaces_app; assumption|exact B].
Qed.
Lemma no_value fuel w p c t : spaces w -> (String.length w < fuel)%nat -> In c ["]"; "}"]%char -> reasonable (p ++ w ++ String c t) ->
  exists e, decode_value scan (S fuel) (vw p (w ++ String c t)) = NotFound e.
Proof.
  intros W L I R. assert (B : is_blank c = false /\ Ascii.eqb "n" c = false /\ Ascii.eqb "t" c = false /\ Ascii.eqb "f" c = false /\ Ascii.eqb """" c = false /\ Ascii.eqb "[" c = false /\ Ascii.eqb "{" c = false /\ Ascii.eqb "-" c = false /\ nonzero c = false /\ Ascii.eqb "0" c = false)
    by (destruct I as [<-|[<-|[]]]; repeat split; reflexivity).
  destruct B as (B & C1 & C2 & C3 & C4 & C5 & C6 & C7 & C8 & C9).
  assert (Q : decode_value scan (S fuel) (vw p (w ++ String c t)) = decode_value scan (S fuel) (vw (p ++ w) (String c t))).
  { apply (decode_spaces fuel w "" p c t); try assumption; [reflexivity|]. cbn [String.length]. lia. }
  assert (R' : reasonable ((p ++ w) ++ String c t)) by (rewrite app_assoc; exact R).
  rewrite Q, dispatch by (assumption || lia). rewrite C1, C2, C3, C4, C5, C6. unfold decode_number.
  destruct (token_fails fuel (p ++ w) "-" (String c t) R') as (e & ->); [lia|exact B|rewrite (prefix_first "-"); exact C7|]. cbn [or_else bind].
  unfold integer. rewrite nonzero_spec by exact R'. cbn [bind]. rewrite C8.
  destruct (raw_fails (p ++ w) "0" (String c t) R') as (e' & ->); [rewrite (prefix_first "0"); exact C9|]. cbn [or_else bind]. eexists. reflexivity.
Qed.
Lemma no_key fuel w p t : spaces w -> (String.length w < fuel)%nat -> reasonable (p ++ w ++ "}" ++ t) ->
  exists e, decode_string fuel (vw p (w ++ "}" ++ t)) = NotFound e.
Proof.
  intros W L R. unfold decode_string. change (literal "\""") with (String """" "").
  destruct (token_skip_fails fuel w p """" ("}" ++ t) W R) as (e & ->); [lia|reflexivity|reflexivity|]. eexists. reflexivity.
Qed.
Lemma object_entries_S fuel v : object_entries scan (S fuel) v =
      or_else (decode_string fuel v)
        (fun r =>
          bind (match fst r with Text k => Ok k | _ => NotFound "unexpected non-string key" end) (fun k =>
          bind (token fuel (snd r) ":") (fun v =>
          bind (decode_value scan fuel v) (fun r =>
          let e := (k, fst r) in
          or_else (token fuel (snd r) ",")
            (fun v =>
              bind (object_entries scan fuel v) (fun rs =>
              match fst rs with
              | [] => NotFound "unexpected trailing , in object"
              | _ => Ok (e :: fst rs, snd rs)
              end))
            (Ok ([e], snd r))))))
        (Ok ([], v)).
Proof. reflexivity. Qed.

Ltac fold_text c := repeat match goal with |- context[String c ?x] => lazymatch x with EmptyString => fail | _ => change (String c x) with (String c "" ++ x) end end.

Lemma entries_keys es k : existsb (fun e => String.eqb k (fst e)) (entries_to_map es) = true <-> In k (map fst es).
Proof.
  induction es as [|(k', v) es IH]; cbn [entries_to_map map fst existsb In]; [split; [discriminate|intros []]|].
  destruct (existsb (fun e => String.eqb k' (fst e)) (entries_to_map es)) eqn:X.
  - rewrite IH. split; [tauto|]. intros [<-|I]; [|exact I]. apply IH. exact X.
  - cbn [existsb fst]. rewrite orb_true_iff, IH, String.eqb_eq. split; intros [<-|I]; tauto.
Qed.
Lemma entries_latest es : entries_to_map es = latest es.
Proof.
  induction es as [|(k, v) es IH]; [reflexivity|]. cbn [entries_to_map latest]. pose proof (entries_keys es k) as Q. rewrite IH in *.
  destruct (existsb (fun e => String.eqb k (fst e)) (latest es)); destruct (in_dec string_dec k (map fst es)) as [I|I]; try reflexivity; [destruct I; apply Q; reflexivity|apply Q in I; discriminate].
Qed.
Theorem decodes_text t v : D t v -> value_ok t v.
Proof.
  apply (denotes_rec simple_blank loose_numeral scan loose_inside (fun t v _ => value_ok t v) (fun t vs _ => elements_ok t vs) (fun t es _ => entries_ok t es)); clear t v.
  - intros fuel p u R L A. exists "null", "". split; [reflexivity|]. split; [reflexivity|]. destruct fuel as [|fuel]; [lia|]. cbn [String.length] in L.
    cbn [append] in R |- *. rewrite dispatch by (exact R || lia || reflexivity). change (Ascii.eqb "n" "n") with true. cbn iota.
    change (String "n" (String "u" (String "l" (String "l" u)))) with ("null" ++ u) in *. unfold keyword. rewrite token_ok by (exact R || lia || reflexivity). reflexivity.
  - intros fuel p u R L A. exists "true", "". split; [reflexivity|]. split; [reflexivity|]. destruct fuel as [|fuel]; [lia|]. cbn [String.length] in L.
    cbn [append] in R |- *. rewrite dispatch by (exact R || lia || reflexivity). change (Ascii.eqb "n" "t") with false. change (Ascii.eqb "t" "t") with true. cbn iota.
    change (String "t" (String "r" (String "u" (String "e" u)))) with ("true" ++ u) in *. unfold keyword. rewrite token_ok by (exact R || lia || reflexivity). reflexivity.
  - intros fuel p u R L A. exists "false", "". split; [reflexivity|]. split; [reflexivity|]. destruct fuel as [|fuel]; [lia|]. cbn [String.length] in L.
    cbn [append] in R |- *. rewrite dispatch by (exact R || lia || reflexivity). change (Ascii.eqb "n" "f") with false. change (Ascii.eqb "t" "f") with false. change (Ascii.eqb "f" "f") with true. cbn iota.
    change (String "f" (String "a" (String "l" (String "s" (String "e" u))))) with ("false" ++ u) in *. unfold keyword. rewrite token_ok by (exact R || lia || reflexivity). reflexivity.
  - intros s N fuel p u R L A. exists s, "". rewrite app_nil. split; [reflexivity|]. split; [reflexivity|]. destruct fuel as [|fuel]; [lia|].
    destruct (numeral_first s N) as (c & s' & Es & B & C1 & C2 & C3 & C4 & C5 & C6). destruct (after_first u A) as (A1 & A2).
    assert (Q : s ++ u = String c (s' ++ u)) by (rewrite Es; reflexivity). rewrite Q in R |- *. rewrite dispatch by (exact R || lia || exact B). rewrite C1, C2, C3, C4, C5, C6.
    rewrite <- Q in *. rewrite loose_number_spec; [reflexivity|exact N|exact R| |exact A1|exact A2]. rewrite Es in *. cbn [String.length] in *. lia.
  - intros i s I fuel p u R L A. exists ("""" ++ i ++ """"), "". rewrite app_nil. split; [reflexivity|]. split; [reflexivity|]. destruct fuel as [|fuel]; [lia|].
    assert (X : ("""" ++ i ++ """") ++ u = String """" (i ++ """" ++ u)) by (rewrite !app_assoc; reflexivity).
    rewrite !length_app in L. cbn [String.length] in L. rewrite X in R |- *. rewrite dispatch by (exact R || lia || reflexivity).
    rewrite <- X in *. change (Ascii.eqb "n" """") with false. change (Ascii.eqb "t" """") with false. change (Ascii.eqb "f" """") with false. change (Ascii.eqb """" """") with true. cbn iota.
    apply (text_decodes fuel "" i s p u); [reflexivity|exact I|exact R|cbn [String.length]; lia].
  - intros t vs _ (_ & H) fuel p u R L A. exists ("[" ++ t ++ "]"), "". rewrite app_nil. split; [reflexivity|]. split; [reflexivity|]. destruct fuel as [|fuel]; [lia|].
    rewrite !length_app in L. cbn [String.length] in L.
    assert (X : ("[" ++ t ++ "]") ++ u = String "[" (t ++ "]" ++ u)) by (rewrite !app_assoc; reflexivity). rewrite X in R |- *. rewrite dispatch by (exact R || lia || reflexivity).
    change (Ascii.eqb "n" "[") with false. change (Ascii.eqb "t" "[") with false. change (Ascii.eqb "f" "[") with false. change (Ascii.eqb """" "[") with false. change (Ascii.eqb "[" "[") with true. cbn iota.
    change (String "[" (t ++ "]" ++ u)) with ("[" ++ t ++ "]" ++ u) in *. rewrite token_ok by (exact R || lia || reflexivity). cbn [bind].
    destruct (H fuel (p ++ "[") u) as (y & x & E & X' & ->); [rewrite app_assoc; exact R|lia|]. cbn [bind fst snd]. rewrite E, length_app in L.
    rewrite token_skip; [|exact X'|rewrite E, !app_assoc in R; rewrite !app_assoc; exact R|lia|reflexivity]. cbn [bind]. rewrite E, !app_assoc. reflexivity.
  - intros w W fuel p u R L A. exists ("[" ++ w ++ "]"), "". rewrite app_nil. split; [reflexivity|]. split; [reflexivity|]. destruct fuel as [|fuel]; [lia|].
    rewrite !length_app in L. cbn [String.length] in L.
    assert (X : ("[" ++ w ++ "]") ++ u = String "[" (w ++ "]" ++ u)) by (rewrite !app_assoc; reflexivity). rewrite X in R |- *. rewrite dispatch by (exact R || lia || reflexivity).
    change (Ascii.eqb "n" "[") with false. change (Ascii.eqb "t" "[") with false. change (Ascii.eqb "f" "[") with false. change (Ascii.eqb """" "[") with false. change (Ascii.eqb "[" "[") with true. cbn iota.
    change (String "[" (w ++ "]" ++ u)) with ("[" ++ w ++ "]" ++ u) in *. rewrite token_ok by (exact R || lia || reflexivity). cbn [bind].
    destruct fuel as [|[|fuel]]; [lia|lia|]. rewrite array_elements_S.
    destruct (no_value fuel w (p ++ "[") "]" u W) as (e & Ee); [lia|left; reflexivity|rewrite app_assoc; exact R|]. change (String "]" u) with ("]" ++ u) in Ee. rewrite Ee. cbn [or_else bind fst snd].
    rewrite token_skip; [|exact W|rewrite app_assoc; exact R|lia|reflexivity]. cbn [bind]. rewrite !app_assoc. reflexivity.
  - intros t es _ (_ & H) fuel p u R L A. exists ("{" ++ t ++ "}"), "". rewrite app_nil. split; [reflexivity|]. split; [reflexivity|]. destruct fuel as [|fuel]; [lia|].
    rewrite !length_app in L. cbn [String.length] in L.
    assert (X : ("{" ++ t ++ "}") ++ u = String "{" (t ++ "}" ++ u)) by (rewrite !app_assoc; reflexivity). rewrite X in R |- *. rewrite dispatch by (exact R || lia || reflexivity).
    change (Ascii.eqb "n" "{") with false. change (Ascii.eqb "t" "{") with false. change (Ascii.eqb "f" "{") with false. change (Ascii.eqb """" "{") with false. change (Ascii.eqb "[" "{") with false. change (Ascii.eqb "{" "{") with true. cbn iota.
    change (String "{" (t ++ "}" ++ u)) with ("{" ++ t ++ "}" ++ u) in *. rewrite token_ok by (exact R || lia || reflexivity). cbn [bind].
    destruct (H fuel (p ++ "{") u) as (y & x & E & X' & ->); [rewrite app_assoc; exact R|lia|]. cbn [bind fst snd]. rewrite E, length_app in L.
    rewrite token_skip; [|exact X'|rewrite E, !app_assoc in R; rewrite !app_assoc; exact R|lia|reflexivity]. cbn [bind]. rewrite E, !app_assoc, entries_latest. reflexivity.
  - intros w W fuel p u R L A. exists ("{" ++ w ++ "}"), "". rewrite app_nil. split; [reflexivity|]. split; [reflexivity|]. destruct fuel as [|fuel]; [lia|].
    rewrite !length_app in L. cbn [String.length] in L.
    assert (X : ("{" ++ w ++ "}") ++ u = String "{" (w ++ "}" ++ u)) by (rewrite !app_assoc; reflexivity). rewrite X in R |- *. rewrite dispatch by (exact R || lia || reflexivity).
    change (Ascii.eqb "n" "{") with false. change (Ascii.eqb "t" "{") with false. change (Ascii.eqb "f" "{") with false. change (Ascii.eqb """" "{") with false. change (Ascii.eqb "[" "{") with false. change (Ascii.eqb "{" "{") with true. cbn iota.
    change (String "{" (w ++ "}" ++ u)) with ("{" ++ w ++ "}" ++ u) in *. rewrite token_ok by (exact R || lia || reflexivity). cbn [bind].
    destruct fuel as [|[|fuel]]; [lia|lia|]. rewrite object_entries_S.
    destruct (no_key (S fuel) w (p ++ "{") u W) as (e & ->); [lia|rewrite app_assoc; exact R|]. cbn [or_else bind fst snd].
    rewrite token_skip; [|exact W|rewrite app_assoc; exact R|lia|reflexivity]. cbn [bind]. rewrite !app_assoc. reflexivity.
  - intros w x t v W X Dt H fuel p u R L A. rewrite !length_app in L.
    destruct (value_first t v Dt) as (w' & c & t' & E & W' & B).
    destruct (H fuel (p ++ w) (x ++ u)) as (y & z & E' & Z & Q); [rewrite !app_assoc in *; exact R|lia|apply after_spaces; assumption|].
    exists (w ++ y), (z ++ x). split; [rewrite E', !app_assoc; reflexivity|]. split; [apply spaces_app; assumption|].
    destruct fuel as [|fuel]; [lia|]. rewrite E, !app_assoc in *. rewrite length_app in L. cbn [String.length append] in *.
    rewrite decode_spaces by (assumption || lia). exact Q.
  - intros t v _ H. split; [discriminate|]. intros fuel p u R L. destruct fuel as [|fuel]; [lia|]. rewrite array_elements_S.
    destruct (H fuel p ("]" ++ u)) as (y & x & E & X & ->); [exact R|lia|right; reflexivity|]. cbn [or_else fst snd]. exists y, x. split; [exact E|]. split; [exact X|].
    rewrite E, length_app in L. rewrite E, !app_assoc in R.
    destruct (token_skip_fails fuel x (p ++ y) "," ("]" ++ u) X) as (e & ->); [rewrite !app_assoc; exact R|lia|reflexivity|reflexivity|]. reflexivity.
  - intros t v t' vs _ H _ (N & H'). split; [discriminate|]. intros fuel p u R L. destruct fuel as [|fuel]; [lia|]. rewrite array_elements_S. rewrite !length_app in L. cbn [String.length] in L. rewrite !app_assoc in *.
    destruct (H fuel p ("," ++ t' ++ "]" ++ u)) as (y & x & E & X & ->); [exact R|lia|right; reflexivity|]. cbn [or_else fst snd].
    rewrite E, length_app in L. rewrite E, !app_assoc in R. rewrite token_skip; [|exact X|rewrite !app_assoc; exact R|lia|reflexivity]. cbn [or_else].
    destruct (H' fuel ((p ++ y) ++ x ++ ",") u) as (y' & x' & E' & X' & ->); [rewrite !app_assoc; exact R|lia|]. cbn [bind fst snd].
    exists (t ++ "," ++ y'), x'. split; [rewrite E', !app_assoc; reflexivity|]. split; [exact X'|]. destruct vs; [congruence|]. rewrite E, !app_assoc. reflexivity.
  - intros t k t' v Dk _ _ H. split; [discriminate|]. intros fuel p u R L. destruct fuel as [|fuel]; [lia|]. rewrite object_entries_S. rewrite !length_app in L. cbn [String.length] in L. rewrite !app_assoc in *.
    destruct (key_text t _ Dk k eq_refl) as (w & i & x & E & W & X & I). rewrite E, !length_app in L. cbn [String.length] in L.
    assert (R1 : reasonable (p ++ w ++ ("""" ++ i ++ """") ++ x ++ ":" ++ t' ++ "}" ++ u)) by (rewrite E, !app_assoc in R; rewrite !app_assoc; exact R).
    replace (t ++ ":" ++ t' ++ "}" ++ u) with (w ++ ("""" ++ i ++ """") ++ x ++ ":" ++ t' ++ "}" ++ u) by (rewrite E, !app_assoc; reflexivity).
    rewrite (text_decodes fuel w i k) by (assumption || lia). cbn [or_else bind fst snd]. rewrite token_skip; [|exact X|rewrite !app_assoc in *; exact R1|lia|reflexivity]. cbn [bind].
    destruct (H fuel ((p ++ w ++ """" ++ i ++ """") ++ x ++ ":") ("}" ++ u)) as (y & x' & E' & X' & ->); [rewrite !app_assoc in *; exact R1|lia|right; reflexivity|]. cbn [bind or_else fst snd].
    exists (t ++ ":" ++ y), x'. split; [rewrite E', !app_assoc; reflexivity|]. split; [exact X'|]. rewrite E', length_app in L. rewrite E', !app_assoc in R1.
    destruct (token_skip_fails fuel x' (((p ++ w ++ """" ++ i ++ """") ++ x ++ ":") ++ y) "," ("}" ++ u) X') as (e & ->); [rewrite !app_assoc; exact R1|lia|reflexivity|reflexivity|].
    cbn [or_else]. rewrite E, !app_assoc. reflexivity.
  - intros t k t' v s es Dk _ _ H _ (N & H'). split; [discriminate|]. intros fuel p u R L. destruct fuel as [|fuel]; [lia|]. rewrite object_entries_S. rewrite !length_app in L. cbn [String.length] in L. rewrite !app_assoc in *.
    destruct (key_text t _ Dk k eq_refl) as (w & i & x & E & W & X & I). rewrite E, !length_app in L. cbn [String.length] in L.
    assert (R1 : reasonable (p ++ w ++ ("""" ++ i ++ """") ++ x ++ ":" ++ t' ++ "," ++ s ++ "}" ++ u)) by (rewrite E, !app_assoc in R; rewrite !app_assoc; exact R).
    replace (t ++ ":" ++ t' ++ "," ++ s ++ "}" ++ u) with (w ++ ("""" ++ i ++ """") ++ x ++ ":" ++ t' ++ "," ++ s ++ "}" ++ u) by (rewrite E, !app_assoc; reflexivity).
    rewrite (text_decodes fuel w i k) by (assumption || lia). cbn [or_else bind fst snd]. rewrite token_skip; [|exact X|rewrite !app_assoc in *; exact R1|lia|reflexivity]. cbn [bind].
    destruct (H fuel ((p ++ w ++ """" ++ i ++ """") ++ x ++ ":") ("," ++ s ++ "}" ++ u)) as (y & x' & E' & X' & ->); [rewrite !app_assoc in *; exact R1|lia|right; reflexivity|]. cbn [bind or_else fst snd].
    rewrite E', length_app in L. rewrite E', !app_assoc in R1.
    rewrite token_skip; [|exact X'|rewrite !app_assoc; exact R1|lia|reflexivity]. cbn [or_else].
    destruct (H' fuel ((((p ++ w ++ """" ++ i ++ """") ++ x ++ ":") ++ y) ++ x' ++ ",") u) as (y'' & x'' & E'' & X'' & ->); [rewrite !app_assoc; exact R1|lia|]. cbn [bind fst snd].
    exists (t ++ ":" ++ t' ++ "," ++ y''), x''. split; [rewrite E'', !app_assoc; reflexivity|]. split; [exact X''|]. destruct es; [congruence|]. rewrite E, E', !app_assoc. reflexivity.
Qed.
Theorem decode_text t v fuel : D t v -> reasonable t -> (2 * String.length t + 2 <= fuel)%nat -> decode scan fuel t = Ok v.
Proof.
  intros H R L. unfold decode. rewrite vw_new. destruct (decodes_text t v H fuel "" "") as (y & x & E & X & Q); [cbn [append]; rewrite app_nil; exact R|exact L|left; reflexivity|].
  rewrite !app_nil in Q. rewrite Q. cbn [bind fst snd append]. rewrite E in R, L. rewrite length_app in L.
  rewrite <- (app_nil x). rewrite (blank_skip x X fuel y "") by (try (rewrite app_nil; exact R); lia || reflexivity). cbn [bind].
  assert (S : shows (vw (y ++ x) "") "") by (apply vw_shows; rewrite app_nil; exact R). rewrite (shows_length _ _ S). reflexivity.
Qed.
End Decode.
