From Coq Require Import String Ascii List ZArith Bool Lia.
From Coq Require Import Floats.SpecFloat.
From Verif Require Import Base Float FloatProofs PkgBytes PkgBytesSpec PkgBytesProofs Utf8 PkgUtf8 PkgUtf8Spec PkgUtf8Proofs.
From Verif Require Import PkgHtml PkgHtmlSpec PkgHtmlProofs PkgJson PkgJsonSpec PkgJsonProofs.
Import ListNotations.
Local Open Scope string_scope.

(** *** Encoded values are JSON texts *)
Lemma escape_app f s t : escape f (s ++ t) = escape f s ++ escape f t.
Proof. induction s as [|c s IH]; [reflexivity|]. cbn [append escape]. rewrite IH, app_assoc. reflexivity. Qed.
Lemma text_app a b : text (a ++ b)%list = text a ++ text b.
Proof. induction a as [|c a IH]; [reflexivity|]. cbn [text app]. rewrite IH, app_assoc. reflexivity. Qed.
Lemma encode_other c : scalar c = true -> c <> 92%Z -> no "\" (Utf8.encode c).
Proof.
  intros S N. assert (G : forall b, (0 <= b < 256)%Z -> b <> 92%Z -> Ascii.eqb (chr b) "\" = false).
  { intros b B D. apply Ascii.eqb_neq. intros Q. apply D. rewrite <- (byte_chr b B), Q. reflexivity. }
  unfold scalar in S. apply orb_prop in S. rewrite !andb_true_iff, !Z.ltb_lt, Z.leb_le in S.
  destruct (encode_cases c) as [(L & ->)|[(q & r & E & R & Q & ->)|[(p & q & r & E & R & Q & P & L & ->)|(o & p & q & r & E & R & Q & P & O & L & ->)]]].
  - unfold scalar. apply orb_true_iff. rewrite !andb_true_iff, !Z.ltb_lt, Z.leb_le. exact S.
  - unfold no, all. cbn [list_ascii_of_string forallb]. rewrite G by lia. reflexivity.
  - unfold no, all. cbn [list_ascii_of_string forallb]. rewrite !G by lia. reflexivity.
  - unfold no, all. cbn [list_ascii_of_string forallb]. rewrite !G by lia. reflexivity.
  - unfold no, all. cbn [list_ascii_of_string forallb]. rewrite !G by lia. reflexivity.
Qed.
Lemma escape_utf8 s : utf8 s -> utf8 (escape escape_backslash s).
Proof.
  intros (cs & O & ->). induction O as [|c cs Hc _ (ds & Od & IH)]; [exists []; split; [constructor|reflexivity]|].
  cbn [text]. rewrite escape_app, IH. destruct (Z.eq_dec c 92) as [->|N].
  - exists (92 :: 92 :: ds)%Z. split; [repeat constructor; assumption|reflexivity].
  - exists (c :: ds). split; [constructor; assumption|]. unfold escape_backslash. rewrite escape_none by (apply encode_other; assumption). reflexivity.
Qed.
Lemma encode_string_utf8 s : utf8 s -> encode_string s = [""""; escape escape_quote (escape escape_backslash s); """"].
Proof.
  intros U. pose proof (escape_utf8 s U) as (ds & Od & D). destruct U as (cs & O & S).
  unfold encode_string. change (literal "\\") with (String "\" ""). change (literal "\\\\") with "\\". change (literal "\""") with (String """" "").
  change (literal "\\\""") with "\""". f_equal. f_equal.
  rewrite (replace_valid s "\" "\\" (map Utf8.encode cs)) by (reflexivity || (eexists; reflexivity) || (rewrite S; apply chars_text; exact O)).
  change (fun c => if Ascii.eqb c "\" then "\\" else String c "") with escape_backslash.
  rewrite (replace_valid _ """" "\""" (map Utf8.encode ds)) by (reflexivity || (eexists; reflexivity) || (rewrite D; apply chars_text; exact Od)). reflexivity.
Qed.
Lemma escapes_inside s : no_control s -> inside json_escapes (escape escape_quote (escape escape_backslash s)) s.
Proof.
  unfold no_control, all. induction s as [|c s IH]; cbn [list_ascii_of_string forallb escape]; intros H; [constructor|]. apply andb_true_iff in H as (Hc & H). specialize (IH H).
  rewrite escape_app. unfold escape_backslash at 1. destruct (Ascii.eqb_spec c "\") as [->|Nb].
  - change (escape escape_quote "\\") with "\\". cbn [append]. apply inside_escape; [cbn; tauto|exact IH].
  - cbn [escape]. rewrite app_nil. unfold escape_quote at 1. destruct (Ascii.eqb_spec c """") as [->|Nq].
    + cbn [append]. apply inside_escape; [cbn; tauto|exact IH].
    + cbn [append]. apply inside_plain; [|exact IH]. unfold unescaped. rewrite Hc, (proj2 (Ascii.eqb_neq _ _) Nb), (proj2 (Ascii.eqb_neq _ _) Nq). reflexivity.
Qed.

Lemma latest_distinct es : NoDup (map fst es) -> latest es = es.
Proof.
  induction es as [|(k, v) es IH]; cbn [map fst latest]; intros N; [reflexivity|]. inversion N; subst. destruct (in_dec string_dec k (map fst es)); [contradiction|]. rewrite IH by assumption. reflexivity.
Qed.
Section Text.
Variable print : number -> string.
Variable scan : string -> number.
Definition text_ok (s : string) : Prop := utf8 s /\ no_control s.
Notation T := (json_text scan).
Lemma string_text s : text_ok s -> T (K s) (Text s).
Proof.
  intros (U & C). unfold K. rewrite encode_string_utf8 by exact U. rewrite !concatenate_cons. change (concatenate []) with "". rewrite app_nil.
  apply denotes_text, escapes_inside, C.
Qed.
Lemma elements_denoted vs : (forall v, In v vs -> T (E print v) v) -> vs <> [] -> denotes_elements json_blank json_numeral scan (inside json_escapes) (list_text (map (E print) vs)) vs.
Proof.
  induction vs as [|v vs IH]; intros H N; [congruence|]. cbn [map list_text]. destruct vs as [|w vs].
  - cbn [map rest_text]. rewrite app_nil. constructor. apply H. left. reflexivity.
  - change (rest_text (map (E print) (w :: vs))) with ("," ++ list_text (map (E print) (w :: vs))). apply denotes_more; [apply H; left; reflexivity|].
    apply IH; [intros u I; apply H; right; exact I|discriminate].
Qed.
Lemma entries_denoted es : (forall k v, In (k, v) es -> text_ok k /\ T (E print v) v) -> es <> [] ->
  denotes_entries json_blank json_numeral scan (inside json_escapes) (list_text (map (Ee print) es)) es.
Proof.
  induction es as [|(k, v) es IH]; intros H N; [congruence|]. destruct (H k v (or_introl eq_refl)) as (Hk & Hv).
  cbn [map list_text]. change (Ee print (k, v)) with (K k ++ ":" ++ E print v). destruct es as [|e es].
  - cbn [map rest_text]. rewrite app_nil. apply denotes_last_entry; [apply string_text, Hk|exact Hv].
  - change (rest_text (map (Ee print) (e :: es))) with ("," ++ list_text (map (Ee print) (e :: es))). rewrite !app_assoc. apply denotes_more_entries; [apply string_text, Hk|exact Hv|].
    apply IH; [intros k' v' I; apply H; right; exact I|discriminate].
Qed.
Theorem encoded_text v : good (ok print scan) text_ok v -> T (encode print v) v.
Proof.
  change (encode print v) with (E print v). induction v as [| |n|s|vs IH|es IH] using json_ind'; intros G; inversion G; subst.
  - constructor.
  - destruct b; constructor.
  - destruct H0 as (Nn & Sn). change (E print (Number n)) with (concatenate [print n]). rewrite concatenate_cons. change (concatenate []) with "". rewrite app_nil.
    rewrite <- Sn at 2. apply denotes_number. exists (print n), "". rewrite app_nil. split; [reflexivity|]. split; [exact Nn|]. left. reflexivity.
  - apply string_text. assumption.
  - rewrite E_array. destruct vs as [|v vs]; [apply (denotes_empty_array _ _ _ _ ""); reflexivity|]. apply denotes_array, elements_denoted; [|discriminate].
    intros w I. exact (proj1 (Forall_forall _ _) IH w I (H0 w I)).
  - rewrite E_object. destruct es as [|e es]; [apply (denotes_empty_object _ _ _ _ ""); reflexivity|]. rewrite <- (latest_distinct (e :: es)) at 2 by assumption. apply denotes_object. apply entries_denoted; [|discriminate].
    intros k w I. split; [exact (proj1 (H1 k w I))|]. exact (proj1 (Forall_forall _ _) IH (k, w) I (proj2 (H1 k w I))).
Qed.
End Text.

(** *** Texts that are not JSON texts *)
Lemma all_app P s t : all P (s ++ t) <-> all P s /\ all P t.
Proof. unfold all. induction s as [|c s IH]; cbn [append list_ascii_of_string forallb]; [tauto|]. rewrite !andb_true_iff, IH. tauto. Qed.
Lemma all_cons P c t : all P (String c t) <-> P c = true /\ all P t.
Proof. unfold all. cbn [list_ascii_of_string forallb]. rewrite andb_true_iff. tauto. Qed.
Lemma all_weaken (P Q : ascii -> bool) s : (forall c, P c = true -> Q c = true) -> all P s -> all Q s.
Proof. unfold all. rewrite !forallb_forall. intros H A c I. apply H, A, I. Qed.
Definition printable (c : ascii) : bool := ((32 <=? nat_of_ascii c)%nat || json_blank c)%bool.
Lemma digit_printable c : is_digit c = true -> printable c = true.
Proof. destruct c as [[] [] [] [] [] [] [] []]; vm_compute; intros; try discriminate; reflexivity. Qed.
Lemma blank_printable c : json_blank c = true -> printable c = true.
Proof. unfold printable. intros ->. apply orb_true_r. Qed.
Lemma numeral_printable s : json_numeral s -> all printable s.
Proof.
  intros (m & e & -> & (sign & i & f & -> & S & W & F) & E). rewrite !all_app. repeat split.
  - destruct S as [->| ->]; reflexivity.
  - destruct W as [->|(c & t & -> & D & _ & A)]; [reflexivity|]. apply all_cons. split; [apply digit_printable, D|]. apply (all_weaken _ _ _ digit_printable A).
  - destruct F as [->|(d & -> & _ & A)]; [reflexivity|]. apply all_app. split; [reflexivity|]. apply (all_weaken _ _ _ digit_printable A).
  - destruct E as [->|(c & sg & d & -> & C & S' & _ & A)]; [reflexivity|]. apply all_cons. split; [destruct C as [<-|[<-|[]]]; reflexivity|]. apply all_app.
    split; [destruct S' as [<-|[<-|[<-|[]]]]; reflexivity|]. apply (all_weaken _ _ _ digit_printable A).
Qed.
Lemma inside_printable t s : inside json_escapes t s -> all printable t.
Proof.
  induction 1 as [|c t s U _ IH|a c t s I _ IH]; [reflexivity| |].
  - apply all_cons. split; [|exact IH]. unfold unescaped in U. rewrite !andb_true_iff in U. unfold printable. rewrite (proj1 (proj1 U)). reflexivity.
  - apply all_cons. split; [reflexivity|]. apply all_cons. split; [|exact IH]. cbn in I. repeat (destruct I as [I|I]; [injection I as <- <-; reflexivity|]). destruct I.
Qed.
Scheme json_rec := Minimality for denotes Sort Prop
  with json_elements_rec := Minimality for denotes_elements Sort Prop
  with json_entries_rec := Minimality for denotes_entries Sort Prop.
Lemma denotes_weaken (blank blank' : ascii -> bool) (numeral numeral' : string -> Prop) scan (inside inside' : string -> string -> Prop) :
  (forall c, blank c = true -> blank' c = true) -> (forall s, numeral s -> numeral' s) -> (forall t s, inside t s -> inside' t s) ->
  forall t v, denotes blank numeral scan inside t v -> denotes blank' numeral' scan inside' t v.
Proof.
  intros B N I t v. apply (json_rec blank numeral scan inside (denotes blank' numeral' scan inside') (denotes_elements blank' numeral' scan inside') (denotes_entries blank' numeral' scan inside'));
    intros; constructor; auto; eapply all_weaken; eauto.
Qed.
Lemma inside_loose t s : inside [(""""%char, """"%char)] t s -> loose_inside t s.
Proof.
  induction 1 as [|c t s U _ IH|a c t s I _ IH]; [constructor| |].
  - unfold unescaped in U. rewrite !andb_true_iff, !negb_true_iff in U. destruct U as ((_ & Q) & B). apply Ascii.eqb_neq in Q. apply Ascii.eqb_neq in B. constructor; [exact Q|congruence|exact IH].
  - destruct I as [I|[]]. injection I as <- <-. constructor. exact IH.
Qed.
Lemma simple_loose scan t v : simple_json_text scan t v -> loose_json_text scan t v.
Proof. apply denotes_weaken; [auto|exact number_loose|exact inside_loose]. Qed.
Lemma simple_json scan t v : simple_json_text scan t v -> json_text scan t v.
Proof.
  apply denotes_weaken; [| |].
  - unfold simple_blank, json_blank. intros c ->. reflexivity.
  - intros s N. exists s, "". rewrite app_nil. repeat split; [exact N|left; reflexivity].
  - intros u s H. induction H as [|c u s U _ IH|a c u s I _ IH]; [constructor|apply inside_plain; assumption|]. apply inside_escape; [|exact IH]. destruct I as [I|[]]. injection I as <- <-. left. reflexivity.
Qed.
Lemma json_printable scan t v : json_text scan t v -> all printable t.
Proof.
  apply (json_rec json_blank json_numeral scan (inside json_escapes) (fun t _ => all printable t) (fun t _ => all printable t) (fun t _ => all printable t));
    try reflexivity; intros; rewrite ?all_app; repeat split; try reflexivity; try assumption;
    first [eapply inside_printable; eassumption | apply numeral_printable; assumption | eapply all_weaken; [exact blank_printable|assumption]].
Qed.

(** The first and the last character *)
Definition opens (c : ascii) : bool := (is_digit c || existsb (Ascii.eqb c) ["-"; "n"; "t"; "f"; """"%char; "["; "{"]%char)%bool.
Definition closes (c : ascii) : bool := (is_digit c || existsb (Ascii.eqb c) ["l"; "e"; """"%char; "]"; "}"]%char)%bool.
Lemma last_of d P : d <> "" -> all P d -> exists u c, d = u ++ String c "" /\ P c = true.
Proof.
  induction d as [|c d IH]; intros N A; [congruence|]. apply all_cons in A as (Pc & A). destruct d as [|e d]; [exists "", c; split; [reflexivity|exact Pc]|].
  destruct (IH ltac:(discriminate) A) as (u & x & -> & Px). exists (String c u), x. split; [reflexivity|exact Px].
Qed.
Lemma numeral_ends s : json_numeral s -> (exists c t, s = String c t /\ opens c = true) /\ (exists u c, s = u ++ String c "" /\ closes c = true).
Proof.
  intros (m & e & -> & (sign & i & f & -> & S & W & F) & E). split.
  - destruct S as [->| ->]; [|eexists; eexists; split; [reflexivity|reflexivity]]. destruct W as [->|(c & t & -> & D & _)]; [eexists; eexists; split; [reflexivity|reflexivity]|].
    eexists; eexists; split; [reflexivity|]. unfold opens. rewrite D. reflexivity.
  - assert (X : forall d, d <> "" -> all is_digit d -> exists u c, d = u ++ String c "" /\ closes c = true).
    { intros d N A. destruct (last_of d is_digit N A) as (u & c & -> & D). exists u, c. split; [reflexivity|]. unfold closes. rewrite D. reflexivity. }
    assert (Wl : exists u c, i = u ++ String c "" /\ closes c = true).
    { destruct W as [->|(c & t & -> & D & _ & A)]; [exists "", "0"%char; split; reflexivity|]. apply X; [discriminate|]. apply all_cons. split; assumption. }
    destruct E as [->|(c & sg & d & -> & _ & _ & N & A)].
    + rewrite app_nil. destruct F as [->|(d & -> & N & A)].
      * destruct Wl as (u & c & -> & C). exists (sign ++ u), c. rewrite app_nil, app_assoc. split; [reflexivity|exact C].
      * destruct (X d N A) as (u & c & -> & C). exists (sign ++ i ++ "." ++ u), c. rewrite !app_assoc. split; [reflexivity|exact C].
    + destruct (X d N A) as (u & c' & -> & C). exists (((sign ++ i ++ f) ++ String c (sg ++ u))), c'. rewrite !app_assoc. cbn [append]. rewrite !app_assoc. split; [reflexivity|exact C].
Qed.
Lemma json_ends scan t v : json_text scan t v -> exists w x, white json_blank w /\ white json_blank x /\
  (exists c u, t = w ++ String c u /\ opens c = true) /\ (exists u c, t = u ++ String c x /\ closes c = true).
Proof.
  assert (G : forall a u b, opens a = true -> closes b = true -> exists w x, white json_blank w /\ white json_blank x /\
    (exists c t, String a "" ++ u ++ String b "" = w ++ String c t /\ opens c = true) /\ (exists t c, String a "" ++ u ++ String b "" = t ++ String c x /\ closes c = true)).
  { intros a u b A B. exists "", "". repeat split; [exists a, (u ++ String b ""); split; [reflexivity|exact A]|]. exists (String a "" ++ u), b. rewrite app_assoc. split; [reflexivity|exact B]. }
  induction 1.
  - apply (G "n"%char "ul" "l"%char); reflexivity.
  - apply (G "t"%char "ru" "e"%char); reflexivity.
  - apply (G "f"%char "als" "e"%char); reflexivity.
  - destruct (numeral_ends s H) as (O & C). exists "", "". repeat split; assumption.
  - apply G; reflexivity.
  - apply G; reflexivity.
  - apply G; reflexivity.
  - apply G; reflexivity.
  - apply G; reflexivity.
  - destruct IHdenotes as (w' & x' & W & X & (c & u & E & O) & (u' & c' & E' & C)). exists (w ++ w'), (x' ++ x). repeat split; try (apply all_app; split; assumption).
    + exists c, (u ++ x). rewrite E, !app_assoc. split; [reflexivity|exact O].
    + exists (w ++ u'), c'. rewrite E', !app_assoc. split; [reflexivity|exact C].
Qed.
