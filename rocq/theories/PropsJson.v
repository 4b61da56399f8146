(** Properties of JSON values: C36, C51 and C52. *)
From Coq Require Import String Ascii List ZArith Bool Lia.
From Coq Require Import Floats.SpecFloat.
From Verif Require Import Base Float PkgBytes PkgBytesSpec PkgBytesProofs Utf8 PkgUtf8 PkgUtf8Proofs PkgHtmlSpec PkgJson PkgJsonSpec PkgJsonProofs PkgJsonTextProofs PkgJsonDecodeProofs PkgJsonTotalProofs.
Import ListNotations.
Local Open Scope string_scope.

(** In all theorems [print] and [scan] are how numbers are written and read, and the
    fuel is the number of steps: any large enough number gives the same result. *)

(** A number whose text is a JSON number that is read as the same number *)
Definition faithful (print : number -> string) (scan : string -> number) (n : number) : Prop := number_text (print n) /\ scan (print n) = n.

(** *** C36: JSON values survive encoding and decoding *)
(** Missing: strings with backslashes, strings with quotes that are not UTF-8, and
    infinities and NaN, for all of which it is false. *)
Theorem json_round_trip_partial : forall print scan v, good (faithful print scan) plain v -> reasonable (encode print v) ->
  forall fuel, (2 * String.length (encode print v) + 2 <= fuel)%nat -> decode scan fuel (encode print v) = Ok v.
Proof.
  intros print scan v G R fuel L. unfold decode. rewrite vw_new. change (encode print v) with (E print v) in *.
  pose proof (good_decodes print scan v G fuel "" "") as D. rewrite !app_nil in D. cbn [append] in D. rewrite D by (assumption || (left; reflexivity)). cbn [bind fst snd].
  assert (S : shows (vw (E print v) "") "") by (apply vw_shows; rewrite app_nil; exact R).
  rewrite blank_ok; [|rewrite app_nil; exact R|lia|reflexivity]. cbn [bind]. rewrite (shows_length _ _ S). reflexivity.
Qed.
Print Assumptions json_round_trip_partial.

Definition sample_print (n : number) : string := if equal n (of_int 42) then "42" else "-0.5".
Definition sample_scan (s : string) : number := if String.eqb s "42" then of_int 42 else S754_finite true 4503599627370496 (-53).
Definition json_sample : json :=
  Object [("name", Text ("say ""hi""")); ("values", Array [Number (of_int 42); Number (sample_scan "-0.5"); Boolean true; Null; Array []]); ("", Object [])].
Example json_round_trip_case : good (faithful sample_print sample_scan) plain json_sample /\ reasonable (encode sample_print json_sample) /\
  encode sample_print json_sample = "{""name"":""say \""hi\"""",""values"":[42,-0.5,true,null,[]],"""":{}}" /\ decode sample_scan 200 (encode sample_print json_sample) = Ok json_sample.
Proof.
  assert (U : utf8 "say ""hi""") by (exists [115; 97; 121; 32; 34; 104; 105; 34]%Z; split; [repeat constructor|vm_compute; reflexivity]).
  assert (F1 : faithful sample_print sample_scan (of_int 42)).
  { split; [|vm_compute; reflexivity]. exists "", "42", "". repeat split; [left; reflexivity| |left; reflexivity]. right. exists "4"%char, "2". repeat split. discriminate. }
  assert (F2 : faithful sample_print sample_scan (sample_scan "-0.5")).
  { split; [|vm_compute; reflexivity]. exists "-", "0", ".5". repeat split; [right; reflexivity|left; reflexivity|]. right. exists "5". repeat split. discriminate. }
  split; [|split; [vm_compute; reflexivity|split; vm_compute; reflexivity]]. constructor.
  - repeat constructor; cbn; intuition discriminate.
  - intros k v [I|[I|[I|[]]]]; injection I as <- <-; (split; [split; [reflexivity|right; reflexivity]|]).
    + constructor. split; [reflexivity|left; exact U].
    + constructor. intros v [<-|[<-|[<-|[<-|[<-|[]]]]]]; try (constructor; assumption). constructor. intros v [].
    + constructor; [constructor|]. intros k v [].
Qed.

(** A string with a backslash becomes another string, or no value at all. *)
Theorem json_backslash_refuted : forall print scan,
  (exists s s', utf8 s /\ no_control s /\ decode scan 100 (encode print (Text s)) = Ok (Text s') /\ s <> s') /\
  (exists s e, utf8 s /\ no_control s /\ decode scan 100 (encode print (Text s)) = NotFound e).
Proof.
  intros print scan. split.
  - exists "a\b". eexists. split; [exists [97; 92; 98]%Z; split; [repeat constructor|reflexivity]|]. split; [reflexivity|]. split; [vm_compute; reflexivity|discriminate].
  - exists "a\". eexists. split; [exists [97; 92]%Z; split; [repeat constructor|reflexivity]|]. split; [reflexivity|]. vm_compute. reflexivity.
Qed.
Print Assumptions json_backslash_refuted.

(** An encoded infinity or NaN cannot be decoded.  The texts are those of Rust. *)
Theorem json_infinity_refuted : forall print scan, print infinity = "inf" -> print S754_nan = "NaN" ->
  (exists e, decode scan 100 (encode print (Number infinity)) = NotFound e) /\ (exists e, decode scan 100 (encode print (Array [Number S754_nan])) = NotFound e).
Proof.
  intros print scan I N. split; eexists; cbn [encode encode_value elements app].
  - change (encode print (Number infinity)) with (concatenate [print infinity]). rewrite I. vm_compute. reflexivity.
  - unfold encode. cbn [encode_value elements app]. rewrite N. vm_compute. reflexivity.
Qed.
Print Assumptions json_infinity_refuted.

(** A string with a quote that is not UTF-8 is not escaped. *)
Theorem json_invalid_string_refuted : forall print scan, exists s e, decode scan 100 (encode print (Text s)) = NotFound e.
Proof. intros print scan. exists (String "255" """"). eexists. vm_compute. reflexivity. Qed.
Print Assumptions json_invalid_string_refuted.

(** *** C51: encoded values are JSON texts *)
(** The encoding of a value is a JSON text (RFC 8259) of this value.  Missing: strings
    with control characters and infinities and NaN, for which it is false, and strings
    that are not UTF-8, which are outside JSON. *)
Theorem json_encodes_text_partial : forall print scan v, good (faithful print scan) (fun s => utf8 s /\ no_control s) v -> json_text scan (encode print v) v.
Proof. intros print scan v G. apply encoded_text. exact G. Qed.
Print Assumptions json_encodes_text_partial.
Example json_encodes_text_case : good (faithful sample_print sample_scan) (fun s => utf8 s /\ no_control s) (Array [Text "a\b""c"; Object [("k", Number (of_int 42))]]) /\
  encode sample_print (Array [Text "a\b""c"; Object [("k", Number (of_int 42))]]) = "[""a\\b\""c"",{""k"":42}]".
Proof.
  split; [|vm_compute; reflexivity]. constructor. intros v [<-|[<-|[]]].
  - constructor. split; [|reflexivity]. exists [97; 92; 98; 34; 99]%Z. split; [repeat constructor|reflexivity].
  - constructor; [repeat constructor; cbn; tauto|]. intros k v [I|[]]. injection I as <- <-. split; [split; [|reflexivity]; exists [107]%Z; split; [repeat constructor|reflexivity]|].
    constructor. split; [|vm_compute; reflexivity]. exists "", "42", "". repeat split; [left; reflexivity| |left; reflexivity]. right. exists "4"%char, "2". repeat split. discriminate.
Qed.

(** Control characters are not escaped: the result is no JSON text at all. *)
Theorem json_control_refuted : forall print scan, exists s, utf8 s /\ forall v, ~ json_text scan (encode print (Text s)) v.
Proof.
  intros print scan. exists (String "001" ""). split; [exists [1]%Z; split; [repeat constructor|reflexivity]|]. intros v H. apply json_printable in H. vm_compute in H. discriminate.
Qed.
Print Assumptions json_control_refuted.
Theorem json_infinity_text_refuted : forall print scan, print infinity = "inf" -> forall v, ~ json_text scan (encode print (Number infinity)) v.
Proof.
  intros print scan I v H. change (encode print (Number infinity)) with (concatenate [print infinity]) in H. rewrite I in H. change (concatenate ["inf"]) with "inf" in H.
  apply json_ends in H as (w & x & W & X & (c & u & E & O) & _). destruct w as [|d w]; [injection E as <- _; vm_compute in O; discriminate|].
  injection E as <- _. vm_compute in W. discriminate.
Qed.
Print Assumptions json_infinity_text_refuted.

(** *** C52: JSON texts decode to what they say *)
(** Decoding ends on every string.  It gives a value exactly if the string is a text of the
    value in the grammar with white space anywhere in which numbers may end with a dot,
    and strings may contain control characters and backslashes that stand for
    themselves; otherwise it gives an error. *)
Theorem json_decode_exact : forall scan s, reasonable s -> forall fuel, (2 * String.length s + 2 <= fuel)%nat ->
  (forall v, decode scan fuel s = Ok v <-> loose_json_text scan s v) /\
  ((forall v, ~ loose_json_text scan s v) -> exists e, decode scan fuel s = NotFound e).
Proof.
  intros scan s R fuel L. split.
  - intros v. split; [|intros H; apply decode_text; assumption].
    intros H. destruct (decode_outcome scan s fuel R L) as [(v' & E & D)|(e & E)]; rewrite E in H; [injection H as ->; exact D|discriminate].
  - intros N. destruct (decode_outcome scan s fuel R L) as [(v & E & D)|H]; [destruct (N v D)|exact H].
Qed.
Print Assumptions json_decode_exact.

(** So a JSON text decodes to its value.  Missing: carriage returns, exponents and
    escapes of other characters than quotes, for which it is false. *)
Theorem json_decodes_partial : forall scan s v, simple_json_text scan s v -> reasonable s -> forall fuel, (2 * String.length s + 2 <= fuel)%nat ->
  json_text scan s v /\ decode scan fuel s = Ok v.
Proof. intros scan s v D R fuel L. split; [apply simple_json, D|]. apply (json_decode_exact scan s R fuel L), simple_loose, D. Qed.
Print Assumptions json_decodes_partial.
Example json_decodes_case : simple_json_text sample_scan (" { ""a\""b"" : [ 42,null ] } ") (Object [("a""b", Array [Number (of_int 42); Null])]) /\
  decode sample_scan 100 (" { ""a\""b"" : [ 42,null ] } ") = Ok (Object [("a""b", Array [Number (of_int 42); Null])]).
Proof.
  split; [|vm_compute; reflexivity]. unfold simple_json_text.
  apply (denotes_white _ _ _ _ " " " " ("{ ""a\""b"" : [ 42,null ] }")); [reflexivity|reflexivity|].
  apply (denotes_object _ _ _ _ (" ""a\""b"" : [ 42,null ] ") [("a""b", Array [Number (of_int 42); Null])]).
  apply (denotes_last_entry _ _ _ _ (" ""a\""b"" ") "a""b" " [ 42,null ] ").
  - apply (denotes_white _ _ _ _ " " " " ("""a\""b""")); [reflexivity|reflexivity|]. apply (denotes_text _ _ _ _ "a\""b" "a""b").
    apply inside_plain; [reflexivity|]. apply inside_escape; [left; reflexivity|]. apply inside_plain; [reflexivity|]. constructor.
  - apply (denotes_white _ _ _ _ " " " " ("[ 42,null ]")); [reflexivity|reflexivity|]. apply (denotes_array _ _ _ _ " 42,null ").
    apply (denotes_more _ _ _ _ " 42" _ "null ").
    + apply (denotes_white _ _ _ _ " " "" "42"); [reflexivity|reflexivity|]. apply (denotes_number _ _ sample_scan _ "42").
      exists "", "42", "". repeat split; [left; reflexivity| |left; reflexivity]. right. exists "4"%char, "2". repeat split. discriminate.
    + constructor. apply (denotes_white _ _ _ _ "" " " "null"); [reflexivity|reflexivity|]. constructor.
Qed.

(** Escapes are read as the characters they are made of, also those of backslashes;
    exponents and carriage returns are errors. *)
Theorem json_decode_refuted : forall scan,
  (exists s v v', json_text scan s v /\ decode scan 100 s = Ok v' /\ v <> v') /\
  (exists s v e, json_numeral s /\ json_text scan s v /\ decode scan 100 s = NotFound e) /\
  (exists s v e, json_text scan s v /\ decode scan 100 (s ++ String "013" "") = NotFound e /\ json_text scan (s ++ String "013" "") v).
Proof.
  intros scan. split; [|split].
  - exists ("""" ++ "\n" ++ """"). eexists. eexists. split; [apply denotes_text, inside_escape; [do 5 right; left; reflexivity|constructor]|]. split; [vm_compute; reflexivity|discriminate].
  - assert (N : json_numeral "1e2").
    { exists "1", "e2". split; [reflexivity|]. split.
      - exists "", "1", "". repeat split; [left; reflexivity| |left; reflexivity]. right. exists "1"%char, "". repeat split. discriminate.
      - right. exists "e"%char, "", "2". repeat split; [left; reflexivity|left; reflexivity|discriminate]. }
    exists "1e2". eexists. eexists. split; [exact N|]. split; [apply denotes_number; exact N|]. vm_compute. reflexivity.
  - exists "null". eexists. eexists. split; [constructor|]. split; [vm_compute; reflexivity|]. apply (denotes_white _ _ _ _ "" (String "013" "") "null"); [reflexivity|reflexivity|]. constructor.
Qed.
Print Assumptions json_decode_refuted.

(** Texts that are not JSON are accepted. *)
Theorem json_accepts_other_text_refuted : forall scan, exists s, decode scan 100 s = Ok (Number (scan s)) /\ forall v, ~ json_text scan s v.
Proof.
  intros scan. exists "1.". split; [vm_compute; reflexivity|]. intros v H. apply json_ends in H as (w & x & W & X & _ & (u & c & E & C)).
  destruct u as [|a [|b [|d u]]]; cbn [append] in E; try discriminate.
  - injection E as <- <-. vm_compute in X. discriminate.
  - injection E as _ <- <-. vm_compute in C. discriminate.
Qed.
Print Assumptions json_accepts_other_text_refuted.
