(** Specification for JSON. *)
From Coq Require Import String Ascii List ZArith Bool.
From Verif Require Import Float Utf8 PkgHtmlSpec PkgJson.
Import ListNotations.
Local Open Scope string_scope.

Definition is_digit (c : ascii) : bool := let n := nat_of_ascii c in ((48 <=? n) && (n <=? 57))%nat.
Definition all (P : ascii -> bool) (s : string) : Prop := forallb P (list_ascii_of_string s) = true.

(** Numbers without exponents (RFC 8259, section 6) *)
Definition whole_text (s : string) : Prop :=
  s = "0" \/ exists c t, s = String c t /\ is_digit c = true /\ c <> "0"%char /\ all is_digit t.
Definition number_text (s : string) : Prop :=
  exists sign i f, s = sign ++ i ++ f /\ (sign = "" \/ sign = "-") /\ whole_text i /\
    (f = "" \/ exists d, f = "." ++ d /\ d <> "" /\ all is_digit d).

(** Strings that are encoded and decoded alike: without backslashes, and UTF-8 or
    without quotes *)
Definition no (c : ascii) (s : string) : Prop := all (fun d => negb (Ascii.eqb d c)) s.
Definition plain (s : string) : Prop := no "\" s /\ (utf8 s \/ no """" s).

(** [ok n] and [plain s] for all numbers and strings of a value; maps have no repeated keys. *)
Inductive good (ok : number -> Prop) (plain : string -> Prop) : json -> Prop :=
| good_null : good ok plain Null
| good_boolean : forall b, good ok plain (Boolean b)
| good_number : forall n, ok n -> good ok plain (Number n)
| good_text : forall s, plain s -> good ok plain (Text s)
| good_array : forall vs, (forall v, In v vs -> good ok plain v) -> good ok plain (Array vs)
| good_object : forall es, NoDup (map fst es) -> (forall k v, In (k, v) es -> plain k /\ good ok plain v) -> good ok plain (Object es).

(** The JSON texts of a value (RFC 8259).  [blank] are the characters of white space,
    [numeral] the texts of numbers, [scan] their meaning, and [inside] the texts between
    the quotes of strings with their meaning.  If a name comes twice in an object, the
    last one counts. *)
Fixpoint latest (es : list (string * json)) : list (string * json) :=
  match es with
  | [] => []
  | (k, v) :: es => if in_dec string_dec k (map fst es) then latest es else (k, v) :: latest es
  end.
Section Denotes.
  Variable blank : ascii -> bool.
  Variable numeral : string -> Prop.
  Variable scan : string -> number.
  Variable inside : string -> string -> Prop.
  (** Section 2 *)
  Definition white (s : string) : Prop := all blank s.
  (** Sections 3 to 7 *)
  Inductive denotes : string -> json -> Prop :=
  | denotes_null : denotes "null" Null
  | denotes_true : denotes "true" (Boolean true)
  | denotes_false : denotes "false" (Boolean false)
  | denotes_number : forall s, numeral s -> denotes s (Number (scan s))
  | denotes_text : forall t s, inside t s -> denotes ("""" ++ t ++ """") (Text s)
  | denotes_array : forall t vs, denotes_elements t vs -> denotes ("[" ++ t ++ "]") (Array vs)
  | denotes_empty_array : forall w, white w -> denotes ("[" ++ w ++ "]") (Array [])
  | denotes_object : forall t es, denotes_entries t es -> denotes ("{" ++ t ++ "}") (Object (latest es))
  | denotes_empty_object : forall w, white w -> denotes ("{" ++ w ++ "}") (Object [])
  | denotes_white : forall w x t v, white w -> white x -> denotes t v -> denotes (w ++ t ++ x) v
  with denotes_elements : string -> list json -> Prop :=
  | denotes_last : forall t v, denotes t v -> denotes_elements t [v]
  | denotes_more : forall t v u vs, denotes t v -> denotes_elements u vs -> denotes_elements (t ++ "," ++ u) (v :: vs)
  with denotes_entries : string -> list (string * json) -> Prop :=
  | denotes_last_entry : forall t k u v, denotes t (Text k) -> denotes u v -> denotes_entries (t ++ ":" ++ u) [(k, v)]
  | denotes_more_entries : forall t k u v x es, denotes t (Text k) -> denotes u v -> denotes_entries x es ->
      denotes_entries (t ++ ":" ++ u ++ "," ++ x) ((k, v) :: es).
End Denotes.

(** RFC 8259, section 7: the text between the quotes of a string.  [escapes] are the
    characters after backslashes with their meaning. *)
Definition unescaped (c : ascii) : bool := ((32 <=? nat_of_ascii c) && negb (Ascii.eqb c """") && negb (Ascii.eqb c "\"))%nat.
Inductive inside (escapes : list (ascii * ascii)) : string -> string -> Prop :=
| inside_end : inside escapes "" ""
| inside_plain : forall c t s, unescaped c = true -> inside escapes t s -> inside escapes (String c t) (String c s)
| inside_escape : forall a c t s, In (a, c) escapes -> inside escapes t s -> inside escapes (String "\" (String a t)) (String c s).

(** All of RFC 8259 but the escapes [\u] *)
Definition json_blank (c : ascii) : bool := let n := nat_of_ascii c in ((n =? 32) || (n =? 9) || (n =? 10) || (n =? 13))%nat.
Definition json_escapes : list (ascii * ascii) :=
  [(""""%char, """"%char); ("\", "\"); ("/", "/"); ("b", "008"); ("f", "012"); ("n", "010"); ("r", "013"); ("t", "009")]%char.
Definition json_numeral (s : string) : Prop :=
  exists m e, s = m ++ e /\ number_text m /\
    (e = "" \/ exists c sign d, e = String c (sign ++ d) /\ In c ["e"; "E"]%char /\ In sign [""; "+"; "-"] /\ d <> "" /\ all is_digit d).
Definition json_text (scan : string -> number) : string -> json -> Prop := denotes json_blank json_numeral scan (inside json_escapes).

(** The part without carriage returns, exponents and escapes of other characters than quotes *)
Definition simple_blank (c : ascii) : bool := let n := nat_of_ascii c in ((n =? 32) || (n =? 9) || (n =? 10))%nat.
Definition simple_json_text (scan : string -> number) : string -> json -> Prop := denotes simple_blank number_text scan (inside [(""""%char, """"%char)]).

(** What the decoder reads: numbers may end with a dot; in strings a backslash
    before a quote escapes it, and all other characters, also control characters and other
    backslashes, stand for themselves. *)
Definition loose_numeral (s : string) : Prop :=
  exists sign i f, s = sign ++ i ++ f /\ (sign = "" \/ sign = "-") /\ whole_text i /\ (f = "" \/ exists d, f = "." ++ d /\ all is_digit d).
Inductive loose_inside : string -> string -> Prop :=
| loose_end : loose_inside "" ""
| loose_plain : forall c t s, c <> """"%char -> (c = "\"%char -> t <> "") -> loose_inside t s -> loose_inside (String c t) (String c s)
| loose_quote : forall t s, loose_inside t s -> loose_inside (String "\" (String """" t)) (String """" s).
Definition loose_json_text (scan : string -> number) : string -> json -> Prop := denotes simple_blank loose_numeral scan loose_inside.

(** Texts in UTF-8 without control characters *)
Definition no_control (s : string) : Prop := all (fun c => 32 <=? nat_of_ascii c)%nat s.
