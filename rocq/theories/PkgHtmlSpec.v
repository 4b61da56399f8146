(** Specification for HTML: how a browser reads the output.

    This follows the tokenization of the HTML standard (WHATWG, 13.2.5) for the part
    that rendered nodes need.  Bytes and states outside that part have no step, so that
    the reader stops ([None]).  Left out: the standard's treatment of carriage returns
    and the character 0 in text, and of attributes that occur twice. *)
From Coq Require Import String Ascii List ZArith Bool.
From Verif Require Import Utf8 PkgHtml.
Import ListNotations.
Local Open Scope string_scope.

Definition letter (c : ascii) : bool :=
  let n := nat_of_ascii c in ((97 <=? n) && (n <=? 122) || (65 <=? n) && (n <=? 90))%nat.
Definition space (c : ascii) : bool :=
  let n := nat_of_ascii c in ((n =? 9) || (n =? 10) || (n =? 12) || (n =? 13) || (n =? 32))%nat.
Definition is (d c : ascii) : bool := Ascii.eqb c d.

Inductive token :=
| Character (c : ascii)
| Open (tag : string) (attributes : list (string * string)) (self_closing : bool)
| Close (tag : string).

Inductive state :=
| Data                                                   (* 13.2.5.1 *)
| TagOpen                                                (* 13.2.5.6 *)
| EndTagOpen                                             (* 13.2.5.7 *)
| TagName (tag : string)                                 (* 13.2.5.8, start tags *)
| EndTagName (tag : string)                              (* 13.2.5.8, end tags *)
| BeforeName (tag : string) (ats : list (string * string))                (* 13.2.5.32 *)
| Name (tag : string) (ats : list (string * string)) (k : string)         (* 13.2.5.33 *)
| BeforeValue (tag : string) (ats : list (string * string)) (k : string)  (* 13.2.5.35 *)
| Value (tag : string) (ats : list (string * string)) (k v : string)      (* 13.2.5.36 *)
| AfterValue (tag : string) (ats : list (string * string))                (* 13.2.5.39 *)
| SelfClosing (tag : string) (ats : list (string * string))               (* 13.2.5.40 *)
| Raw (tag : string)                                     (* 13.2.5.3 *)
| RawLess (tag : string)                                 (* 13.2.5.12 *)
| RawEnd (tag end_ : string)                             (* 13.2.5.13, 13.2.5.14 *)
| Reference (back : ascii -> list token * state) (r : string).            (* 13.2.5.72-80 *)

Definition snoc (s : string) (c : ascii) : string := s ++ String c "".

(** The character references of the output *)
Definition reference (r : string) : option ascii :=
  if String.eqb r "amp" then Some "&"%char
  else if String.eqb r "lt" then Some "<"%char
  else if String.eqb r "gt" then Some ">"%char
  else if String.eqb r "quot" then Some """"%char
  else if String.eqb r "#x27" then Some "'"%char
  else None.

(** After some tags, text is not read as HTML (13.2.6.4). *)
Definition raw_tags := ["style"; "script"; "xmp"; "iframe"; "noembed"; "noframes"].
Definition other_tags := ["title"; "textarea"; "plaintext"; "noscript"].
Definition contains (l : list string) (s : string) : bool := existsb (String.eqb s) l.
Definition open (tag : string) (ats : list (string * string)) (b : bool) : option (list token * state) :=
  if contains raw_tags tag then Some ([Open tag ats b], Raw tag)
  else if contains other_tags tag then None
  else Some ([Open tag ats b], Data).

Definition before_name (tag : string) (ats : list (string * string)) (c : ascii) : option (list token * state) :=
  if space c then Some ([], BeforeName tag ats)
  else if is "/" c then Some ([], SelfClosing tag ats)
  else if is ">" c then open tag ats false
  else if letter c || is "-" c then Some ([], Name tag ats (String c ""))
  else None.

Definition step (st : state) (c : ascii) : option (list token * state) :=
  match st with
  | Data =>
      if is "<" c then Some ([], TagOpen)
      else if is "&" c then Some ([], Reference (fun c => ([Character c], Data)) "")
      else Some ([Character c], Data)
  | TagOpen =>
      if is "/" c then Some ([], EndTagOpen)
      else if letter c then Some ([], TagName (String c ""))
      else if is "!" c || is "?" c || is "<" c || is "&" c then None
      else Some ([Character "<"; Character c], Data)
  | EndTagOpen => if letter c then Some ([], EndTagName (String c "")) else None
  | TagName tag =>
      if space c then Some ([], BeforeName tag [])
      else if is "/" c then Some ([], SelfClosing tag [])
      else if is ">" c then open tag [] false
      else Some ([], TagName (snoc tag c))
  | EndTagName tag =>
      if is ">" c then Some ([Close tag], Data)
      else if space c || is "/" c then None
      else Some ([], EndTagName (snoc tag c))
  | BeforeName tag ats => before_name tag ats c
  | Name tag ats k =>
      if is "=" c then Some ([], BeforeValue tag ats k)
      else if letter c || is "-" c then Some ([], Name tag ats (snoc k c))
      else None
  | BeforeValue tag ats k => if is """" c then Some ([], Value tag ats k "") else None
  | Value tag ats k v =>
      if is """" c then Some ([], AfterValue tag (ats ++ [(k, v)]))
      else if is "&" c then Some ([], Reference (fun c => ([], Value tag ats k (snoc v c))) "")
      else Some ([], Value tag ats k (snoc v c))
  | AfterValue tag ats => before_name tag ats c
  | SelfClosing tag ats => if is ">" c then open tag ats true else None
  | Raw tag => if is "<" c then Some ([], RawLess tag) else Some ([Character c], Raw tag)
  | RawLess tag => if is "/" c then Some ([], RawEnd tag "") else None
  | RawEnd tag end_ =>
      if letter c then Some ([], RawEnd tag (snoc end_ c))
      else if is ">" c && String.eqb end_ tag then Some ([Close tag], Data)
      else None
  | Reference back r =>
      if is ";" c then match reference r with Some c => Some (back c) | None => None end
      else Some ([], Reference back (snoc r c))
  end.

Fixpoint run (st : state) (s : string) : option (list token * state) :=
  match s with
  | "" => Some ([], st)
  | String c s =>
      match step st c with
      | Some (ts, st) => match run st s with Some (us, st) => Some ((ts ++ us)%list, st) | None => None end
      | None => None
      end
  end.
Definition tokens (s : string) : option (list token) :=
  match run Data s with Some (ts, Data) => Some ts | _ => None end.

(** What a node means *)
Fixpoint meaning (n : node) : list token :=
  match n with
  | Text s => map Character (list_ascii_of_string s)
  | Element tag ats [] => [Open tag ats true]
  | Element tag ats ns => Open tag ats false :: flat_map meaning ns ++ [Close tag]
  end.

(** Names: not empty, of small letters and hyphens *)
Definition name_character (c : ascii) : bool := let n := nat_of_ascii c in ((97 <=? n) && (n <=? 122) || (n =? 45))%nat.
Definition named (s : string) : Prop := s <> "" /\ forallb name_character (list_ascii_of_string s) = true.
Fixpoint all_named (n : node) : Prop :=
  match n with
  | Text _ => True
  | Element tag ats ns => named tag /\ (forall k v, In (k, v) ats -> named k) /\ fold_right (fun n P => all_named n /\ P) True ns
  end.

(** The strings of a node: text and values are UTF-8; *)
Definition utf8 (s : string) : Prop := exists cs, characters_ok cs /\ s = text cs.
Fixpoint all_utf8 (n : node) : Prop :=
  match n with
  | Text s => utf8 s
  | Element _ ats ns => (forall k v, In (k, v) ats -> utf8 v) /\ fold_right (fun n P => all_utf8 n /\ P) True ns
  end.
(** tags are ordinary ones, and start with a letter; *)
Fixpoint all_ordinary (n : node) : Prop :=
  match n with
  | Text _ => True
  | Element tag _ ns => (exists c s, tag = String c s /\ letter c = true) /\ ~ In tag (raw_tags ++ other_tags) /\ fold_right (fun n P => all_ordinary n /\ P) True ns
  end.
(** names fit in memory. *)
From Verif Require Import PkgBytesSpec.
Fixpoint all_reasonable (n : node) : Prop :=
  match n with
  | Text _ => True
  | Element tag ats ns => reasonable tag /\ (forall k v, In (k, v) ats -> reasonable k) /\ fold_right (fun n P => all_reasonable n /\ P) True ns
  end.
