(** Model of packages/json. *)
From Coq Require Import String Ascii List ZArith Bool.
From Coq Require Import Floats.SpecFloat.
From Verif Require Import Base Float PkgBytes PkgUtf8 PkgHtml.
From Verif Require Literal.
Import ListNotations.
Local Open Scope string_scope.

(** json/Value.pen.  Simplification: a map is the list of its entries in the order of
    [keys] and [values], without repeated keys (C11 to C17 are about maps). *)
Inductive json :=
| Null
| Boolean (b : bool)
| Number (n : number)
| Text (s : string)
| Array (vs : list json)
| Object (es : list (string * json)).

(** The value of a string literal (C33) *)
Definition literal (s : string) : string := string_of_list_ascii (Literal.compile_string (list_ascii_of_string s)).

(** How numbers are written and read: Rust's [to_string] and [parse] for [f64],
    json/ffi/src/lib.rs 8-21.  They are not in /repo: the theorems say what they
    assume. *)
Section Json.
Variable print : number -> string.
Variable scan : string -> number.

(** json/Encode.pen 35-40 *)
Definition encode_string (s : string) : list string :=
  let s := utf8_replace s (literal "\\") (literal "\\\\") in
  let s := utf8_replace s (literal "\""") (literal "\\\""") in
  [literal "\"""; s; literal "\"""].

(** Encode.pen 42-52 and 54-64: the elements with their indices *)
Section Elements.
  Context {A : Type}.
  Variable f : A -> list string.
  Fixpoint elements (i : number) (vs : list A) : list string :=
    match vs with
    | [] => []
    | v :: vs => (if equal i (of_int 1) then "" else ",") :: f v ++ elements (add i (of_int 1)) vs
    end.
End Elements.

(** Encode.pen 19-33 [value] *)
Fixpoint encode_value (v : json) : list string :=
  match v with
  | Number n => [print n]
  | Boolean b => [if b then "true" else "false"]
  | Null => ["null"]
  | Text s => encode_string s
  | Array vs => "[" :: elements encode_value (of_int 1) vs ++ ["]"]
  | Object es => "{" :: elements (fun e => encode_string (fst e) ++ ":" :: encode_value (snd e))%list (of_int 1) es ++ ["}"]
  end.

(** Encode.pen 15-17 [Encode] *)
Definition encode (v : json) : string := concatenate (encode_value v).

(** [if x = r as View { f(x) } else { g }]: an error is caught. *)
Definition or_else {A B} (r : res A) (f : A -> res B) (g : res B) : res B :=
  match r with
  | Ok x => f x
  | NotFound _ => g
  | Panic => Panic
  | OutOfFuel => OutOfFuel
  end.

(** json/Decode.pen 243-249 [raw] *)
Definition raw (v : view) (s : string) : res view :=
  bind (view_starts_with v s) (fun b => if b then Ok (view_seek v (byte_length s)) else NotFound (s ++ " expected")).

(** Decode.pen 251-257 [blank] *)
Fixpoint blank (fuel : nat) (v : view) : res view :=
  match fuel with
  | O => OutOfFuel
  | S fuel =>
      bind (any [view_starts_with v " "; view_starts_with v (literal "\t"); view_starts_with v (literal "\n")]) (fun b =>
      if b then blank fuel (view_seek v (of_int 1)) else Ok v)
  end.

(** Decode.pen 239-241 [token] *)
Definition token (fuel : nat) (v : view) (s : string) : res view := bind (blank fuel v) (fun v => raw v s).

(** Decode.pen 105-115 [stringCharacter] *)
Definition string_character (v : view) : res (string * view) :=
  or_else (raw v (literal "\\\""")) (fun w => Ok (literal "\""", w))
    (if equal (view_length v) (of_int 0) then NotFound "unexpected end of string"
     else bind (view_to_string (view_slice v (of_int 1) (of_int 1))) (fun s => Ok (s, view_seek v (of_int 1)))).

(** Decode.pen 93-103 [stringCharacters] *)
Fixpoint string_characters (fuel : nat) (v : view) : res (list string * view) :=
  match fuel with
  | O => OutOfFuel
  | S fuel =>
      bind (view_starts_with v (literal "\""")) (fun b =>
      if b then Ok ([], v)
      else
        bind (string_character v) (fun r =>
        bind (string_characters fuel (snd r)) (fun rs => Ok (fst r :: fst rs, snd rs))))
  end.

(** Decode.pen 84-91 [string] *)
Definition decode_string (fuel : nat) (v : view) : res (json * view) :=
  bind (token fuel v (literal "\""")) (fun v =>
  bind (string_characters fuel v) (fun r =>
  bind (raw (snd r) (literal "\""")) (fun v => Ok (Text (concatenate (fst r)), v)))).

(** Decode.pen 164-170 [nonZeroDigit].  Simplification: [Number'String] of 1 to 9 is a
    digit. *)
Definition digit_strings : list string := ["1"; "2"; "3"; "4"; "5"; "6"; "7"; "8"; "9"].
Definition nonzero_digit (v : view) : res (option view) :=
  bind (any (map (view_starts_with v) digit_strings)) (fun b => Ok (if b then Some (view_seek v (of_int 1)) else None)).

(** Decode.pen 152-162 [digit] *)
Definition digit (v : view) : res (option view) :=
  bind (nonzero_digit v) (fun w =>
  match w with
  | Some w => Ok (Some w)
  | None => or_else (raw v "0") (fun v => Ok (Some v)) (Ok None)
  end).

(** Decode.pen 144-150 [digits] *)
Fixpoint digits (fuel : nat) (v : view) : res view :=
  match fuel with
  | O => OutOfFuel
  | S fuel => bind (digit v) (fun w => match w with Some w => digits fuel w | None => Ok v end)
  end.

(** Decode.pen 132-142 [integer] *)
Definition integer (fuel : nat) (v : view) : res view :=
  bind (nonzero_digit v) (fun w =>
  match w with
  | Some w => digits fuel w
  | None => or_else (raw v "0") (fun v => Ok v) (NotFound "number expected")
  end).

(** Decode.pen 117-130 [number] *)
Definition decode_number (fuel : nat) (v : view) : res (json * view) :=
  let i := v_start v in
  bind (or_else (token fuel v "-") (fun w => Ok w) (Ok v)) (fun v =>
  bind (integer fuel v) (fun v =>
  bind (or_else (raw v ".") (fun w => digits fuel w) (Ok v)) (fun v =>
  bind (byte_slice (v_value v) i (sub (v_start v) (of_int 1))) (fun s => Ok (Number (scan s), v))))).

(** Decode.pen 72-82 [null], [booleanTrue], [booleanFalse] *)
Definition keyword (fuel : nat) (v : view) (s : string) (x : json) : res (json * view) :=
  bind (token fuel v s) (fun v => Ok (x, v)).

(** Decode.pen 231-237 [entriesToMap]: later entries win. *)
Fixpoint entries_to_map (es : list (string * json)) : list (string * json) :=
  match es with
  | [] => []
  | (k, v) :: es => let m := entries_to_map es in if existsb (fun e => String.eqb k (fst e)) m then m else (k, v) :: m
  end.

(** Decode.pen 52-70 [value], 172-176 [array], 178-196 [arrayElements], 198-205 [object],
    207-229 [objectEntries].  The comparisons with empty lists are as in C09. *)
Fixpoint decode_value (fuel : nat) (v : view) {struct fuel} : res (json * view) :=
  match fuel with
  | O => OutOfFuel
  | S fuel =>
      bind (blank fuel v) (fun v =>
      bind (view_starts_with v "n") (fun b => if b then keyword fuel v "null" Null else
      bind (view_starts_with v "t") (fun b => if b then keyword fuel v "true" (Boolean true) else
      bind (view_starts_with v "f") (fun b => if b then keyword fuel v "false" (Boolean false) else
      bind (view_starts_with v (literal "\""")) (fun b => if b then decode_string fuel v else
      bind (view_starts_with v "[") (fun b => if b then
        bind (token fuel v "[") (fun v =>
        bind (array_elements fuel v) (fun r =>
        bind (token fuel (snd r) "]") (fun v => Ok (Array (fst r), v)))) else
      bind (view_starts_with v "{") (fun b => if b then
        bind (token fuel v "{") (fun v =>
        bind (object_entries fuel v) (fun r =>
        bind (token fuel (snd r) "}") (fun v => Ok (Object (entries_to_map (fst r)), v)))) else
      decode_number fuel v)))))))
  end
with array_elements (fuel : nat) (v : view) {struct fuel} : res (list json * view) :=
  match fuel with
  | O => OutOfFuel
  | S fuel =>
      or_else (decode_value fuel v)
        (fun r =>
          or_else (token fuel (snd r) ",")
            (fun v =>
              bind (array_elements fuel v) (fun rs =>
              match fst rs with
              | [] => NotFound "unexpected trailing , in array"
              | _ => Ok (fst r :: fst rs, snd rs)
              end))
            (Ok ([fst r], snd r)))
        (Ok ([], v))
  end
with object_entries (fuel : nat) (v : view) {struct fuel} : res (list (string * json) * view) :=
  match fuel with
  | O => OutOfFuel
  | S fuel =>
      or_else (decode_string fuel v)
        (fun r =>
          bind (match fst r with Text k => Ok k | _ => NotFound "unexpected non-string key" end) (fun k =>
          bind (token fuel (snd r) ":") (fun v =>
          bind (decode_value fuel v) (fun r =>
          let e := (k, fst r) in
          or_else (token fuel (snd r) ",")
            (fun v =>
              bind (object_entries fuel v) (fun rs =>
              match fst rs with
              | [] => NotFound "unexpected trailing , in object"
              | _ => Ok (e :: fst rs, snd rs)
              end))
            (Ok ([e], snd r))))))
        (Ok ([], v))
  end.

(** Decode.pen 41-50 [Decode] *)
Definition decode (fuel : nat) (s : string) : res json :=
  bind (decode_value fuel (view_new s)) (fun r =>
  bind (blank fuel (snd r)) (fun v =>
  if equal (view_length v) (of_int 0) then Ok (fst r) else NotFound "unexpected character")).
End Json.
