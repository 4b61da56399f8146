(** Model of the operations on UTF-8 strings: packages/core/String/Utf8.pen,
    packages/core/Character.pen and packages/core/ffi/src. *)
From Coq Require Import String Ascii List ZArith Bool.
From Coq Require Import Floats.SpecFloat.
From Verif Require Import Base Float PkgBytes Utf8.
Import ListNotations.
Local Open Scope string_scope.
Local Open Scope Z_scope.

Definition byte (c : ascii) : Z := Z.of_N (N_of_ascii c).
Definition between (a b x : Z) : bool := (a <=? x) && (x <=? b).
Definition continuation (c : ascii) : bool := between 0x80 0xBF (byte c).
(** The ranges that Rust's [from_utf8] allows for the first two bytes of three and four *)
Definition three (a b : ascii) : bool :=
  (byte a =? 0xE0) && between 0xA0 0xBF (byte b) ||
  between 0xE1 0xEC (byte a) && continuation b ||
  (byte a =? 0xED) && between 0x80 0x9F (byte b) ||
  between 0xEE 0xEF (byte a) && continuation b.
Definition four (a b : ascii) : bool :=
  (byte a =? 0xF0) && between 0x90 0xBF (byte b) ||
  between 0xF1 0xF3 (byte a) && continuation b ||
  (byte a =? 0xF4) && between 0x80 0x8F (byte b).

(** Rust's [str::from_utf8(s).ok()] followed by [chars]: the bytes of each character.
    The Rust library is not in /repo: this follows its table of byte ranges. *)
Fixpoint chars (s : string) : option (list string) :=
  match s with
  | "" => Some []
  | String a s1 =>
      if byte a <? 0x80 then option_map (cons (String a "")) (chars s1)
      else
        match s1 with
        | "" => None
        | String b s2 =>
            if between 0xC2 0xDF (byte a) && continuation b then option_map (cons (String a (String b ""))) (chars s2)
            else
              match s2 with
              | "" => None
              | String c s3 =>
                  if three a b && continuation c then option_map (cons (String a (String b (String c "")))) (chars s3)
                  else
                    match s3 with
                    | "" => None
                    | String d s4 =>
                        if four a b && continuation c && continuation d then option_map (cons (String a (String b (String c (String d ""))))) (chars s4)
                        else None
                    end
              end
        end
  end.

(** Rust's [char as u32] for the bytes of a character (the Rust library again) *)
Definition code (s : string) : Z :=
  match map byte (list_ascii_of_string s) with
  | [a] => a
  | [a; b] => (a - 0xC0) * 64 + (b - 0x80)
  | [a; b; c] => ((a - 0xE0) * 64 + (b - 0x80)) * 64 + (c - 0x80)
  | [a; b; c; d] => (((a - 0xF0) * 64 + (b - 0x80)) * 64 + (c - 0x80)) * 64 + (d - 0x80)
  | _ => 0
  end.

Definition count (l : list string) : Z := Z.of_nat (List.length l).

(** ffi/src/string/utf8.rs 4-15 *)
Definition utf8_characters (s : string) : list string := match chars s with Some l => l | None => [] end.

(** utf8.rs 81-89 *)
Definition utf8_length (s : string) : number := match chars s with Some l => of_int (count l) | None => S754_nan end.

(** utf8.rs 129-135 [get_utf8_byte_index]; past the end, the sum is the length. *)
Fixpoint byte_index (l : list string) (i : Z) : Z :=
  match l with
  | [] => 0
  | c :: l => if i =? 0 then 0 else size c + byte_index l (i - 1)
  end.

(** Rust's [f64::max]: a NaN is ignored. *)
Definition rust_max (x y : number) : number :=
  if is_nan x then y else if is_nan y then x else if lt x y then y else x.

(** utf8.rs 91-109 *)
Definition utf8_slice (s : string) (start stop : number) : res string :=
  let a := to_usize (rust_max (sub start (of_int 1)) (of_int 0)) in
  let b := to_usize (rust_min stop (of_int usize_max)) in
  match chars s with
  | Some l =>
      if (size s =? 0) || (count l <=? a) || (b <=? a) then Ok ""
      else range s (byte_index l a) (byte_index l b)
  | None => Ok ""
  end.

(** Rust's [str::find] for a string: the first byte index where the pattern stands
    (the Rust library). *)
Fixpoint find_bytes (s p : string) : option Z :=
  if prefix p s then Some 0
  else match s with "" => None | String _ s => option_map Z.succ (find_bytes s p) end.

(** utf8.rs 44-50: the number of the character that starts at a byte index; [i] is the
    number of the first of [l], and [at_] where it starts. *)
Fixpoint character_at (l : list string) (i at_ index : Z) : option Z :=
  match l with
  | [] => None
  | c :: l => if at_ =? index then Some i else character_at l (i + 1) (at_ + size c) index
  end.

(** utf8.rs 39-51 [find] *)
Definition find_index (s p : string) : option Z :=
  match chars s, chars p with
  | Some l, Some _ =>
      match find_bytes s p with
      | Some index => character_at l 0 0 index
      | None => None
      end
  | _, _ => None
  end.

(** utf8.rs 31-37 and Utf8.pen 30-35 [Find]; [None] is [none]. *)
Definition utf8_find (s p : string) : option number :=
  let i := match find_index s p with Some i => of_int (i + 1) | None => of_int (-1) end in
  if lt i (of_int 0) then None else Some i.

(** utf8.rs 53-65, 67-79 (Rust's [starts_with] and [ends_with] compare bytes) *)
Definition both_valid (s p : string) : bool := match chars s, chars p with Some _, Some _ => true | _, _ => false end.
Definition utf8_starts_with (s p : string) : bool := both_valid s p && prefix p s.
Definition utf8_ends_with (s p : string) : bool :=
  both_valid s p && (size p <=? size s) && String.eqb (substring (String.length s - String.length p) (String.length p) s) p.

(** utf8.rs 17-29 *)
Definition utf8_contains (s p : string) : bool := both_valid s p && match find_bytes s p with Some _ => true | None => false end.

(** ffi/src/character.rs 6-10; [char::from_u32] accepts the scalar values. *)
Definition from_code_point (n : number) : string :=
  let c := cast (2 ^ 32 - 1) n in if scalar c then encode c else "".

(** character.rs 12-23 *)
Definition to_code_point (s : string) : number :=
  match chars s with
  | Some (c :: _) => of_int (code c)
  | _ => S754_nan
  end.

(** Rust's [str::split]: the parts between the matches from left to right; with an
    empty pattern, matches are between all characters (the Rust library).  [skip]
    bytes of a match are left, and [part] is the current part. *)
Fixpoint split_bytes (p : string) (skip : nat) (part s : string) : list string :=
  match s with
  | "" => [part]
  | String c s' =>
      match skip with
      | S skip => split_bytes p skip part s'
      | O =>
          if prefix p s then part :: split_bytes p (String.length p - 1) "" s'
          else split_bytes p 0 (part ++ String c "") s'
      end
  end.

(** utf8.rs 111-127 *)
Definition utf8_split (s p : string) : list string :=
  match chars s, chars p with
  | Some l, Some [] => [""] ++ l ++ [""]
  | Some _, Some _ => split_bytes p 0 "" s
  | _, _ => [s]
  end.

(** utf8.rs 137-156: Rust's [str::replace] puts the replacement between the parts. *)
Definition utf8_replace (s p r : string) : string :=
  match chars s, chars p, chars r with
  | Some _, Some _, Some _ => join (utf8_split s p) r
  | _, _, _ => s
  end.
