(** UTF-8 (RFC 3629): the standard that strings of characters follow. *)
From Coq Require Import String Ascii List ZArith Bool.
Import ListNotations.
Local Open Scope string_scope.
Local Open Scope Z_scope.

(** A character is a Unicode scalar value. *)
Definition scalar (c : Z) : bool := (0 <=? c) && (c <? 0xD800) || (0xDFFF <? c) && (c <? 0x110000).

Definition of_bytes (bs : list Z) : string := string_of_list_ascii (map (fun b => ascii_of_N (Z.to_N b)) bs).

(** The bytes of a character *)
Definition encode (c : Z) : string :=
  of_bytes (
    if c <? 0x80 then [c]
    else if c <? 0x800 then [0xC0 + c / 64; 0x80 + c mod 64]
    else if c <? 0x10000 then [0xE0 + c / 64 / 64; 0x80 + c / 64 mod 64; 0x80 + c mod 64]
    else [0xF0 + c / 64 / 64 / 64; 0x80 + c / 64 / 64 mod 64; 0x80 + c / 64 mod 64; 0x80 + c mod 64]).

(** The bytes of a text *)
Fixpoint text (cs : list Z) : string :=
  match cs with
  | [] => ""
  | c :: cs => encode c ++ text cs
  end.
Definition characters_ok (cs : list Z) : Prop := Forall (fun c => scalar c = true) cs.
