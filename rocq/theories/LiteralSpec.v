(** What string literals mean. *)
From Coq Require Import NArith Ascii List Bool.
From Verif Require Import Literal.
Import ListNotations.

(** Hexadecimal digits and their values. *)
Definition hex_digit (c : ascii) : option N :=
  match c with
  | "0" => Some 0 | "1" => Some 1 | "2" => Some 2 | "3" => Some 3 | "4" => Some 4
  | "5" => Some 5 | "6" => Some 6 | "7" => Some 7 | "8" => Some 8 | "9" => Some 9
  | "a" | "A" => Some 10 | "b" | "B" => Some 11 | "c" | "C" => Some 12
  | "d" | "D" => Some 13 | "e" | "E" => Some 14 | "f" | "F" => Some 15
  | _ => None
  end%char%N.
Definition digit_value (c : ascii) : N := match hex_digit c with Some n => n | None => 0%N end.

(** The byte a piece of a literal stands for. *)
Definition piece_value (p : piece) : ascii :=
  match p with
  | PPlain c => c
  | PBackslash => "\"
  | PQuote => """"
  | PNewline => "010"
  | PReturn => "013"
  | PTab => "009"
  | PByte h1 h2 => ascii_of_N (16 * digit_value h1 + digit_value h2)
  end%char.
Definition value (l : list piece) : text := map piece_value l.

(** Pieces the parser accepts. *)
Definition piece_ok (p : piece) : Prop :=
  match p with
  | PPlain c => c <> "\"%char /\ c <> """"%char
  | PByte h1 h2 => hex_digit h1 <> None /\ hex_digit h2 <> None
  | _ => True
  end.

(** No escaped backslash stands before plain text that would read as an escape
    after it: one of n, r, t, or x and two hexadecimal digits. *)
Definition reads_as_escape (l : list piece) : bool :=
  match l with
  | PPlain c :: l' =>
      Ascii.eqb c "n" || Ascii.eqb c "r" || Ascii.eqb c "t" ||
      match l' with
      | PPlain h1 :: PPlain h2 :: _ =>
          Ascii.eqb c "x" && match hex_digit h1, hex_digit h2 with Some _, Some _ => true | _, _ => false end
      | _ => false
      end
  | _ => false
  end.
Fixpoint unambiguous (l : list piece) : Prop :=
  match l with
  | [] => True
  | PBackslash :: l' => reads_as_escape l' = false /\ unambiguous l'
  | _ :: l' => unambiguous l'
  end.
