(** String literals and file paths.
    Sources: /repo/lib/ast-hir/src/string.rs, /repo/lib/parse/src/parser.rs,
    /repo/lib/app/src/infra/file_path.rs. *)
From Coq Require Import NArith Ascii List Bool Arith.
Import ListNotations.

(** Text as bytes; every pattern below is ASCII, so working on the bytes of the
    UTF-8 text is the same as working on its characters. *)
Definition text := list ascii.

Definition backslash : ascii := "\"%char.
Definition quote : ascii := """"%char.
Definition newline : ascii := "010"%char.
Definition return_ : ascii := "013"%char.
Definition tab : ascii := "009"%char.

(** [str::replace] for a pattern of two characters and a replacement of one: all
    matches, leftmost first, without overlap. *)
Fixpoint replace2 (a b c : ascii) (s : text) : text :=
  match s with
  | x :: ((y :: s'') as s') => if Ascii.eqb x a && Ascii.eqb y b then c :: replace2 a b c s'' else x :: replace2 a b c s'
  | _ => s
  end.

Definition hex_value (c : ascii) : option N :=
  let n := N_of_ascii c in
  if (48 <=? n)%N && (n <=? 57)%N then Some (n - 48)%N
  else if (97 <=? n)%N && (n <=? 102)%N then Some (n - 87)%N
  else if (65 <=? n)%N && (n <=? 70)%N then Some (n - 55)%N
  else None.

(** string.rs:4-5, 9-21: [replace_all] of the byte escapes. *)
Fixpoint replace_hex (s : text) : text :=
  match s with
  | [] => []
  | a :: s1 =>
      match s1 with
      | x :: h1 :: h2 :: s' =>
          match (if Ascii.eqb a backslash && Ascii.eqb x "x"%char then hex_value h1 else None), hex_value h2 with
          | Some d1, Some d2 => ascii_of_N (16 * d1 + d2) :: replace_hex s'
          | _, _ => a :: replace_hex s1
          end
      | _ => a :: replace_hex s1
      end
  end.

(** string.rs:7-22 [compile] *)
Definition compile_string (s : text) : text :=
  replace_hex
    (replace2 backslash "t"%char tab
      (replace2 backslash "r"%char return_
        (replace2 backslash "n"%char newline
          (replace2 backslash quote quote
            (replace2 backslash backslash backslash s))))).

(** parser.rs:791-823 [raw_string_literal]: the body of a literal is a sequence of
    these. *)
Inductive piece :=
| PPlain (c : ascii)            (* any character but backslash and quote *)
| PBackslash | PQuote | PNewline | PReturn | PTab
| PByte (h1 h2 : ascii).

Definition source_piece (p : piece) : text :=
  match p with
  | PPlain c => [c]
  | PBackslash => [backslash; backslash]
  | PQuote => [backslash; quote]
  | PNewline => [backslash; "n"%char]
  | PReturn => [backslash; "r"%char]
  | PTab => [backslash; "t"%char]
  | PByte h1 h2 => [backslash; "x"%char; h1; h2]
  end.
Definition source (l : list piece) : text := flat_map source_piece l.

(** file_path.rs *)
Definition path := list text.

Definition dot : ascii := "."%char.
Definition has_newline (s : text) : bool := existsb (Ascii.eqb newline) s.

(** file_path.rs:48 the text before the leftmost match of the pattern, which is
    a period and the rest of the text if it has no newline, or else the end *)
Fixpoint before_extension (s : text) : text :=
  match s with
  | [] => []
  | c :: s => if Ascii.eqb c dot && negb (has_newline s) then [] else c :: before_extension s
  end.

(** file_path.rs:43-64 [with_extension].  The replacement text of a regular
    expression may refer to groups with [$]; extensions without [$] only. *)
Definition with_extension (p : path) (extension : text) : path :=
  match rev p with
  | [] => p
  | last :: _ => removelast p ++ [before_extension last ++ match extension with [] => [] | _ => dot :: extension end]
  end.

(** file_path.rs:67-69 *)
Definition join (p q : path) : path := p ++ q.

(** [str::split_once('.')], second part; the default is empty *)
Fixpoint after_dot (s : text) : text :=
  match s with
  | [] => []
  | c :: s => if Ascii.eqb c dot then s else after_dot s
  end.

Fixpoint text_eqb (s t : text) : bool :=
  match s, t with
  | [], [] => true
  | c :: s, d :: t => Ascii.eqb c d && text_eqb s t
  | _, _ => false
  end.

(** file_path.rs:71-84 [has_extension], [check_extension] *)
Definition has_extension (p : path) (extension : text) : bool :=
  match rev p with
  | [] => false
  | component :: _ =>
      let suffix := after_dot component in
      if text_eqb suffix component then match extension with [] => true | _ => false end
      else text_eqb suffix extension
  end.

(** file_path.rs:87-97 [relative_to] *)
Fixpoint zip_equal (p q : path) : bool :=
  match p, q with
  | c :: p, d :: q => text_eqb c d && zip_equal p q
  | _, _ => true
  end.
Definition relative_to (p q : path) : option path :=
  if zip_equal p q then Some (skipn (length q) p) else None.
