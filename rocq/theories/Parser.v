(** The parser of modules, on the characters of a source file.
    Sources: /repo/lib/parse/src/parser.rs, combinator.rs, operations.rs.
    Characters are bytes: every character the parser tells apart is ASCII, and
    no byte of another UTF-8 character is.  Positions and error messages are
    left out.  The combinators stand for those of the library nom 8. *)
From Coq Require Import String Ascii List Bool Arith.
From Verif Require Import Syntax Ast.
Import ListNotations.
Local Open Scope string_scope.
Notation "a ++ b" := (append a b) (right associativity, at level 60) : string_scope.

(** nom's [IResult]: a value and the rest of the input, [Err::Error] which an
    alternative may recover from, or [Err::Failure] which nothing recovers from.
    Running out of the bound on recursion is a failure too. *)
Inductive presult (A : Type) := POk (a : A) (rest : string) | PErr | PFail.
Arguments POk {A}. Arguments PErr {A}. Arguments PFail {A}.

Definition pbind {A B} (r : presult A) (f : A -> string -> presult B) : presult B :=
  match r with POk a rest => f a rest | PErr => PErr | PFail => PFail end.
Notation "'do' a , s <- p ; q" := (pbind p (fun a s => q)) (at level 200, a name, s name, p at level 100, q at level 200).
Notation "'do_' s <- p ; q" := (pbind p (fun _ s => q)) (at level 200, s name, p at level 100, q at level 200).

Definition parser A := string -> presult A.
Definition slen : string -> nat := String.length.
(** nom [map], [cut], [alt], [opt], [preceded] and [peek(not(...))] of one character *)
Definition pmap {A B} (f : A -> B) (r : presult A) : presult B := do a, s <- r; POk (f a) s.
Definition cut {A} (r : presult A) : presult A := match r with PErr => PFail | _ => r end.
Definition alt {A} (p q : parser A) : parser A := fun s => match p s with PErr => q s | r => r end.
Definition opt {A} (p : parser A) : parser (option A) := fun s =>
  match p s with POk a s => POk (Some a) s | PErr => POk None s | PFail => PFail end.
Definition not_next (f : ascii -> bool) (s : string) : bool := match s with String c _ => negb (f c) | EmptyString => true end.

(** nom [many0]: it fails if an element takes no input *)
Fixpoint many0_ {A} (n : nat) (p : parser A) (s : string) : presult (list A) :=
  match n with
  | O => PFail
  | S n =>
      match p s with
      | POk a r => if (slen r =? slen s)%nat then PErr else do l, r <- many0_ n p r; POk (a :: l) r
      | PErr => POk [] s
      | PFail => PFail
      end
  end.
Definition many0 {A} (p : parser A) : parser (list A) := fun s => many0_ (S (slen s)) p s.
Definition many1 {A} (p : parser A) : parser (list A) := fun s => do a, r <- p s; do l, r <- many0 p r; POk (a :: l) r.

(** nom [separated_list1], [separated_list0]: a separator without an element
    after it is given back *)
Fixpoint separated_ {A} (n : nat) (sep : parser unit) (p : parser A) (s : string) : presult (list A) :=
  match n with
  | O => PFail
  | S n =>
      match sep s with
      | PErr => POk [] s
      | PFail => PFail
      | POk _ s1 =>
          match p s1 with
          | PErr => POk [] s
          | PFail => PFail
          | POk a r => if (slen r =? slen s)%nat then PErr else do l, r <- separated_ n sep p r; POk (a :: l) r
          end
      end
  end.
Definition separated_list1 {A} (sep : parser unit) (p : parser A) : parser (list A) := fun s =>
  do a, r <- p s; do l, r <- separated_ (S (slen r)) sep p r; POk (a :: l) r.
Definition separated_list0 {A} (sep : parser unit) (p : parser A) : parser (list A) := fun s =>
  match p s with
  | PErr => POk [] s
  | PFail => PFail
  | POk a r => do l, r <- separated_ (S (slen r)) sep p r; POk (a :: l) r
  end.
(** combinator.rs:8-27, 29-41 *)
Definition terminated_list0 {A} (sep : parser unit) (p : parser A) : parser (list A) := fun s =>
  do l, s <- separated_list0 sep p s;
  match l with [] => POk [] s | _ => do_ r <- opt sep s; POk l r end.
Definition terminated_list1 {A} (sep : parser unit) (p : parser A) : parser (list A) := fun s =>
  do l, s <- separated_list1 sep p s; do_ r <- opt sep s; POk l r.

(** *** Characters and blanks *)
Definition code (c : ascii) : nat := nat_of_ascii c.
Definition between (a b : ascii) (c : ascii) : bool := (code a <=? code c)%nat && (code c <=? code b)%nat.
Definition is_digit : ascii -> bool := between "0" "9".
Definition is_upper : ascii -> bool := between "A" "Z".
Definition is_alpha (c : ascii) : bool := is_upper c || between "a" "z" c.
Definition is_word (c : ascii) : bool := is_alpha c || is_digit c || Ascii.eqb c "_".
Definition newline : ascii := ascii_of_nat 10.
Definition return_ : ascii := ascii_of_nat 13.
Definition tab : ascii := ascii_of_nat 9.
Definition quote : ascii := ascii_of_nat 34.
Definition is_newline (c : ascii) : bool := Ascii.eqb c newline || Ascii.eqb c return_.
Definition is_space (c : ascii) : bool := Ascii.eqb c " " || Ascii.eqb c tab || is_newline c.

(** parser.rs:1020-1026, 1040-1042 [blank], [skipped_comment]; [comment] tells
    whether a comment is being skipped *)
Fixpoint skip_ (comment : bool) (s : string) : string :=
  match s with
  | EmptyString => EmptyString
  | String c s' =>
      if is_newline c then skip_ false s'
      else if comment then skip_ true s'
      else if is_space c then skip_ false s'
      else if Ascii.eqb c "#" then skip_ true s'
      else s
  end.
Definition skip : string -> string := skip_ false.

(** nom [tag] *)
Fixpoint tag (t s : string) : presult unit :=
  match t, s with
  | EmptyString, _ => POk tt s
  | String c t, String d s => if Ascii.eqb c d then tag t s else PErr
  | String _ _, EmptyString => PErr
  end.

(** The longest prefix of characters that satisfy a predicate *)
Fixpoint span (f : ascii -> bool) (s : string) : string * string :=
  match s with
  | EmptyString => (EmptyString, EmptyString)
  | String c s' => if f c then let (a, r) := span f s' in (String c a, r) else (EmptyString, s)
  end.

(** parser.rs:26-30 *)
Definition keywords : list string := ["as"; "else"; "export"; "for"; "foreign"; "if"; "in"; "import"; "type"].
Definition is_keyword (s : string) : bool := existsb (String.eqb s) keywords.
Definition is_operator_character (c : ascii) : bool :=
  existsb (Ascii.eqb c) ["+"; "-"; "*"; "/"; "="; "<"; ">"; "&"; "|"; "!"; "?"]%char.
Fixpoint has_operator_character (s : string) : bool :=
  match s with EmptyString => false | String c s => is_operator_character c || has_operator_character s end.

(** parser.rs:964-973 [unchecked_identifier] *)
Definition unchecked_identifier : parser string := fun s =>
  match s with
  | String c _ => if is_alpha c || Ascii.eqb c "_" then let (a, r) := span is_word s in POk a r else PErr
  | EmptyString => PErr
  end.
(** 957-962 [raw_identifier] *)
Definition raw_identifier : parser string := fun s =>
  do a, r <- unchecked_identifier s; if is_keyword a then PErr else POk a r.
(** 953-955 [identifier] *)
Definition identifier : parser string := fun s => raw_identifier (skip s).
(** 942-951 [qualified_identifier] *)
Definition qualified_identifier : parser string := fun s =>
  do a, r <- raw_identifier s;
  match tag "'" r with
  | POk _ r' => do b, r'' <- cut (raw_identifier r'); POk (a ++ "'" ++ b) r''
  | _ => POk a r
  end.
(** 975-993 [keyword] *)
Definition keyword (name : string) : parser unit := fun s =>
  do_ r <- tag name (skip s); if not_next is_word r then POk tt r else PErr.
(** 995-1008 [sign] *)
Definition sign (t : string) : parser unit := fun s =>
  do_ r <- tag t (skip s);
  if has_operator_character t then if not_next (Ascii.eqb "=") r then POk tt r else PErr else POk tt r.

(** *** Literals *)
(** nom [digit1] *)
Definition digit1 (f : ascii -> bool) : parser string := fun s =>
  let (a, r) := span f s in match a with EmptyString => PErr | _ => POk a r end.
Definition opt_sign (s : string) : string * string :=
  match s with
  | String c r => if Ascii.eqb c "+" || Ascii.eqb c "-" then (String c EmptyString, r) else (EmptyString, s)
  | EmptyString => (EmptyString, EmptyString)
  end.
(** nom [recognize_float]: an optional sign, digits with an optional point and
    digits after it, or a point and digits, and an optional exponent, whose
    digits are required once there is an [e] *)
Definition mantissa : parser string := fun s =>
  match digit1 is_digit s with
  | POk a (String c r as r0) =>
      if Ascii.eqb c "." then let (b, r) := span is_digit r in POk (a ++ String c b) r else POk a r0
  | POk a EmptyString => POk a EmptyString
  | _ =>
      match s with
      | String c r => if Ascii.eqb c "." then do b, r <- digit1 is_digit r; POk (String c b) r else PErr
      | EmptyString => PErr
      end
  end.
Definition exponent : parser string := fun s =>
  match s with
  | String c r =>
      if Ascii.eqb c "e" || Ascii.eqb c "E" then
        let (sg, r) := opt_sign r in do d, r <- cut (digit1 is_digit r); POk (String c (sg ++ d)) r
      else POk EmptyString s
  | EmptyString => POk EmptyString s
  end.
Definition recognize_float : parser string := fun s =>
  let (sg, s) := opt_sign s in
  do m, s <- mantissa s; do e, s <- exponent s; POk (sg ++ m ++ e) s.
Definition is_bit (c : ascii) : bool := Ascii.eqb c "0" || Ascii.eqb c "1".
Definition is_hex (c : ascii) : bool := is_digit c || between "a" "f" c || between "A" "F" c.
(** [str::to_lowercase] and [str::to_uppercase] of ASCII letters *)
Definition lower (c : ascii) : ascii := if is_upper c then ascii_of_nat (code c + 32) else c.
Definition upper (c : ascii) : ascii := if between "a" "z" c then ascii_of_nat (code c - 32) else c.
Fixpoint smap (f : ascii -> ascii) (s : string) : string :=
  match s with EmptyString => EmptyString | String c s => String (f c) (smap f s) end.

(** parser.rs:747-756 [binary_literal], 758-769 [hexadecimal_literal], 775-785 [decimal_literal] *)
Definition binary_literal : parser anumber := fun s =>
  do_ s <- tag "0b" s; do d, s <- cut (digit1 is_bit s); POk (NBinary d) s.
Definition hexadecimal_literal : parser anumber := fun s =>
  do_ s <- tag "0x" s; do d, s <- cut (digit1 is_hex s); POk (NHexadecimal (smap lower d)) s.
Definition decimal_literal : parser anumber := fun s => pmap NFloat (recognize_float s).
(** 732-745 [number_literal] *)
Definition number_literal : parser anumber := fun s =>
  do n, r <- alt binary_literal (alt hexadecimal_literal decimal_literal) (skip s);
  if not_next is_digit r then POk n r else PErr.

(** 791-823 [raw_string_literal]: the text between the quotes, escapes as they
    are written *)
Fixpoint string_body (s : string) : string * string :=
  match s with
  | EmptyString => (EmptyString, EmptyString)
  | String c r =>
      if Ascii.eqb c quote then (EmptyString, s)
      else if Ascii.eqb c "\" then
        match r with
        | String d r1 =>
            if existsb (Ascii.eqb d) ["\"; quote; "n"; "r"; "t"]%char then
              let (a, k) := string_body r1 in (String c (String d a), k)
            else if Ascii.eqb d "x" then
              match r1 with
              | String h1 (String h2 r2) =>
                  if is_hex h1 && is_hex h2 then
                    let (a, k) := string_body r2 in (String c (String d (String h1 (String h2 a))), k)
                  else (EmptyString, s)
              | _ => (EmptyString, s)
              end
            else (EmptyString, s)
        | EmptyString => (EmptyString, s)
        end
      else let (a, k) := string_body r in (String c a, k)
  end.
Definition string_literal : parser string := fun s =>
  do_ s <- tag (String quote EmptyString) (skip s);
  let (a, r) := string_body s in
  cut (do_ r <- tag (String quote EmptyString) r; POk a r).

(** *** Types *)
(** [n] bounds the recursion *)
Section Type_.
  Variable type_ : parser aty.
  (** parser.rs:263-282 [function_type] *)
  Definition function_type : parser aty := fun s =>
    do_ s <- sign "\(" s;
    cut (do a, s <- terminated_list0 (sign ",") type_ s; do_ s <- sign ")" s; do r, s <- type_ s; POk (AFunction a r) s).
  (** 294-303, 305-318, 320-328, 330-339 [list_type], [map_type], [atomic_type], [reference_type] *)
  Definition list_type : parser aty := fun s =>
    do_ s <- sign "[" s; cut (do t, s <- type_ s; do_ s <- sign "]" s; POk (AList t) s).
  Definition map_type : parser aty := fun s =>
    do_ s <- sign "{" s; cut (do k, s <- type_ s; do_ s <- sign ":" s; do v, s <- type_ s; do_ s <- sign "}" s; POk (AMap k v) s).
  Definition reference_type : parser aty := fun s => pmap AReference (qualified_identifier (skip s)).
  Definition parenthesized_type : parser aty := fun s =>
    do_ s <- sign "(" s; cut (do t, s <- type_ s; do_ s <- sign ")" s; POk t s).
  Definition atomic_type : parser aty := alt reference_type (alt list_type (alt map_type parenthesized_type)).
  (** 284-292 [union_type] *)
  Definition union_type : parser aty := fun s =>
    do l, s <- separated_list1 (sign "|") atomic_type s;
    match l with [] => PErr | t :: l => POk (fold_left AUnion l t) s end.
End Type_.
(** 259-261 [type_] *)
Fixpoint ptype (n : nat) : parser aty := fun s =>
  match n with O => PFail | S n => alt (function_type (ptype n)) (union_type (ptype n)) s end.
Definition type_ : parser aty := fun s => ptype (S (slen s)) s.

(** *** Expressions *)
(** operations.rs:11-49 [reduce_operations], for the expressions of a module;
    [None] stands for running out of the bound *)
Fixpoint split_operations (p : nat) (pairs : list (operator * aexpr)) : list (operator * aexpr) * list (operator * aexpr) :=
  match pairs with
  | [] => ([], [])
  | (o, e) :: pairs' =>
      if (priority o <=? p)%nat then ([], pairs)
      else let (head, tail) := split_operations p pairs' in ((o, e) :: head, tail)
  end.
Fixpoint reduce (n : nat) (lhs : aexpr) (pairs : list (operator * aexpr)) : option aexpr :=
  match n with
  | O => None
  | S n =>
      match pairs with
      | [] => Some lhs
      | [(o, rhs)] => Some (XBinary o lhs rhs)
      | (o, rhs) :: (((next, _) :: _) as rest) =>
          if (priority next <=? priority o)%nat then reduce n (XBinary o lhs rhs) rest
          else
            let (head, tail) := split_operations (priority o) rest in
            match reduce n rhs head with Some r => reduce n (XBinary o lhs r) tail | None => None end
      end
  end.

(** 398-417 [binary_operator] *)
Definition operator_sign (o : operator) (t : string) : parser operator := fun s => do_ s <- sign t s; POk o s.
Definition binary_operator : parser operator :=
  alt (operator_sign Add "+") (alt (operator_sign Subtract "-") (alt (operator_sign Multiply "*") (alt (operator_sign Divide "/")
  (alt (operator_sign Equal "==") (alt (operator_sign NotEqual "!=")
  (alt (operator_sign LessThanOrEqual "<=") (alt (operator_sign LessThan "<")
  (alt (operator_sign GreaterThanOrEqual ">=") (alt (operator_sign GreaterThan ">")
  (alt (operator_sign And "&") (operator_sign Or "|"))))))))))).

(** /repo/lib/parse/src/operations.rs:4-9 [SuffixOperator] *)
Inductive suffix := SCall (arguments : list aexpr) | SField (name : string) | STry.
Definition apply_suffix (e : aexpr) (s : suffix) : aexpr :=
  match s with SCall a => XCall e a | SField x => XField e x | STry => XTry e end.

Section Expression.
  Variable expression : parser aexpr.

  (** parser.rs:370-379 [statement] *)
  Definition statement : parser (option string * aexpr) := fun s =>
    do x, s <- opt (fun s => do x, s <- identifier s; do_ s <- sign "=" s; POk x s) s;
    do e, s <- expression s; POk (x, e) s.
  (** 341-368 [block] *)
  Definition block : parser (ablock aexpr) := fun s =>
    do_ s <- sign "{" s;
    cut (do l, s <- many1 statement s;
         match rev l with
         | (None, e) :: l => do_ s <- sign "}" s; POk (Block (rev l) e) s
         | _ => PErr
         end).
  (** 547-556, 525-545 [argument], [lambda] *)
  Definition argument : parser (string * aty) := fun s =>
    do x, s <- identifier s; do t, s <- cut (type_ s); POk (x, t) s.
  Definition lambda : parser alambda := fun s =>
    do_ s <- sign "\(" s;
    cut (do a, s <- terminated_list0 (sign ",") argument s; do_ s <- sign ")" s; do r, s <- type_ s; do b, s <- block s; POk (ALambda a r b) s).
  Definition lambda_expression : parser aexpr := fun s => pmap (fun l => XLambda (la_arguments l) (la_result l) (la_body l)) (lambda s).
  (** 584-589, 558-582 [if_branch], [if_] *)
  Definition else_if : parser unit := fun s => do_ s <- keyword "else" s; keyword "if" s.
  Definition if_branch : parser (aexpr * ablock aexpr) := fun s => do e, s <- expression s; do b, s <- block s; POk (e, b) s.
  Definition if_ : parser aexpr := fun s =>
    do_ s <- keyword "if" s;
    cut (do b, s <- if_branch s;
         do l, s <- many0 (fun s => do_ s <- else_if s; cut (if_branch s)) s;
         do_ s <- keyword "else" s; do e, s <- block s; POk (XIf (b :: l) e) s).
  (** 591-618 [if_list] *)
  Definition if_list : parser aexpr := fun s =>
    do_ s <- keyword "if" s; do_ s <- sign "[" s;
    cut (do x, s <- identifier s; do_ s <- sign "," s; do_ s <- sign "..." s; do y, s <- identifier s; do_ s <- sign "]" s;
         do_ s <- sign "=" s; do e, s <- expression s; do a, s <- block s; do_ s <- keyword "else" s; do b, s <- block s;
         POk (XIfList e x y a b) s).
  (** 620-639 [if_map] *)
  Definition if_map : parser aexpr := fun s =>
    do_ s <- keyword "if" s; do x, s <- identifier s; do_ s <- sign "=" s; do m, s <- expression s; do_ s <- sign "[" s;
    cut (do k, s <- expression s; do_ s <- sign "]" s; do a, s <- block s; do_ s <- keyword "else" s; do b, s <- block s;
         POk (XIfMap x m k a b) s).
  (** 675-680, 641-673 [if_type_branch], [if_type] *)
  Definition if_type_branch : parser (aty * ablock aexpr) := fun s => do t, s <- type_ s; do b, s <- block s; POk (t, b) s.
  Definition if_type : parser aexpr := fun s =>
    do_ s <- keyword "if" s; do x, s <- identifier s; do_ s <- sign "=" s; do e, s <- expression s; do_ s <- keyword "as" s;
    cut (do b, s <- if_type_branch s;
         do l, s <- many0 (fun s => do_ s <- else_if s; cut (if_type_branch s)) s;
         do o, s <- opt (fun s => do_ s <- keyword "else" s; block s) s;
         POk (XIfType x e (b :: l) o) s).
  (** 721-730, 682-719 [record_field], [record] *)
  Definition record_field : parser (string * aexpr) := fun s =>
    do x, s <- identifier s; do_ s <- sign ":" s; do e, s <- cut (expression s); POk (x, e) s.
  Fixpoint distinct (l : list string) : bool :=
    match l with [] => true | x :: l => negb (existsb (String.eqb x) l) && distinct l end.
  Definition record_elements : parser (option aexpr * list (string * aexpr)) :=
    alt (fun s => do_ s <- sign "..." s;
           cut (do e, s <- expression s; do_ s <- sign "," s; do l, s <- terminated_list1 (sign ",") record_field s; POk (Some e, l) s))
        (fun s => do l, s <- terminated_list0 (sign ",") record_field s; POk (None, l) s).
  Definition record : parser aexpr := fun s =>
    do x, s <- qualified_identifier (skip s); do_ s <- sign "{" s;
    do p, s <- record_elements s;
    if distinct (map fst (snd p)) then do_ s <- sign "}" s; POk (XRecord x (fst p) (snd p)) s else PErr.
  (** 825-842, 844-853 [list_literal], [list_element] *)
  Definition list_element : parser (aelement aexpr) :=
    alt (fun s => do_ s <- sign "..." s; do e, s <- cut (expression s); POk (Multiple e) s)
        (fun s => pmap Single (expression s)).
  Definition list_literal : parser aexpr := fun s =>
    do_ s <- sign "[" s;
    cut (do t, s <- type_ s; do l, s <- terminated_list0 (sign ",") list_element s; do_ s <- sign "]" s; POk (XList t l) s).
  (** 875-895, 855-873 [list_comprehension_branch], [list_comprehension] *)
  Definition comprehension_branch : parser (abranch aexpr) := fun s =>
    do_ s <- keyword "for" s;
    cut (do xs, s <- terminated_list1 (sign ",") identifier s; do_ s <- keyword "in" s;
         do es, s <- terminated_list1 (sign ",") expression s;
         do c, s <- opt (fun s => do_ s <- keyword "if" s; expression s) s; POk (Branch xs es c) s).
  Definition list_comprehension : parser aexpr := fun s =>
    do_ s <- sign "[" s; do t, s <- type_ s; do e, s <- expression s; do l, s <- many1 comprehension_branch s; do_ s <- sign "]" s;
    POk (XComprehension t e l) s.
  (** 920-929, 897-918 [map_element], [map_literal] *)
  Definition map_element : parser (aentry aexpr) :=
    alt (fun s => do k, s <- expression s; do_ s <- sign ":" s; do v, s <- cut (expression s); POk (Entry k v) s)
        (fun s => do_ s <- sign "..." s; do e, s <- cut (expression s); POk (Spread e) s).
  Definition map_literal : parser aexpr := fun s =>
    do_ s <- sign "{" s;
    cut (do k, s <- type_ s; do_ s <- sign ":" s; do v, s <- type_ s; do l, s <- terminated_list0 (sign ",") map_element s; do_ s <- sign "}" s;
         POk (XMap k v l) s).
  (** 931-940 [variable] *)
  Definition variable : parser aexpr := fun s => pmap XVariable (qualified_identifier (skip s)).
  Definition parenthesized_expression : parser aexpr := fun s =>
    do_ s <- sign "(" s; do e, s <- expression s; do_ s <- sign ")" s; POk e s.
  (** 506-523 [atomic_expression] *)
  Definition atomic_expression : parser aexpr :=
    alt lambda_expression (alt if_type (alt if_list (alt if_map (alt if_ (alt record (alt list_comprehension (alt list_literal
    (alt map_literal (alt (fun s => pmap XNumber (number_literal s)) (alt (fun s => pmap XString (string_literal s))
    (alt variable parenthesized_expression))))))))))).
  (** 466-483, 485-494, 496-504, 462-464 [call_operator], [record_field_operator], [try_operator], [suffix_operator] *)
  Definition call_operator : parser suffix := fun s =>
    do_ s <- tag "(" s; cut (do l, s <- terminated_list0 (sign ",") expression s; do_ s <- sign ")" s; POk (SCall l) s).
  Definition record_field_operator : parser suffix := fun s => do_ s <- sign "." s; do x, s <- cut (identifier s); POk (SField x) s.
  Definition try_operator : parser suffix := fun s => do_ s <- sign "?" s; POk STry s.
  Definition suffix_operator : parser suffix := alt call_operator (alt record_field_operator try_operator).
  (** 440-460 [suffix_operation_like] *)
  Definition suffix_operation : parser aexpr := fun s =>
    do e, s <- atomic_expression s; do l, s <- many0 suffix_operator s; POk (fold_left apply_suffix l e) s.
  (** 419-438 [prefix_operation_like], [prefix_operation], [prefix_operator]; [n] bounds the recursion *)
  Fixpoint prefix_operation (n : nat) : parser aexpr := fun s =>
    match n with
    | O => PFail
    | S n => alt (fun s => do_ s <- sign "!" s; do e, s <- cut (prefix_operation n s); POk (XNot e) s) suffix_operation s
    end.
  Definition operand : parser aexpr := fun s => prefix_operation (S (slen s)) s.
  (** 381-396 [expression] *)
  Definition operation : parser aexpr := fun s =>
    do e, s <- operand s;
    do l, s <- many0 (fun s => do o, s <- binary_operator s; do e, s <- cut (operand s); POk (o, e) s) s;
    match reduce (S (length l)) e l with Some e => POk e s | None => PFail end.
End Expression.
Fixpoint pexpression (n : nat) : parser aexpr := fun s =>
  match n with O => PFail | S n => operation (pexpression n) s end.
Definition expression : parser aexpr := fun s => pexpression (S (slen s)) s.

(** *** Modules *)
(** parser.rs:143-147 [module_path_components], 149-155 [public_module_path_component] *)
Definition components (p : parser string) : parser (list string) := many1 (fun s => do_ s <- tag "'" s; p s).
Definition public_name (x : string) : bool := match x with String c _ => is_upper c | EmptyString => false end.
Definition public_component : parser string := fun s => do x, s <- identifier s; if public_name x then POk x s else PErr.
(** 110-141 [module_path], [internal_module_path], [external_module_path] *)
Definition external_path : parser apath := fun s => do x, s <- identifier s; do l, s <- cut (components public_component s); POk (External x l) s.
Definition internal_path : parser apath := fun s => pmap Internal (components identifier s).
Definition module_path : parser apath := fun s => alt external_path internal_path (skip s).
(** 78-101, 103-108 [import], [unqualified_name] *)
Definition import : parser aimport := fun s =>
  do_ s <- keyword "import" s; do p, s <- module_path s;
  cut (do a, s <- opt (fun s => do_ s <- keyword "as" s; identifier s) s;
       do l, s <- opt (fun s => do_ s <- sign "{" s; do l, s <- terminated_list1 (sign ",") identifier s; do_ s <- sign "}" s; POk l s) s;
       POk (AImport p a (match l with Some l => l | None => [] end)) s).
(** 180-189 [calling_convention] *)
Definition calling_convention : parser aconvention := fun s =>
  do x, s <- string_literal s; if String.eqb x "c" then POk CConvention s else PErr.
Definition or_native (c : option aconvention) : aconvention := match c with Some c => c | None => NativeConvention end.
(** 157-178 [foreign_import] *)
Definition foreign_import : parser aforeign := fun s =>
  do_ s <- keyword "import" s; do_ s <- keyword "foreign" s;
  cut (do c, s <- opt calling_convention s; do x, s <- identifier s; do t, s <- type_ s; POk (AForeign x (or_native c) t) s).
(** 210-219 [foreign_export], 191-208 [function_definition] *)
Definition foreign_export : parser aconvention := fun s =>
  do_ s <- keyword "foreign" s; do c, s <- opt calling_convention s; POk (or_native c) s.
Definition function_definition : parser afunction := fun s =>
  do f, s <- opt foreign_export s; do x, s <- identifier s; do_ s <- sign "=" s; do l, s <- cut (lambda expression s);
  POk (ADefinition x l f) s.
(** 221-236, 238-246, 248-257 [record_definition], [record_field_definition], [type_alias] *)
Definition record_field_definition : parser (string * aty) := fun s => do x, s <- identifier s; do t, s <- type_ s; POk (x, t) s.
Definition record_definition : parser atypedef := fun s =>
  do_ s <- keyword "type" s; do x, s <- identifier s; do_ s <- sign "{" s;
  cut (do l, s <- many0 record_field_definition s; do_ s <- sign "}" s; POk (DRecord x l) s).
Definition type_alias : parser atypedef := fun s =>
  do_ s <- keyword "type" s; do x, s <- identifier s; do_ s <- sign "=" s; do t, s <- cut (type_ s); POk (DAlias x t) s.
(** 34-55 [module], lib.rs:12-16 [parse]: [None] is a syntax error *)
Definition module_ : parser amodule := fun s =>
  do i, s <- many0 import s; do f, s <- many0 foreign_import s; do t, s <- many0 (alt type_alias record_definition) s;
  do d, s <- many0 function_definition s; POk (AModule i f t d) (skip s).
Definition parse (s : string) : option amodule :=
  match module_ s with POk m EmptyString => Some m | _ => None end.
