(** Which modules the formatter keeps: a description of syntax trees that uses
    neither the parser nor the formatter's documents. *)
From Coq Require Import String Ascii List Bool Permutation.
From Verif Require Import Syntax SyntaxSpec Ast Parser.
Import ListNotations.
Local Open Scope string_scope.

Definition every {A} (P : A -> Prop) : list A -> Prop :=
  fix go (l : list A) : Prop := match l with [] => True | x :: l => P x /\ go l end.
Definition maybe {A} (P : A -> Prop) (o : option A) : Prop := match o with Some a => P a | None => True end.
Fixpoint all_chars (f : ascii -> bool) (s : string) : bool :=
  match s with EmptyString => true | String c s => f c && all_chars f s end.

(** *** Words *)
(** A name begins with a letter or an underscore, goes on with letters, digits
    and underscores, and is no keyword. *)
Definition name (x : string) : Prop :=
  (exists c s, x = String c s /\ (is_alpha c = true \/ c = "_"%char)) /\ all_chars is_word x = true /\ ~ In x keywords.
Definition qualified_name (x : string) : Prop := name x \/ exists a b, x = a ++ "'" ++ b /\ name a /\ name b.
Definition digits (f : ascii -> bool) (s : string) : Prop := s <> EmptyString /\ all_chars f s = true.
(** Texts of numbers: a sign, digits, digits after a point, an exponent. *)
Definition sign_text (s : string) : Prop := s = "" \/ s = "+" \/ s = "-".
Inductive mantissa_text : string -> Prop :=
| whole d : digits is_digit d -> mantissa_text d
| pointed d f : digits is_digit d -> all_chars is_digit f = true -> mantissa_text (d ++ "." ++ f)
| fractional f : digits is_digit f -> mantissa_text ("." ++ f).
Inductive exponent_text : string -> Prop :=
| no_exponent : exponent_text ""
| an_exponent c s d : c = "e"%char \/ c = "E"%char -> sign_text s -> digits is_digit d -> exponent_text (String c (s ++ d)).
Inductive float_text : string -> Prop :=
| a_float s m e : sign_text s -> mantissa_text m -> exponent_text e -> float_text (s ++ m ++ e).
Definition is_lower_hex (c : ascii) : bool := is_digit c || between "a" "f" c.
Definition number_text (n : anumber) : Prop :=
  match n with
  | NBinary d => digits is_bit d
  | NHexadecimal d => digits is_lower_hex d
  | NFloat t => float_text t
  end.
(** Texts between quotes *)
Inductive string_text : string -> Prop :=
| text_end : string_text ""
| text_character c s : c <> "\"%char -> c <> quote -> string_text s -> string_text (String c s)
| text_escape c s : In c ["\"; quote; "n"; "r"; "t"]%char -> string_text s -> string_text (String "\" (String c s))
| text_byte h l s : is_hex h = true -> is_hex l = true -> string_text s ->
    string_text (String "\" (String "x" (String h (String l s)))).

(** *** Types *)
(** No union has a union or a function as its right member. *)
Definition right_member (t : aty) : Prop := match t with AUnion _ _ | AFunction _ _ => False | _ => True end.
Fixpoint faithful_type (t : aty) : Prop :=
  match t with
  | AFunction a r => every faithful_type a /\ faithful_type r
  | AList t => faithful_type t
  | AMap k v => faithful_type k /\ faithful_type v
  | AReference x => qualified_name x
  | AUnion l r => faithful_type l /\ faithful_type r /\ right_member r
  end.

(** *** Expressions *)
(** The first and the last part of an expression as it is written, unless it
    is in parentheses. *)
Definition tight (o : operator) (e : aexpr) : bool := match e with XBinary o' _ _ => Nat.leb (level o) (level o') | _ => true end.
Fixpoint leftmost (e : aexpr) : option aexpr :=
  match e with
  | XBinary o l _ => if tight o l then leftmost l else None
  | XCall f _ => leftmost f
  | XField x _ => leftmost x
  | XTry x => match x with XBinary _ _ _ => None | _ => leftmost x end
  | _ => Some e
  end.
Fixpoint rightmost (e : aexpr) : option aexpr :=
  match e with
  | XBinary o _ r => if tight o r then rightmost r else None
  | XNot x => match x with XBinary _ _ _ => None | _ => rightmost x end
  | _ => Some e
  end.

(** An operation is not the right operand of one of the same level. *)
Definition right_operand (o : operator) (r : aexpr) : Prop := match r with XBinary o' _ _ => level o' <> level o | _ => True end.
(** What a call or a field access may follow without parentheses *)
Definition callee (e : aexpr) : Prop := match e with XBinary _ _ _ | XNot _ => False | _ => True end.
Definition record_operand (e : aexpr) : Prop := callee e /\ match e with XNumber (NFloat _) => False | _ => True end.
Definition tried (e : aexpr) : Prop := match e with XNot _ => False | _ => True end.
(** The condition of an [if] does not begin with a list. *)
Definition condition (e : aexpr) : Prop := match leftmost e with Some (XList _ _) | Some (XComprehension _ _ _) => False | _ => True end.
(** The next statement does not go on with the one before it: it does not begin
    with a sign or a point, and not with a map if the one before ends in a name. *)
Definition apart (e : aexpr) (next : option string * aexpr) : Prop :=
  match next with
  | (Some _, _) => True
  | (None, e') =>
      match leftmost e' with
      | Some (XNumber (NFloat t)) => match t with String c _ => is_digit c = true | EmptyString => False end
      | Some (XMap _ _ _) => match rightmost e with Some (XVariable _) => False | _ => True end
      | _ => True
      end
  end.
Fixpoint chained (l : list (option string * aexpr)) (e : aexpr) : Prop :=
  match l with
  | [] => True
  | (_, e1) :: l => apart e1 (match l with [] => (None, e) | next :: _ => next end) /\ chained l e
  end.
Definition faithful_block (P : aexpr -> Prop) (b : ablock aexpr) : Prop :=
  match b with
  | Block l e => every (fun st => match st with (x, e) => maybe name x /\ P e end) l /\ P e /\ chained l e
  end.

Fixpoint faithful (e : aexpr) : Prop :=
  match e with
  | XBinary o l r => right_operand o r /\ faithful l /\ faithful r
  | XCall f a => callee f /\ faithful f /\ every faithful a
  | XIf l b =>
      l <> [] /\ match l with (c, _) :: _ => condition c | [] => True end /\
      every (fun p => match p with (c, b) => faithful c /\ faithful_block faithful b end) l /\ faithful_block faithful b
  | XIfList e x y a b => name x /\ name y /\ faithful e /\ faithful_block faithful a /\ faithful_block faithful b
  | XIfMap x m k a b => name x /\ faithful m /\ faithful k /\ faithful_block faithful a /\ faithful_block faithful b
  | XIfType x e l o =>
      name x /\ faithful e /\ l <> [] /\ every (fun p => match p with (t, b) => faithful_type t /\ faithful_block faithful b end) l /\
      match o with Some b => faithful_block faithful b | None => True end
  | XLambda a r b => every (fun p => name (fst p) /\ faithful_type (snd p)) a /\ faithful_type r /\ faithful_block faithful b
  | XList t l => faithful_type t /\ every (fun x => match x with Single e | Multiple e => faithful e end) l
  | XComprehension t e l =>
      faithful_type t /\ faithful e /\ l <> [] /\
      every (fun b => match b with Branch xs es c =>
        xs <> [] /\ every name xs /\ es <> [] /\ every faithful es /\ match c with Some e => faithful e | None => True end end) l
  | XMap k v l =>
      faithful_type k /\ faithful_type v /\
      every (fun x => match x with Entry k v => faithful k /\ faithful v | Spread e => faithful e end) l
  | XNumber n => number_text n
  | XRecord x o l =>
      qualified_name x /\ match o with Some e => faithful e /\ l <> [] | None => True end /\
      every (fun p => match p with (x, e) => name x /\ faithful e end) l /\ NoDup (map fst l)
  | XField e x => record_operand e /\ faithful e /\ name x
  | XString t => string_text t
  | XNot e => faithful e
  | XTry e => tried e /\ faithful e
  | XVariable x => qualified_name x
  end.

(** *** Modules *)
Definition faithful_path (p : apath) : Prop :=
  match p with
  | External x l => name x /\ l <> [] /\ every (fun x => name x /\ public_name x = true) l
  | Internal l => l <> [] /\ every name l
  end.
Definition faithful_import (i : aimport) : Prop := faithful_path (i_path i) /\ maybe name (i_prefix i) /\ every name (i_names i).
Definition faithful_foreign (f : aforeign) : Prop := name (f_name f) /\ faithful_type (f_type f).
Definition faithful_typedef (d : atypedef) : Prop :=
  match d with
  | DRecord x l => name x /\ every (fun p => name (fst p) /\ faithful_type (snd p)) l
  | DAlias x t => name x /\ faithful_type t
  end.
Definition faithful_lambda (l : alambda) : Prop :=
  every (fun p => name (fst p) /\ faithful_type (snd p)) (la_arguments l) /\ faithful_type (la_result l) /\ faithful_block faithful (la_body l).
Definition faithful_function (f : afunction) : Prop := name (fn_name f) /\ faithful_lambda (fn_lambda f).
Definition faithful_module (m : amodule) : Prop :=
  every faithful_import (m_imports m) /\ every faithful_foreign (m_foreign m) /\
  every faithful_typedef (m_types m) /\ every faithful_function (m_functions m).

(** Modules that differ in the order of imports and of imported names only *)
Definition same_import (i j : aimport) : Prop :=
  i_path i = i_path j /\ i_prefix i = i_prefix j /\ Permutation (i_names i) (i_names j).
Definition same_module (m n : amodule) : Prop :=
  (exists l, Permutation (m_imports m) l /\ Forall2 same_import l (m_imports n)) /\
  m_foreign m = m_foreign n /\ m_types m = m_types n /\ m_functions m = m_functions n.
