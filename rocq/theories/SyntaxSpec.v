(** Specification of operator grouping, independent of the parser. *)
From Coq Require Import List Arith.
From Verif Require Import Syntax.
Import ListNotations.

(** A way of grouping a chain of operands and operators.  Operands are whole
    expressions, among them parenthesized operations. *)
Inductive tree := Leaf (e : expr) | Node (o : operator) (l r : tree).

(** The chain it groups: first operand, then operators with their operands. *)
Fixpoint first_operand (t : tree) : expr :=
  match t with Leaf e => e | Node _ l _ => first_operand l end.
Fixpoint operations (t : tree) : list (operator * expr) :=
  match t with
  | Leaf _ => []
  | Node o l r => operations l ++ (o, first_operand r) :: operations r
  end.

(** The expression it means. *)
Fixpoint meaning (t : tree) : expr :=
  match t with Leaf e => e | Node o l r => EBin o (meaning l) (meaning r) end.

(** Operators from the loosest to the tightest. *)
Definition level (o : operator) : nat :=
  match o with
  | Or => 0
  | And => 1
  | Equal | NotEqual | LessThan | LessThanOrEqual | GreaterThan | GreaterThanOrEqual => 2
  | Add | Subtract => 3
  | Multiply | Divide => 4
  end.

(** Operators bind by level and to the left: no operator has a looser one as
    its left operand, or a looser or equally loose one as its right operand. *)
Definition left_fits (p : nat) (t : tree) : Prop := match t with Leaf _ => True | Node o _ _ => p <= level o end.
Definition right_fits (p : nat) (t : tree) : Prop := match t with Leaf _ => True | Node o _ _ => p < level o end.
Fixpoint grouped (t : tree) : Prop :=
  match t with
  | Leaf _ => True
  | Node o l r => left_fits (level o) l /\ right_fits (level o) r /\ grouped l /\ grouped r
  end.

(** Expressions the formatter prints faithfully: no operation is the right
    operand of one of the same level, the operand of [?] is not a negation,
    and the callee of a call or the record of a field access is no operation. *)
Definition right_ok (p : nat) (e : expr) : Prop := match e with EBin o _ _ => level o <> p | _ => True end.
Definition suffixable (e : expr) : Prop := match e with EBin _ _ _ | ENot _ => False | _ => True end.
Definition triable (e : expr) : Prop := match e with ENot _ => False | _ => True end.
Fixpoint faithful (e : expr) : Prop :=
  match e with
  | EAtom _ => True
  | EBin o l r => right_ok (level o) r /\ faithful l /\ faithful r
  | ENot x => faithful x
  | ETry x => triable x /\ faithful x
  | ECall f args => suffixable f /\ faithful f /\ (fix all (l : list expr) : Prop := match l with [] => True | x :: l => faithful x /\ all l end) args
  | EField x _ => suffixable x /\ faithful x
  end.
