(** Operator expressions: precedence, the parser of expressions over tokens, and
    the formatter's printing of them.
    Sources: /repo/lib/parse/src/operations.rs, /repo/lib/parse/src/parser.rs,
    /repo/lib/ast/src/analysis.rs, /repo/lib/format/src/lib.rs. *)
From Coq Require Import String List Bool Arith.
From Verif Require Import Base.
Import ListNotations.

(** /repo/lib/ast/src/binary_operator.rs *)
Inductive operator :=
| Or | And | Equal | NotEqual | LessThan | LessThanOrEqual | GreaterThan | GreaterThanOrEqual
| Add | Subtract | Multiply | Divide.

(** analysis.rs:26-39 [operator_priority] *)
Definition priority (o : operator) : nat :=
  match o with
  | Or => 1
  | And => 2
  | Equal | NotEqual | LessThan | LessThanOrEqual | GreaterThan | GreaterThanOrEqual => 3
  | Add | Subtract => 4
  | Multiply | Divide => 5
  end.

(** /repo/lib/ast/src/expression.rs, without positions.  [EAtom] stands for
    every other kind of expression (variables, literals, lambdas, ifs, ...);
    they begin and end with their own tokens. *)
Inductive expr :=
| EAtom (a : nat)
| EBin (o : operator) (l r : expr)
| ENot (e : expr)
| ETry (e : expr)
| ECall (f : expr) (args : list expr)
| EField (e : expr) (name : string).

(** operations.rs:33 [Iterator::position] and [split_at] *)
Fixpoint split_pairs (p : nat) (pairs : list (operator * expr)) : list (operator * expr) * list (operator * expr) :=
  match pairs with
  | [] => ([], [])
  | (o, e) :: pairs' =>
      if priority o <=? p then ([], pairs)
      else let (head, tail) := split_pairs p pairs' in ((o, e) :: head, tail)
  end.

(** operations.rs:11-49 [reduce_operations]; [n] bounds the recursion *)
Fixpoint reduce_operations (n : nat) (lhs : expr) (pairs : list (operator * expr)) : res expr :=
  match n with
  | O => OutOfFuel
  | S n =>
      match pairs with
      | [] => Ok lhs
      | [(o, rhs)] => Ok (EBin o lhs rhs)
      | (o, rhs) :: (((next, _) :: _) as rest) =>
          if priority next <=? priority o
          then reduce_operations n (EBin o lhs rhs) rest
          else
            let (head, tail) := split_pairs (priority o) rest in
            bind (reduce_operations n rhs head) (fun rhs =>
            reduce_operations n (EBin o lhs rhs) tail)
      end
  end.

(** Tokens.  [TOpen blank] is an opening parenthesis; [blank] tells whether a
    blank precedes it, which matters to calls only.  [TField] is a dot with the
    identifier after it. *)
Inductive token :=
| TAtom (a : nat) | TOp (o : operator) | TBang | TQuestion | TField (name : string)
| TOpen (blank : bool) | TClose | TComma.

(** parser.rs:381-521, the grammar of expressions; [Panic] stands for a
    syntax error.
    Simplification: nom's recoverable and unrecoverable errors are one, and a
    trailing comma is recognised by the parenthesis after it. *)
Section Parser.
  Notation parsed A := (res (A * list token)).

  Fixpoint parse_expression (n : nat) (ts : list token) : parsed expr :=
    match n with
    | O => OutOfFuel
    | S n =>
        bind (parse_prefix n ts) (fun p =>
        bind (parse_pairs n (snd p)) (fun q =>
        bind (reduce_operations (S (length (fst q))) (fst p) (fst q)) (fun e =>
        Ok (e, snd q))))
    end
  (* parser.rs:387-390 [many0(binary_operator, cut(prefix_operation_like))] *)
  with parse_pairs (n : nat) (ts : list token) : parsed (list (operator * expr)) :=
    match n with
    | O => OutOfFuel
    | S n =>
        match ts with
        | TOp o :: ts =>
            bind (parse_prefix n ts) (fun p =>
            bind (parse_pairs n (snd p)) (fun q =>
            Ok ((o, fst p) :: fst q, snd q)))
        | _ => Ok ([], ts)
        end
    end
  (* parser.rs:419-440 [prefix_operation_like] *)
  with parse_prefix (n : nat) (ts : list token) : parsed expr :=
    match n with
    | O => OutOfFuel
    | S n =>
        match ts with
        | TBang :: ts => bind (parse_prefix n ts) (fun p => Ok (ENot (fst p), snd p))
        | _ => bind (parse_atomic n ts) (fun p => parse_suffixes n (fst p) (snd p))
        end
    end
  (* parser.rs:442-504 [suffix_operation_like]: the loop over suffix operators *)
  with parse_suffixes (n : nat) (e : expr) (ts : list token) : parsed expr :=
    match n with
    | O => OutOfFuel
    | S n =>
        match ts with
        | TOpen false :: ts => bind (parse_arguments n ts) (fun p => parse_suffixes n (ECall e (fst p)) (snd p))
        | TField name :: ts => parse_suffixes n (EField e name) ts
        | TQuestion :: ts => parse_suffixes n (ETry e) ts
        | _ => Ok (e, ts)
        end
    end
  (* parser.rs:506-521 [atomic_expression] *)
  with parse_atomic (n : nat) (ts : list token) : parsed expr :=
    match n with
    | O => OutOfFuel
    | S n =>
        match ts with
        | TAtom a :: ts => Ok (EAtom a, ts)
        | TOpen _ :: ts =>
            bind (parse_expression n ts) (fun p =>
            match snd p with
            | TClose :: ts => Ok (fst p, ts)
            | _ => Panic
            end)
        | _ => Panic
        end
    end
  (* parser.rs:466-482 [call_operator] after its parenthesis *)
  with parse_arguments (n : nat) (ts : list token) : parsed (list expr) :=
    match n with
    | O => OutOfFuel
    | S n =>
        match ts with
        | TClose :: ts => Ok ([], ts)
        | _ =>
            bind (parse_expression n ts) (fun p =>
            match snd p with
            | TClose :: ts => Ok ([fst p], ts)
            | TComma :: ts => bind (parse_arguments n ts) (fun q => Ok (fst p :: fst q, snd q))
            | _ => Panic
            end)
        end
    end.
End Parser.

(** lib.rs:473-669 [compile_expression], 820-861 [compile_binary_operation],
    [compile_operand].  Line breaks and blanks are left out but for the blank
    before a parenthesis ([blank] tells whether one precedes the expression);
    the trailing comma that a broken argument list gets is left out too. *)
Section Format.
  Definition parenthesized (ts : list token) (blank : bool) : list token := TOpen blank :: ts ++ [TClose].

  Fixpoint format_expression (e : expr) (blank : bool) : list token :=
    match e with
    | EAtom a => [TAtom a]
    | EBin o l r =>
        (* lib.rs:841-861 [compile_operand] *)
        let operand (x : expr) (blank : bool) :=
          match x with
          | EBin o' _ _ => if priority o' <? priority o then parenthesized (format_expression x false) blank else format_expression x blank
          | _ => format_expression x blank
          end in
        operand l blank ++ TOp o :: operand r true
    (* lib.rs:654-666 *)
    | ENot x =>
        TBang :: match x with EBin _ _ _ => parenthesized (format_expression x false) false | _ => format_expression x false end
    | ETry x =>
        match x with EBin _ _ _ => parenthesized (format_expression x false) blank | _ => format_expression x blank end ++ [TQuestion]
    (* lib.rs:476-512 *)
    | ECall f args =>
        format_expression f blank ++ TOpen false ::
        (fix go (args : list expr) (blank : bool) : list token :=
           match args with
           | [] => []
           | [a] => format_expression a blank
           | a :: args => format_expression a blank ++ TComma :: go args true
           end) args false ++ [TClose]
    (* lib.rs:648-652 *)
    | EField x name => format_expression x blank ++ [TField name]
    end.
End Format.
