(** Which of the modules that the parser reads the formatter keeps: nothing but
    the places where it drops parentheses that are needed. *)
From Coq Require Import String List.
From Verif Require Import Syntax SyntaxSpec Ast Parser ParserSpec.
Import ListNotations.

Fixpoint kept_type (t : aty) : Prop :=
  match t with
  | AFunction a r => every kept_type a /\ kept_type r
  | AList t => kept_type t
  | AMap k v => kept_type k /\ kept_type v
  | AReference _ => True
  | AUnion l r => kept_type l /\ kept_type r /\ right_member r
  end.
Definition kept_block (P : aexpr -> Prop) (b : ablock aexpr) : Prop :=
  match b with Block l e => every (fun st => match st with (_, e) => P e end) l /\ P e /\ chained l e end.
Fixpoint kept (e : aexpr) : Prop :=
  match e with
  | XBinary o l r => right_operand o r /\ kept l /\ kept r
  | XCall f a => callee f /\ kept f /\ every kept a
  | XIf l b =>
      match l with (c, _) :: _ => condition c | [] => True end /\
      every (fun p => match p with (c, b) => kept c /\ kept_block kept b end) l /\ kept_block kept b
  | XIfList e _ _ a b => kept e /\ kept_block kept a /\ kept_block kept b
  | XIfMap _ m k a b => kept m /\ kept k /\ kept_block kept a /\ kept_block kept b
  | XIfType _ e l o =>
      kept e /\ every (fun p => match p with (t, b) => kept_type t /\ kept_block kept b end) l /\
      match o with Some b => kept_block kept b | None => True end
  | XLambda a r b => every (fun p => kept_type (snd p)) a /\ kept_type r /\ kept_block kept b
  | XList t l => kept_type t /\ every (fun x => match x with Single e | Multiple e => kept e end) l
  | XComprehension t e l =>
      kept_type t /\ kept e /\
      every (fun b => match b with Branch _ es c => every kept es /\ match c with Some e => kept e | None => True end end) l
  | XMap k v l =>
      kept_type k /\ kept_type v /\
      every (fun x => match x with Entry k v => kept k /\ kept v | Spread e => kept e end) l
  | XRecord _ o l =>
      match o with Some e => kept e | None => True end /\ every (fun p => match p with (_, e) => kept e end) l
  | XField e _ => record_operand e /\ kept e
  | XNot e => kept e
  | XTry e => tried e /\ kept e
  | XNumber _ | XString _ | XVariable _ => True
  end.
Definition kept_typedef (d : atypedef) : Prop :=
  match d with DRecord _ l => every (fun p => kept_type (snd p)) l | DAlias _ t => kept_type t end.
Definition kept_lambda (l : alambda) : Prop :=
  every (fun p => kept_type (snd p)) (la_arguments l) /\ kept_type (la_result l) /\ kept_block kept (la_body l).
Definition kept_module (m : amodule) : Prop :=
  every (fun f => kept_type (f_type f)) (m_foreign m) /\ every kept_typedef (m_types m) /\
  every (fun f => kept_lambda (fn_lambda f)) (m_functions m).
