(** What every module that the parser reads is like, whatever its parentheses:
    names are names, and the parts that must be there are. *)
From Coq Require Import String List.
From Verif Require Import Syntax SyntaxSpec Ast Parser ParserSpec.
Import ListNotations.

Fixpoint worded_type (t : aty) : Prop :=
  match t with
  | AFunction a r => every worded_type a /\ worded_type r
  | AList t => worded_type t
  | AMap k v => worded_type k /\ worded_type v
  | AReference x => qualified_name x
  | AUnion l r => worded_type l /\ worded_type r
  end.
Definition worded_block (P : aexpr -> Prop) (b : ablock aexpr) : Prop :=
  match b with Block l e => every (fun st => match st with (x, e) => maybe name x /\ P e end) l /\ P e end.
Fixpoint worded (e : aexpr) : Prop :=
  match e with
  | XBinary _ l r => worded l /\ worded r
  | XCall f a => worded f /\ every worded a
  | XIf l b => l <> [] /\ every (fun p => match p with (c, b) => worded c /\ worded_block worded b end) l /\ worded_block worded b
  | XIfList e x y a b => name x /\ name y /\ worded e /\ worded_block worded a /\ worded_block worded b
  | XIfMap x m k a b => name x /\ worded m /\ worded k /\ worded_block worded a /\ worded_block worded b
  | XIfType x e l o =>
      name x /\ worded e /\ l <> [] /\ every (fun p => match p with (t, b) => worded_type t /\ worded_block worded b end) l /\
      match o with Some b => worded_block worded b | None => True end
  | XLambda a r b => every (fun p => name (fst p) /\ worded_type (snd p)) a /\ worded_type r /\ worded_block worded b
  | XList t l => worded_type t /\ every (fun x => match x with Single e | Multiple e => worded e end) l
  | XComprehension t e l =>
      worded_type t /\ worded e /\ l <> [] /\
      every (fun b => match b with Branch xs es c =>
        xs <> [] /\ every name xs /\ es <> [] /\ every worded es /\ match c with Some e => worded e | None => True end end) l
  | XMap k v l =>
      worded_type k /\ worded_type v /\
      every (fun x => match x with Entry k v => worded k /\ worded v | Spread e => worded e end) l
  | XNumber n => number_text n
  | XRecord x o l =>
      qualified_name x /\ match o with Some e => worded e /\ l <> [] | None => True end /\
      every (fun p => match p with (x, e) => name x /\ worded e end) l /\ NoDup (map fst l)
  | XField e x => worded e /\ name x
  | XString t => string_text t
  | XNot e | XTry e => worded e
  | XVariable x => qualified_name x
  end.
Definition worded_foreign (f : aforeign) : Prop := name (f_name f) /\ worded_type (f_type f).
Definition worded_typedef (d : atypedef) : Prop :=
  match d with
  | DRecord x l => name x /\ every (fun p => name (fst p) /\ worded_type (snd p)) l
  | DAlias x t => name x /\ worded_type t
  end.
Definition worded_lambda (l : alambda) : Prop :=
  every (fun p => name (fst p) /\ worded_type (snd p)) (la_arguments l) /\ worded_type (la_result l) /\ worded_block worded (la_body l).
Definition worded_function (f : afunction) : Prop := name (fn_name f) /\ worded_lambda (fn_lambda f).
Definition worded_module (m : amodule) : Prop :=
  every faithful_import (m_imports m) /\ every worded_foreign (m_foreign m) /\
  every worded_typedef (m_types m) /\ every worded_function (m_functions m).
