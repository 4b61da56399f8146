(** The syntax tree of a module, as the parser makes it and the formatter
    reads it, without positions.
    Sources: /repo/lib/ast/src/ast/*.rs, /repo/lib/ast/src/types/*.rs. *)
From Coq Require Import String List.
From Verif Require Import Syntax.
Import ListNotations.

(** types.rs [Type].  Simplification: [Type::Record] is left out, which the
    parser never makes (it writes a reference). *)
Inductive aty :=
| AFunction (arguments : list aty) (result : aty)
| AList (element : aty)
| AMap (key value : aty)
| AReference (name : string)
| AUnion (lhs rhs : aty).

(** ast/number.rs [NumberRepresentation] *)
Inductive anumber := NBinary (digits : string) | NHexadecimal (digits : string) | NFloat (text : string).

(** ast/list_element.rs *)
Inductive aelement (E : Type) := Single (e : E) | Multiple (e : E).
Arguments Single {E}. Arguments Multiple {E}.

(** ast/map_element.rs *)
Inductive aentry (E : Type) := Entry (k v : E) | Spread (e : E).
Arguments Entry {E}. Arguments Spread {E}.

(** ast/block.rs: statements, with their names if they bind one, and the last expression *)
Record ablock (E : Type) := Block { b_statements : list (option string * E); b_expression : E }.
Arguments Block {E}. Arguments b_statements {E}. Arguments b_expression {E}.

(** ast/list_comprehension_branch.rs *)
Record abranch (E : Type) := Branch { br_names : list string; br_iteratees : list E; br_condition : option E }.
Arguments Branch {E}. Arguments br_names {E}. Arguments br_iteratees {E}. Arguments br_condition {E}.

(** ast/expression.rs *)
Inductive aexpr :=
| XBinary (o : operator) (l r : aexpr)
| XCall (f : aexpr) (arguments : list aexpr)
| XIf (branches : list (aexpr * ablock aexpr)) (els : ablock aexpr)
| XIfList (list : aexpr) (first rest : string) (thn els : ablock aexpr)
| XIfMap (name : string) (map key : aexpr) (thn els : ablock aexpr)
| XIfType (name : string) (argument : aexpr) (branches : list (aty * ablock aexpr)) (els : option (ablock aexpr))
| XLambda (arguments : list (string * aty)) (result : aty) (body : ablock aexpr)
| XList (type : aty) (elements : list (aelement aexpr))
| XComprehension (type : aty) (element : aexpr) (branches : list (abranch aexpr))
| XMap (key value : aty) (elements : list (aentry aexpr))
| XNumber (n : anumber)
| XRecord (type : string) (record : option aexpr) (fields : list (string * aexpr))
| XField (record : aexpr) (name : string)
| XString (text : string)
| XNot (e : aexpr)
| XTry (e : aexpr)
| XVariable (name : string).

(** ast/lambda.rs *)
Record alambda := ALambda { la_arguments : list (string * aty); la_result : aty; la_body : ablock aexpr }.

(** ast/module_path.rs, external_module_path.rs, internal_module_path.rs *)
Inductive apath := External (package : string) (components : list string) | Internal (components : list string).

(** ast/import.rs *)
Record aimport := AImport { i_path : apath; i_prefix : option string; i_names : list string }.

(** ast/calling_convention.rs *)
Inductive aconvention := CConvention | NativeConvention.

(** ast/foreign_import.rs *)
Record aforeign := AForeign { f_name : string; f_convention : aconvention; f_type : aty }.

(** ast/type_definition.rs, record_definition.rs, type_alias.rs *)
Inductive atypedef := DRecord (name : string) (fields : list (string * aty)) | DAlias (name : string) (type : aty).

(** ast/function_definition.rs, foreign_export.rs *)
Record afunction := ADefinition { fn_name : string; fn_lambda : alambda; fn_export : option aconvention }.

(** ast/module.rs *)
Record amodule := AModule {
  m_imports : list aimport; m_foreign : list aforeign;
  m_types : list atypedef; m_functions : list afunction }.
