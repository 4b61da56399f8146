(** The scopes of names in the text of a module. *)
From Coq Require Import String List.
From Verif Require Import Base HirType Hir Syntax Ast ResolveSpec.
Import ListNotations.

(** The parts of an expression, each with the names it is in the scope of, the
    innermost first.  The name of a statement is in scope after it. *)
Fixpoint statement_parts (xs : list string) (l : list (option string * aexpr)) (e : aexpr) : list (list string * aexpr) :=
  match l with
  | [] => [(xs, e)]
  | (x, e1) :: l => (xs, e1) :: statement_parts (match x with Some x => x :: xs | None => xs end) l e
  end.
Definition block_parts (xs : list string) (b : ablock aexpr) : list (list string * aexpr) := statement_parts xs (b_statements b) (b_expression b).

(** The names of a [for] are in scope in the [for]s before it, in its own
    condition and in the element. *)
Fixpoint for_scope (l : list (abranch aexpr)) : list string :=
  match l with [] => [] | b :: l => br_names b ++ for_scope l end.
Fixpoint for_parts (l : list (abranch aexpr)) : list (list string * aexpr) :=
  match l with
  | [] => []
  | b :: l =>
      map (pair (for_scope l)) (br_iteratees b) ++
      match br_condition b with Some c => [(br_names b ++ for_scope l, c)] | None => [] end ++
      for_parts l
  end.

Definition source_parts (e : aexpr) : list (list string * aexpr) :=
  match e with
  | XBinary _ l r => [([], l); ([], r)]
  | XCall f a => ([], f) :: map (pair []) a
  | XIf l b => flat_map (fun p => ([], fst p) :: block_parts [] (snd p)) l ++ block_parts [] b
  | XIfList e x y a b => ([], e) :: block_parts [x; y] a ++ block_parts [] b
  | XIfMap x m k a b => ([], m) :: ([], k) :: block_parts [x] a ++ block_parts [] b
  | XIfType x e l o => ([], e) :: flat_map (fun p => block_parts [x] (snd p)) l ++ match o with Some b => block_parts [x] b | None => [] end
  | XLambda a _ b => block_parts (map fst a) b
  | XList _ l => map (fun x => match x with Ast.Single e | Ast.Multiple e => ([], e) end) l
  | XComprehension _ e l => (for_scope l, e) :: for_parts l
  | XMap _ _ l => flat_map (fun x => match x with Ast.Entry a b => [([], a); ([], b)] | Ast.Spread e => [([], e)] end) l
  | XRecord _ o l => match o with Some e => [([], e)] | None => [] end ++ map (fun p => ([], snd p)) l
  | XField e _ | XNot e | XTry e => [([], e)]
  | XNumber _ | XString _ | XVariable _ => []
  end.

(** [source_uses S e U x]: in the expression [e], where the names [S] are in
    scope, the variable [x] is used where the names [U] are. *)
Inductive source_uses : list string -> aexpr -> list string -> string -> Prop :=
| su_here : forall S x, source_uses S (XVariable x) S x
| su_part : forall S e T p U x, In (T, p) (source_parts e) -> source_uses (T ++ S) p U x -> source_uses S e U x.
(** The same of code *)
Inductive code_uses : list string -> hexpr -> list string -> string -> Prop :=
| cu_here : forall S x, code_uses S (HVariable x) S x
| cu_part : forall S e T p U x, In (T, p) (scoped e) -> code_uses (T ++ S) p U x -> code_uses S e U x.
