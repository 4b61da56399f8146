(** What normalization may assume of a module. *)
From Coq Require Import String List.
From Verif Require Import Base Mir Names MirScopeSpec.
Import ListNotations.

(** [within e' e]: the expression [e'] occurs in [e]. *)
Inductive within : expr -> expr -> Prop :=
| within_here e : within e e
| within_op e' o es e : In e es -> within e' e -> within e' (Op o es)
| within_if_1 e' c t e : within e' c -> within e' (If c t e)
| within_if_2 e' c t e : within e' t -> within e' (If c t e)
| within_if_3 e' c t e : within e' e -> within e' (If c t e)
| within_case_argument e' a alts de : within e' a -> within e' (Case a alts de)
| within_case_alternative e' a alts de al :
    In al alts -> within e' (a_body al) -> within e' (Case a alts de)
| within_case_default e' a alts x e : within e' e -> within e' (Case a alts (Some (x, e)))
| within_let_bound e' x t b e : within e' b -> within e' (Let x t b e)
| within_let_body e' x t b e : within e' e -> within e' (Let x t b e)
| within_letrec_definition e' d e : within e' (f_body d) -> within e' (LetRec d e)
| within_letrec_body e' d e : within e' e -> within e' (LetRec d e)
| within_try_operand e' o x t e : within e' o -> within e' (Try o x t e)
| within_try_body e' o x t e : within e' e -> within e' (Try o x t e)
| within_clone e' xs e : within e' e -> within e' (CloneVars xs e)
| within_drop e' xs e : within e' e -> within e' (DropVars xs e).

(** The number of operands of an operation. *)
Definition arity (m : mmodule) (o : operation) (k : nat) : Prop :=
  match o with
  | OArith _ | OCompare _ => k = 2
  | OConcat => True
  | ORecord name => exists ts, lookup (m_types m) name = Some ts /\ k = length ts
  | OField _ _ | OVariant _ | OTypeInfo | OSync _ => k = 1
  | OUpdate _ indices => k = S (length indices)
  | OCall ts _ => k = S (length ts)
  end.

(** Every operation of the module has as many operands as it takes. *)
Definition shaped (m : mmodule) : Prop :=
  forall d o es, In d (m_defs m) -> within (Op o es) (f_body d) -> arity m o (length es).

(** All variables bound in a function are distinct and different from the
    variables free in it (its arguments and global functions). *)
Definition distinct_binders (m : mmodule) : Prop :=
  forall d, In d (m_defs m) ->
    NoDup (binders (f_body d)) /\ forall x, free x (f_body d) -> ~ In x (binders (f_body d)).

(** No variable has the form of a name that normalization makes. *)
Definition no_normal_names (m : mmodule) : Prop :=
  forall d k, In d (m_defs m) ->
    ~ free (numbered "anf:v" k) (f_body d) /\ ~ In (numbered "anf:v" k) (binders (f_body d)).

(** The names bound by let expressions, of values and of functions. *)
Fixpoint lets (e : expr) : list string :=
  match e with
  | Lit _ | Var _ => []
  | Op _ es => flat_map lets es
  | If c t e => lets c ++ lets t ++ lets e
  | Case a alts de =>
      lets a ++ flat_map (fun al => lets (a_body al)) alts ++
      match de with
      | Some (_, e) => lets e
      | None => []
      end
  | Let x _ b e => x :: lets b ++ lets e
  | LetRec d e => f_name d :: lets (f_body d) ++ lets e
  | Try o _ _ e => lets o ++ lets e
  | CloneVars _ e => lets e
  | DropVars _ e => lets e
  end.

(** [result x e]: the value of [e] may be that of its free variable [x], or that
    of a variable bound to it by a let expression of [e]. *)
Inductive result (x : string) : expr -> Prop :=
| result_var : result x (Var x)
| result_let_bound y t b e : result x b -> result x (Let y t b e)
| result_let_body y t b e : x <> y -> result x e -> result x (Let y t b e)
| result_letrec d e : x <> f_name d -> result x e -> result x (LetRec d e).

(** [copied x e]: a let expression in [e] gives the free variable [x] of [e]
    another name. *)
Inductive copied (x : string) : expr -> Prop :=
| copied_here y t b e : result x b -> copied x (Let y t b e)
| copied_op o es e : In e es -> copied x e -> copied x (Op o es)
| copied_if_1 c t e : copied x c -> copied x (If c t e)
| copied_if_2 c t e : copied x t -> copied x (If c t e)
| copied_if_3 c t e : copied x e -> copied x (If c t e)
| copied_case_argument a alts de : copied x a -> copied x (Case a alts de)
| copied_case_alternative a alts de al :
    In al alts -> x <> a_name al -> copied x (a_body al) -> copied x (Case a alts de)
| copied_case_default a alts y e : x <> y -> copied x e -> copied x (Case a alts (Some (y, e)))
| copied_let_bound y t b e : copied x b -> copied x (Let y t b e)
| copied_let_body y t b e : x <> y -> copied x e -> copied x (Let y t b e)
| copied_letrec_definition d e :
    x <> f_name d -> ~ In x (map fst (f_args d)) -> copied x (f_body d) -> copied x (LetRec d e)
| copied_letrec_body d e : x <> f_name d -> copied x e -> copied x (LetRec d e)
| copied_try_operand o y t e : copied x o -> copied x (Try o y t e)
| copied_try_body o y t e : x <> y -> copied x e -> copied x (Try o y t e)
| copied_clone xs e : copied x e -> copied x (CloneVars xs e)
| copied_drop xs e : copied x e -> copied x (DropVars xs e).

(** All variables bound in a function are distinct.  A name that is bound in a
    function and also the name of a variable free in it is not bound by a let
    expression, and the variable is not given another name. *)
Definition names_apart (m : mmodule) : Prop :=
  forall d, In d (m_defs m) ->
    NoDup (binders (f_body d)) /\
    (forall x, free x (f_body d) -> ~ In x (lets (f_body d))) /\
    (forall x, copied x (f_body d) -> ~ In x (binders (f_body d))).
