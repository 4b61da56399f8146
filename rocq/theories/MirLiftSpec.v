(** What lambda lifting may assume of a module. *)
From Coq Require Import String List.
From Verif Require Import Base Mir Names MirScopeSpec MirNormSpec.
Import ListNotations.
Local Open Scope string_scope.

(** Names that lambda lifting makes: "fv:x:number" and "mir:lift:...". *)
Definition lifted_name (x : string) : Prop :=
  (exists y i, x = numbered ("fv:" ++ y) i) \/ exists s, x = "mir:lift:" ++ s.

(** [name_in x e]: the name [x] is used as a variable, bound, or listed in an
    environment somewhere in [e]. *)
Definition name_in (x : string) (e : expr) : Prop :=
  within (Var x) e \/ In x (binders e) \/
  exists d e', within (LetRec d e') e /\ In x (map fst (f_env d)).

(** No name of the module has the form of a name that lambda lifting makes. *)
Definition no_lifted_names (m : mmodule) : Prop :=
  (forall g, global_type m g <> None -> ~ lifted_name g) /\
  forall d x, In d (m_defs m) -> In x (map fst (f_args d)) \/ name_in x (f_body d) -> ~ lifted_name x.

(** All variables bound in a function are distinct. *)
Definition bound_once (m : mmodule) : Prop :=
  forall d, In d (m_defs m) -> NoDup (binders (f_body d)).

(** The environment of a local function lists distinct variables, without the
    function itself and its arguments. *)
Definition proper_environments (m : mmodule) : Prop :=
  forall g d e, In g (m_defs m) -> within (LetRec d e) (f_body g) ->
    NoDup (f_name d :: map fst (f_args d) ++ map fst (f_env d)).

(** Every local thunk captures a variable. *)
Definition no_closed_thunks (m : mmodule) : Prop :=
  forall g d e, In g (m_defs m) -> within (LetRec d e) (f_body g) ->
    f_thunk d = true -> f_env d <> [].

(** [first_class f e]: the function [f] is used in [e] in another way than by
    calling it: passed on, stored, returned, or captured by a local function
    (as its environment says). *)
Inductive first_class (f : string) : expr -> Prop :=
| first_class_var : first_class f (Var f)
| first_class_operation o before e after :
    first_class f e ->
    (before = [] -> forall ts t x, o = OCall ts t -> e <> Var x) ->
    first_class f (Op o (before ++ e :: after))
| first_class_if_1 c t e : first_class f c -> first_class f (If c t e)
| first_class_if_2 c t e : first_class f t -> first_class f (If c t e)
| first_class_if_3 c t e : first_class f e -> first_class f (If c t e)
| first_class_case_argument a alts de : first_class f a -> first_class f (Case a alts de)
| first_class_case_alternative a alts de al :
    In al alts -> first_class f (a_body al) -> first_class f (Case a alts de)
| first_class_case_default a alts x e : first_class f e -> first_class f (Case a alts (Some (x, e)))
| first_class_let_bound x t b e : first_class f b -> first_class f (Let x t b e)
| first_class_let_body x t b e : first_class f e -> first_class f (Let x t b e)
| first_class_captured d e : In f (map fst (f_env d)) -> first_class f (LetRec d e)
| first_class_letrec_body d e : first_class f e -> first_class f (LetRec d e)
| first_class_try_operand o x t e : first_class f o -> first_class f (Try o x t e)
| first_class_try_body o x t e : first_class f e -> first_class f (Try o x t e)
| first_class_clone xs e : first_class f e -> first_class f (CloneVars xs e)
| first_class_drop xs e : first_class f e -> first_class f (DropVars xs e).
