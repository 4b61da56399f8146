(** Scoping of MIR expressions, independently of the compiler's functions. *)
From Coq Require Import String List.
From Verif Require Import Base Mir Names.
Import ListNotations.

(** [free x e]: the variable [x] occurs free in [e]. *)
Inductive free (x : string) : expr -> Prop :=
| free_var : free x (Var x)
| free_op o es e : In e es -> free x e -> free x (Op o es)
| free_if_1 c t e : free x c -> free x (If c t e)
| free_if_2 c t e : free x t -> free x (If c t e)
| free_if_3 c t e : free x e -> free x (If c t e)
| free_case_argument a alts de : free x a -> free x (Case a alts de)
| free_case_alternative a alts de al :
    In al alts -> x <> a_name al -> free x (a_body al) -> free x (Case a alts de)
| free_case_default a alts y e : x <> y -> free x e -> free x (Case a alts (Some (y, e)))
| free_let_bound y t b e : free x b -> free x (Let y t b e)
| free_let_body y t b e : x <> y -> free x e -> free x (Let y t b e)
| free_letrec_definition d e :
    x <> f_name d -> ~ In x (map fst (f_args d)) -> free x (f_body d) -> free x (LetRec d e)
| free_letrec_body d e : x <> f_name d -> free x e -> free x (LetRec d e)
| free_try_operand o y t e : free x o -> free x (Try o y t e)
| free_try_body o y t e : x <> y -> free x e -> free x (Try o y t e)
| free_clone xs e : free x e -> free x (CloneVars xs e)
| free_drop xs e : free x e -> free x (DropVars xs e).

(** [local vars e scope d]: the local function [d] is defined somewhere in [e],
    at a place where the variables in scope are [scope], innermost first, when
    those around [e] are [vars]. *)
Inductive local : arguments -> expr -> arguments -> fdef -> Prop :=
| local_here vars d e : local vars (LetRec d e) vars d
| local_definition vars d e s l :
    local (rev (f_args d) ++ (f_name d, f_type d) :: vars) (f_body d) s l -> local vars (LetRec d e) s l
| local_letrec_body vars d e s l :
    local ((f_name d, f_type d) :: vars) e s l -> local vars (LetRec d e) s l
| local_op vars o es e s l : In e es -> local vars e s l -> local vars (Op o es) s l
| local_if_1 vars c t e s l : local vars c s l -> local vars (If c t e) s l
| local_if_2 vars c t e s l : local vars t s l -> local vars (If c t e) s l
| local_if_3 vars c t e s l : local vars e s l -> local vars (If c t e) s l
| local_case_argument vars a alts de s l : local vars a s l -> local vars (Case a alts de) s l
| local_case_alternative vars a alts de al s l :
    In al alts -> local ((a_name al, alt_type (a_types al)) :: vars) (a_body al) s l ->
    local vars (Case a alts de) s l
| local_case_default vars a alts y e s l :
    local ((y, TVariant) :: vars) e s l -> local vars (Case a alts (Some (y, e))) s l
| local_let_bound vars y t b e s l : local vars b s l -> local vars (Let y t b e) s l
| local_let_body vars y t b e s l : local ((y, t) :: vars) e s l -> local vars (Let y t b e) s l
| local_try_operand vars o y t e s l : local vars o s l -> local vars (Try o y t e) s l
| local_try_body vars o y t e s l : local ((y, t) :: vars) e s l -> local vars (Try o y t e) s l
| local_clone vars xs e s l : local vars e s l -> local vars (CloneVars xs e) s l
| local_drop vars xs e s l : local vars e s l -> local vars (DropVars xs e) s l.

(** [d] is a local function of the module, with the variables in scope where it
    is defined. *)
Definition local_function (m : mmodule) (scope : arguments) (d : fdef) : Prop :=
  exists g, In g (m_defs m) /\ local (rev (f_args g)) (f_body g) scope d.

(** The variables an expression binds, one entry for each place. *)
Fixpoint binders (e : expr) : list string :=
  match e with
  | Lit _ | Var _ => []
  | Op _ es => flat_map binders es
  | If c t e => binders c ++ binders t ++ binders e
  | Case a alts de =>
      binders a ++ flat_map (fun al => a_name al :: binders (a_body al)) alts ++
      match de with
      | Some (x, e) => x :: binders e
      | None => []
      end
  | Let x _ b e => x :: binders b ++ binders e
  | LetRec d e => f_name d :: map fst (f_args d) ++ binders (f_body d) ++ binders e
  | Try o x _ e => x :: binders o ++ binders e
  | CloneVars _ e => binders e
  | DropVars _ e => binders e
  end.

(** No local function has two arguments of the same name. *)
Definition distinct_arguments (m : mmodule) : Prop :=
  forall scope d, local_function m scope d -> NoDup (map fst (f_args d)).

(** [n] is [b] followed by a colon and a positive decimal number. *)
Definition made_from (b n : string) : Prop := exists k, k <> 0 /\ n = numbered b k.

(** No name of the module looks as if it had been made from a local variable
    of the same function.  Names written by a user have no colons, and the
    names made by the front end do not end in a colon and a number. *)
Definition hygienic (m : mmodule) : Prop :=
  forall d, In d (m_defs m) ->
  forall b n, In b (binders (f_body d)) ->
    In n (binders (f_body d)) \/ free n (f_body d) \/ global_type m n <> None ->
    ~ made_from b n.
