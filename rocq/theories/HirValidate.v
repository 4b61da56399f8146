(** Validation passes over HIR expressions and the order of the analyses.
    Source: /repo/lib/hir/src/analysis.rs and, in analysis/,
    try_operation_validator.rs, expression_visitor.rs,
    unused_error_validator.rs and record_field_validator.rs. *)
From Coq Require Import String List ZArith Bool.
From Verif Require Import Base HirType Hir HirCheck HirCoerce HirInfer.
Import ListNotations.
Local Open Scope string_scope.

(** [for x in xs { f(x)?; }] *)
Section Each.
  Context {A : Type}.
  Variable f : A -> res unit.
  Fixpoint each (l : list A) : res unit :=
    match l with
    | [] => Ok tt
    | x :: xs => bind (f x) (fun _ => each xs)
    end.
End Each.

(** ** Try operations (try_operation_validator.rs 16-181
    [validate_expression]).  The result type is absent inside the parts of a
    list. *)
Fixpoint validate_try (n : nat) (E : tenv) (result : option ty) (e : hexpr) {struct e} : res unit :=
  match e with
  | HCall _ f args =>
      bind (validate_try n E result f) (fun _ => each (validate_try n E result) args)
  | HIf c a b =>
      bind (validate_try n E result c) (fun _ =>
      bind (validate_try n E result a) (fun _ => validate_try n E result b))
  | HIfList _ l _ _ a b =>
      bind (validate_try n E result l) (fun _ =>
      bind (validate_try n E result a) (fun _ => validate_try n E result b))
  | HIfMap _ _ _ m k a b =>
      bind (validate_try n E result m) (fun _ =>
      bind (validate_try n E result k) (fun _ =>
      bind (validate_try n E result a) (fun _ => validate_try n E result b)))
  | HIfType _ a branches els =>
      bind (validate_try n E result a) (fun _ =>
      bind (each (fun b => validate_try n E result (snd b)) branches) (fun _ =>
      match els with None => Ok tt | Some (_, b) => validate_try n E result b end))
  | HCoerce _ _ a => validate_try n E result a
  | HLambda _ r b => validate_try n E (Some r) b
  | HLet _ _ b e' => bind (validate_try n E result b) (fun _ => validate_try n E result e')
  | HList _ es =>
      each (fun el => match el with
                      | Multiple a => validate_try n E None a
                      | Single a => validate_try n E None a
                      end) es
  | HComprehension _ el bs =>
      bind (each (fun b => match b with
                           | CompBranch _ its cond =>
                               bind (each (fun it => validate_try n E None (snd it)) its) (fun _ =>
                               match cond with None => Ok tt | Some c => validate_try n E None c end)
                           end) bs) (fun _ => validate_try n E None el)
  | HMap _ _ es =>
      each (fun el => match el with
                      | Entry a b => bind (validate_try n E result a) (fun _ => validate_try n E result b)
                      | Spread m => validate_try n E result m
                      end) es
  | HBinary _ l r => bind (validate_try n E result l) (fun _ => validate_try n E result r)
  | HNot a => validate_try n E result a
  | HTry _ a =>
      bind (match result with
            | Some t =>
                bind (subsumes n E TError t) (fun b => if b then Ok tt else reject "InvalidTryOperation")
            | None => reject "TryOperationInList"
            end) (fun _ => validate_try n E result a)
  | HRecord _ fs => each (fun f => validate_try n E result (snd f)) fs
  | HField _ r _ => validate_try n E result r
  | HUpdate _ r fs =>
      bind (validate_try n E result r) (fun _ => each (fun f => validate_try n E result (snd f)) fs)
  | HThunk t a => bind (annotated t) (fun t => validate_try n E (Some t) a)
  | HBoolean _ | HBuiltIn _ | HNone | HNumber _ | HString _ | HVariable _ => Ok tt
  end.

(** try_operation_validator.rs 4-14 [validate] *)
Definition validate_try_module (n : nat) (E : tenv) (m : hmodule) : res unit :=
  each (fun d => validate_try n E (Some (l_result (snd d))) (l_body (snd d))) (h_defs m).

(** ** The expressions a visitor meets, in order (expression_visitor.rs 20-145
    [visit_expression]).  As in the code, the conditions of list comprehensions
    are not visited (76-84). *)
Fixpoint visit (e : hexpr) : list hexpr :=
  e :: match e with
       | HCall _ f args => (visit f ++ flat_map visit args)%list
       | HIf c a b => (visit c ++ visit a ++ visit b)%list
       | HIfList _ l _ _ a b => (visit l ++ visit a ++ visit b)%list
       | HIfMap _ _ _ m k a b => (visit m ++ visit k ++ visit a ++ visit b)%list
       | HIfType _ a branches els =>
           (visit a ++ flat_map (fun b => visit (snd b)) branches ++
            match els with None => [] | Some (_, b) => visit b end)%list
       | HCoerce _ _ a => visit a
       | HLambda _ _ b => visit b
       | HLet _ _ b e' => (visit b ++ visit e')%list
       | HList _ es => flat_map (fun el => match el with Multiple a => visit a | Single a => visit a end) es
       | HComprehension _ el bs =>
           (flat_map (fun b => match b with
                               | CompBranch _ its _ => flat_map (fun it => visit (snd it)) its
                               end) bs ++ visit el)%list
       | HMap _ _ es =>
           flat_map (fun el => match el with Entry a b => (visit a ++ visit b)%list | Spread m => visit m end) es
       | HBinary _ l r => (visit l ++ visit r)%list
       | HNot a => visit a
       | HTry _ a => visit a
       | HRecord _ fs => flat_map (fun f => visit (snd f)) fs
       | HField _ r _ => visit r
       | HUpdate _ r fs => (visit r ++ flat_map (fun f => visit (snd f)) fs)%list
       | HThunk _ a => visit a
       | HBoolean _ | HBuiltIn _ | HNone | HNumber _ | HString _ | HVariable _ => []
       end.

(** expression_visitor.rs 3-18 [visit] *)
Definition visit_module (m : hmodule) : list hexpr :=
  flat_map (fun d => visit (l_body (snd d))) (h_defs m).

(** ** Unused errors (unused_error_validator.rs 8-33 [validate]) *)
Definition validate_unused (n : nat) (E : tenv) (e : hexpr) : res unit :=
  match e with
  | HLet x t _ _ =>
      bind (annotated t) (fun t =>
      match x with
      | Some _ => Ok tt
      | None =>
          bind (canonicalize n E t) (fun c =>
          if is_any c then Ok tt
          else bind (subsumes n E TError t) (fun b => if b then reject "UnusedErrorValue" else Ok tt))
      end)
  | _ => Ok tt
  end.

Definition validate_unused_module (n : nat) (E : tenv) (m : hmodule) : res unit :=
  each (validate_unused n E) (visit_module m).

(** ** Private record fields (record_field_validator.rs 8-70 [validate]).
    [open] are the names of the records defined in the module or exported with
    their fields (86-92 [collect_open_records]).  The error position of a
    construction or update is that of its first field: without fields the
    indexing panics. *)
Definition private_fields {A} (fields : list A) : res unit :=
  match fields with [] => Panic | _ => reject "RecordFieldPrivate" end.

Definition validate_record (n : nat) (E : tenv) (open : list string) (e : hexpr) : res unit :=
  match e with
  | HRecord t fs =>
      bind (canonical_record n E t) (fun r => if mem r open then Ok tt else private_fields fs)
  | HField t _ _ =>
      bind (annotated t) (fun t =>
      bind (canonical_record n E t) (fun r => if mem r open then Ok tt else reject "RecordFieldPrivate"))
  | HUpdate t _ fs =>
      bind (canonical_record n E t) (fun r => if mem r open then Ok tt else private_fields fs)
  | _ => Ok tt
  end.

Definition validate_record_module (n : nat) (E : tenv) (open : list string) (m : hmodule) : res unit :=
  each (validate_record n E open) (visit_module m).

(** ** analysis.rs 50-61 [analyze] after the checks on type definitions
    (44-48, modelled in [HirTypeModule]) *)
Definition analyze (n : nat) (E : tenv) (R : renv) (open : list string) (m : hmodule) : res hmodule :=
  bind (infer_module n E R m) (fun m1 =>
  bind (check_module n E R m1) (fun _ =>
  bind (validate_try_module n E m1) (fun _ =>
  bind (validate_record_module n E open m1) (fun _ =>
  bind (validate_unused_module n E m1) (fun _ =>
  bind (coerce_module n E R m1) (fun m2 =>
  bind (check_module n E R m2) (fun _ => Ok m2))))))).
