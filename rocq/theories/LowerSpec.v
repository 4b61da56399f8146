(** Specification of run-time values of HIR types, independent of the lowering.

    A value of a union type or of [any] is a variant: a tag and a payload.  The
    tag of a boolean, a number, a string, none, an error or a record is its
    type.  A function, a list or a map is put in a record with one field, and
    that record's name, which ends with the hash of the type's identifier, is
    the tag. *)
From Coq Require Import String Ascii List ZArith Bool.
From Verif Require Import Base Mir HirType HirTypeSpec Hir HirSpec HirMir.
Import ListNotations.
Local Open Scope string_scope.

(** [i] is the hash of the identifier of [t]. *)
Definition identified (E : tenv) (C : config) (t : ty) (i : string) : Prop :=
  exists n s, type_id_string n E t = Ok s /\ i = c_hash C s.

(** [boxed a v b]: the value [v] of type [a], which is neither a union nor [any],
    is [b] as a value of a union or of [any]. *)
Inductive boxed (E : tenv) (C : config) : ty -> value -> value -> Prop :=
| boxed_boolean : forall v, boxed E C TBoolean v (VVariant Mir.TBoolean v)
| boxed_none : forall v, boxed E C TNone v (VVariant Mir.TNone v)
| boxed_number : forall v, boxed E C TNumber v (VVariant Mir.TNumber v)
| boxed_string : forall v, boxed E C TString v (VVariant TByteString v)
| boxed_error : forall v, boxed E C TError v (VVariant (Mir.TRecord "hir:error") v)
| boxed_record : forall r o v, boxed E C (TRecord r o) v (VVariant (Mir.TRecord r) v)
| boxed_function : forall a r i v, identified E C (TFunction a r) i ->
    boxed E C (TFunction a r) v
      (VVariant (Mir.TRecord ("hir:function:" ++ i)) (VRecord ("hir:function:" ++ i) [v]))
| boxed_list : forall e i v, identified E C e i ->
    boxed E C (TList e) v (VVariant (Mir.TRecord ("hir:list:" ++ i)) (VRecord ("hir:list:" ++ i) [v]))
| boxed_map : forall k w i j v, identified E C k i -> identified E C w j ->
    boxed E C (TMap k w) v
      (VVariant (Mir.TRecord ("hir:map:" ++ i ++ ":" ++ j)) (VRecord ("hir:map:" ++ i ++ ":" ++ j) [v])).

(** The module declares the record that carries the value, if it needs one. *)
Definition carried (m : mmodule) (a : ty) (b : value) : Prop :=
  forall r fs, b = VVariant (Mir.TRecord r) (VRecord r fs) ->
    match a with TFunction _ _ | TList _ | TMap _ _ => True | _ => False end ->
    exists t, lookup (m_types m) r = Some [t].

(** What code at type [t] sees of a value [v] of the alternative [a] of [t]: the
    value itself if [a] is the only alternative, and its box [b] otherwise. *)
Definition seen (E : tenv) (t a : ty) (v b u : value) : Prop :=
  teq E t a /\ u = v \/ ~ teq E t a /\ u = b.

(** ** Names and hashes *)

(** Record names without closing parentheses (they would make identifiers
    ambiguous) and different from the compiler's own. *)
Definition tidy_names (t : ty) : Prop :=
  forall r, In r (record_names t) -> has_char ")" r = false /\ prefix "hir:" r = false.

(** Hashes are written without colons (type_id_calculator.rs 14: hexadecimal). *)
Record tidy (f : string -> string) (E : tenv) (C : config) : Prop := Tidy {
  tidy_wf : wf f E;
  tidy_env : forall x t, lookup E x = Some t -> tidy_names t;
  tidy_hash : forall s, has_char ":" (c_hash C s) = false
}.

Definition tidy_type (f : string -> string) (E : tenv) (t : ty) : Prop := ok f E t /\ tidy_names t.

(** The types whose identifiers are in a tag *)
Definition components (a : ty) : list ty :=
  match a with
  | TFunction _ _ => [a]
  | TList e => [e]
  | TMap k v => [k; v]
  | _ => []
  end.

(** The identifiers of the types [T] have different hashes, unless they are the
    same. *)
Definition collision_free (E : tenv) (C : config) (T : ty -> Prop) : Prop :=
  forall s t n m x y, T s -> T t -> type_id_string n E s = Ok x -> type_id_string m E t = Ok y ->
    c_hash C x = c_hash C y -> x = y.

Definition tags_among (T : ty -> Prop) (a : ty) : Prop := forall s, In s (components a) -> T s.
Definition uses (E : tenv) (T : ty -> Prop) (t : ty) : Prop := forall a, has_alt E t a -> tags_among T a.

(** ** Type switches *)

(** All branches of an if-type, the else branch last *)
Definition all_branches (bs : list (ty * hexpr)) (els : option (option ty * hexpr)) : list (ty * hexpr) :=
  (bs ++ match els with Some (Some t, e) => [(t, e)] | _ => [] end)%list.

(** [b] is the first of the branches that takes the alternative [a]. *)
Definition first_taking (E : tenv) (a : ty) (bs : list (ty * hexpr)) (b : ty * hexpr) : Prop :=
  exists before after, bs = (before ++ b :: after)%list /\ takes E (fst b) a /\
    forall b', In b' before -> ~ takes E (fst b') a.

(** [rho'] is [rho] with [x] bound to [v]. *)
Definition binds (rho' rho : env) (x : string) (v : value) : Prop :=
  lookup rho' x = Some v /\ forall y, y <> x -> lookup rho' y = lookup rho y.
