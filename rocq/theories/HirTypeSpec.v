(** Specification of HIR types, independent of the analyses in [HirType].

    - [teq E s t]: the equational theory of Pen types.  A union is a set of
      alternatives (commutative, associative, idempotent), [any] absorbs every
      alternative, an alias equals what it stands for, and function, list and
      map types are compared component by component.
    - [sub E s t]: the subtyping that Pen promises: [any] is the top, a union is
      the least upper bound of its members, nothing else.
    - [alt E t a]: [a] is one of the alternatives written in [t]. *)
From Coq Require Import String Ascii List Relations Bool.
From Verif Require Import Base HirType.
Import ListNotations.

(** All aliases met when expanding [t] are defined. *)
Definition defined (E : tenv) (t : ty) : Prop :=
  forall x, In x (references t) -> lookup E x <> None.

Definition closed_env (E : tenv) : Prop :=
  forall x t, lookup E x = Some t -> defined E t.

(** Alias [x] mentions alias [y]. *)
Definition alias_dep (E : tenv) (x y : string) : Prop :=
  exists t, lookup E x = Some t /\ In y (references t).

(** No alias reaches itself through alias references. *)
Definition acyclic (E : tenv) : Prop :=
  forall x, ~ clos_trans string (alias_dep E) x x.

Inductive teq (E : tenv) : ty -> ty -> Prop :=
| teq_refl : forall t, teq E t t
| teq_sym : forall s t, teq E s t -> teq E t s
| teq_trans : forall s t u, teq E s t -> teq E t u -> teq E s u
| teq_alias : forall x t, lookup E x = Some t -> teq E (TReference x) t
| teq_function : forall a a' r r',
    Forall2 (teq E) a a' -> teq E r r' -> teq E (TFunction a r) (TFunction a' r')
| teq_list : forall e e', teq E e e' -> teq E (TList e) (TList e')
| teq_map : forall k k' v v', teq E k k' -> teq E v v' -> teq E (TMap k v) (TMap k' v')
| teq_union : forall l l' r r', teq E l l' -> teq E r r' -> teq E (TUnion l r) (TUnion l' r')
| teq_comm : forall l r, teq E (TUnion l r) (TUnion r l)
| teq_assoc : forall l m r, teq E (TUnion (TUnion l m) r) (TUnion l (TUnion m r))
| teq_idem : forall t, teq E (TUnion t t) t
| teq_any : forall t, defined E t -> teq E (TUnion TAny t) TAny.

Inductive sub (E : tenv) : ty -> ty -> Prop :=
| sub_eq : forall s t, teq E s t -> sub E s t
| sub_trans : forall s t u, defined E t -> sub E s t -> sub E t u -> sub E s u
| sub_top : forall t, sub E t TAny
| sub_left : forall l r, sub E l (TUnion l r)
| sub_right : forall l r, sub E r (TUnion l r)
| sub_least : forall l r u, sub E l u -> sub E r u -> sub E (TUnion l r) u.

Inductive alt (E : tenv) : ty -> ty -> Prop :=
| alt_alias : forall x t a, lookup E x = Some t -> alt E t a -> alt E (TReference x) a
| alt_left : forall l r a, alt E l a -> alt E (TUnion l r) a
| alt_right : forall l r a, alt E r a -> alt E (TUnion l r) a
| alt_self : forall t,
    (forall x, t <> TReference x) -> (forall l r, t <> TUnion l r) -> alt E t t.

(** [a] is an alternative of [t], up to equality of types. *)
Definition has_alt (E : tenv) (t a : ty) : Prop := exists b, alt E t b /\ teq E b a.

(** A record's display name is a function of its name
    (one type definition per record name). *)
Inductive names_ok (f : string -> string) : ty -> Prop :=
| no_any : names_ok f TAny
| no_boolean : names_ok f TBoolean
| no_error : names_ok f TError
| no_function : forall a r, Forall (names_ok f) a -> names_ok f r -> names_ok f (TFunction a r)
| no_list : forall e, names_ok f e -> names_ok f (TList e)
| no_map : forall k v, names_ok f k -> names_ok f v -> names_ok f (TMap k v)
| no_none : names_ok f TNone
| no_number : names_ok f TNumber
| no_record : forall n, names_ok f (TRecord n (f n))
| no_reference : forall x, names_ok f (TReference x)
| no_string : names_ok f TString
| no_union : forall l r, names_ok f l -> names_ok f r -> names_ok f (TUnion l r).

Definition names_env (f : string -> string) (E : tenv) : Prop :=
  forall x t, lookup E x = Some t -> names_ok f t.

(** The environment of a module that passed the existence and recursive alias
    checks, and a type that mentions only known aliases. *)
Record wf (f : string -> string) (E : tenv) : Prop := {
  wf_closed : closed_env E;
  wf_acyclic : acyclic E;
  wf_names : names_env f E
}.

Definition ok (f : string -> string) (E : tenv) (t : ty) : Prop := defined E t /\ names_ok f t.

(** No record in [t] has a name with a closing parenthesis. *)
Fixpoint has_char (c : ascii) (s : string) : bool :=
  match s with EmptyString => false | String d s => Ascii.eqb c d || has_char c s end.

Fixpoint record_names (t : ty) : list string :=
  match t with
  | TFunction a r => flat_map record_names a ++ record_names r
  | TList e => record_names e
  | TMap k v => record_names k ++ record_names v
  | TUnion l r => record_names l ++ record_names r
  | TRecord n _ => [n]
  | _ => []
  end.

Definition plain_names (t : ty) : Prop := forall r, In r (record_names t) -> has_char ")" r = false.

(** Every record mentioned in [t] has a definition. *)
Definition named (R : renv) (t : ty) : Prop := forall r, In r (record_names t) -> lookup R r <> None.

(** ** Values of record types (for the impossible record check).
    Only the shape matters: a value of a record needs a value of each field,
    while lists may be empty, and functions and maps exist without values. *)
Inductive inhabited (E : tenv) (R : renv) : ty -> Prop :=
| inh_any : inhabited E R TAny
| inh_boolean : inhabited E R TBoolean
| inh_error : inhabited E R TError
| inh_function : forall a r, inhabited E R (TFunction a r)
| inh_list : forall e, inhabited E R (TList e)
| inh_map : forall k v, inhabited E R (TMap k v)
| inh_none : inhabited E R TNone
| inh_number : inhabited E R TNumber
| inh_string : inhabited E R TString
| inh_record : forall n o fields,
    lookup R n = Some fields -> Forall (fun f => inhabited E R (snd f)) fields ->
    inhabited E R (TRecord n o)
| inh_alias : forall x t, lookup E x = Some t -> inhabited E R t -> inhabited E R (TReference x)
| inh_left : forall l r, inhabited E R l -> inhabited E R (TUnion l r)
| inh_right : forall l r, inhabited E R r -> inhabited E R (TUnion l r).

(** ** Reachability of a component type (for comparability). *)
Inductive part (E : tenv) (R : renv) : ty -> ty -> Prop :=
| part_self : forall t, part E R t t
| part_list : forall e u, part E R e u -> part E R (TList e) u
| part_key : forall k v u, part E R k u -> part E R (TMap k v) u
| part_value : forall k v u, part E R v u -> part E R (TMap k v) u
| part_left : forall l r u, part E R l u -> part E R (TUnion l r) u
| part_right : forall l r u, part E R r u -> part E R (TUnion l r) u
| part_alias : forall x t u, lookup E x = Some t -> part E R t u -> part E R (TReference x) u
| part_field : forall n o fields f u,
    lookup R n = Some fields -> In f fields -> part E R (snd f) u -> part E R (TRecord n o) u.

Definition incomparable (t : ty) : Prop :=
  t = TAny \/ t = TError \/ exists a r, t = TFunction a r.
