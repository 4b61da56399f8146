(** What the compiled code of one expression needs from the module around it,
    and the programs for which the compiler's search for those types finds
    everything. *)
From Coq Require Import String Ascii List ZArith Bool.
From Verif Require Import Base Mir HirType HirTypeSpec HirTypeModule Hir HirSpec HirMir HirProgram LowerTypeSpec LowerProgramSpec.
Import ListNotations.
Local Open Scope string_scope.

(** [u] is [t] or a type written in it, possibly behind aliases; the fields of
    records are not in it. *)
Inductive inside (E : tenv) : ty -> ty -> Prop :=
| inside_self : forall t, inside E t t
| inside_argument : forall a r t u, In t a -> inside E t u -> inside E (TFunction a r) u
| inside_result : forall a r u, inside E r u -> inside E (TFunction a r) u
| inside_list : forall e u, inside E e u -> inside E (TList e) u
| inside_key : forall k v u, inside E k u -> inside E (TMap k v) u
| inside_value : forall k v u, inside E v u -> inside E (TMap k v) u
| inside_left : forall l r u, inside E l u -> inside E (TUnion l r) u
| inside_right : forall l r u, inside E r u -> inside E (TUnion l r) u
| inside_alias : forall x t u, lookup E x = Some t -> inside E t u -> inside E (TReference x) u.

(** Values of the type can be compared. *)
Definition comparable_type (E : tenv) (R : renv) (t : ty) : Prop := forall u, part E R t u -> ~ incomparable u.

Section Asks.
  Variable E : tenv.
  Variable C : config.
  Variable M : mmodule.

  Definition has_function (x : string) : Prop := In x (map fst (m_declared M) ++ map f_name (m_defs M))%list.
  Definition has_record (r : string) : Prop := In r (map fst (m_types M)).

  (** The record that carries the values of a type in variants *)
  Inductive carrier : ty -> string -> Prop :=
  | carrier_function : forall a r i, identifier E C (TFunction a r) i -> carrier (TFunction a r) ("hir:function:" ++ i)
  | carrier_list : forall e i, identifier E C e i -> carrier (TList e) ("hir:list:" ++ i)
  | carrier_map : forall k v i j, identifier E C k i -> identifier E C v j -> carrier (TMap k v) ("hir:map:" ++ i ++ ":" ++ j).

  (** [c] is the canonical form of [t]. *)
  Definition stands (t c : ty) : Prop := exists n, canonicalize n E t = Ok c.

  Definition carried (t : ty) : Prop := forall c r, stands t c -> carrier c r -> has_record r.
  Definition contextual (t : ty) : Prop := forall i, identifier E C t i -> has_function ("hir:map:context:" ++ i).

  (** The module compares the values of type [t]. *)
  Definition compares (t : ty) : Prop := forall c u, stands t c -> In u (members_canonical c) ->
    carried u /\
    match u with
    | TList e => forall i, identifier E C e i -> has_function ("hir:equal:" ++ i)
    | TMap _ _ => contextual u
    | _ => True
    end.

  (** Iteratees whose type is not written as a list type, but as an alias *)
  Definition listed (t : option ty) : bool := match t with Some (TList _) => true | _ => false end.
  Definition elements_carried (t : option ty) : Prop := forall t' e, t = Some t' -> stands t' (TList e) -> carried e.

  (** The conversions in the code of an expression that variant_type_collection.rs
      does not collect (finding 29) *)
  Definition hidden (e : hexpr) : Prop :=
    match e with
    | HCall (Some ft) (HBuiltIn b) _ => forall ts r, stands ft (TFunction ts r) ->
        match b with
        | BDelete => forall m k l, ts = m :: k :: l -> carried k
        | BKeys => forall k v l, ts = TMap k v :: l -> carried k
        | BValues => forall k v l, ts = TMap k v :: l -> carried v
        | BRace => forall t, r = TList t -> carried (TList t)
        | BSpawn => forall a t l, ts = TFunction a t :: l -> carried t
        | _ => True
        end
    | HComprehension _ _ bs => forall b it, In b bs -> In it (b_iteratees b) -> listed (fst it) = false -> elements_carried (fst it)
    | _ => True
    end.

  (** All that the code of an expression needs, without that of its parts and
      without names that are always there *)
  Definition asks (e : hexpr) : Prop :=
    hidden e /\
    match e with
    | HIfType _ _ bs els => (forall t, In t (map fst bs) -> carried t) /\ (forall t b, els = Some (Some t, b) -> carried t)
    | HCoerce from _ _ => carried from
    | HTry (Some t) _ | HList t _ | HIfList (Some t) _ _ _ _ _ => carried t
    | HIfMap (Some k) (Some v) _ _ _ _ _ | HMap k v _ => carried k /\ carried v /\ contextual (TMap k v)
    | HComprehension t _ bs => carried t /\ forall b it, In b bs -> In it (b_iteratees b) -> elements_carried (fst it)
    | HBinary (BinEquality (Some t) _) _ _ => compares t
    | HCall (Some ft) (HBuiltIn BDelete) _ => forall ts k v, stands ft (TFunction ts (TMap k v)) -> contextual (TMap k v)
    | HCall (Some ft) (HBuiltIn BRace) _ => carried (TList TAny)
    | _ => True
    end.
End Asks.

(** [x] occurs in the condition of a list comprehension in [e]. *)
Definition in_condition (e x : hexpr) : Prop := exists t el bs b c,
  occurs (HComprehension t el bs) e /\ In b bs /\ b_condition b = Some c /\ occurs x c.

(** The analyzed program [p] stays away from the findings about the search. *)
Record searchable (C : config) (p : program) (M : mmodule) : Prop := Searchable {
  (** the prelude is there *)
  sb_prelude : forall x, In x (map fst (prelude_functions C)) -> In x (global_names p);
  (** finding 38: the keys of maps can be compared *)
  sb_keys : forall t k v, type_in p t -> inside (program_env p) t (TMap k v) -> comparable_type (program_env p) (program_records p) k;
  sb_map_keys : forall x l e, In (x, l) (p_defs p) -> occurs e (l_body l) ->
    match e with
    | HIfMap (Some k) _ _ _ _ _ _ | HMap k _ _ => comparable_type (program_env p) (program_records p) k
    | _ => True
    end;
  (** finding 39: so can the operands of [==] and [!=] *)
  sb_operands : forall x l t o a b, In (x, l) (p_defs p) -> occurs (HBinary (BinEquality (Some t) o) a b) (l_body l) ->
    comparable_type (program_env p) (program_records p) t;
  (** finding 29: conversions that are not collected have their records anyway,
      and conditions of list comprehensions have all they need. *)
  sb_hidden : forall x l e, In (x, l) (p_defs p) -> occurs e (l_body l) -> hidden (program_env p) C M e;
  sb_conditions : forall x l e, In (x, l) (p_defs p) -> in_condition (l_body l) e -> asks (program_env p) C M e
}.
