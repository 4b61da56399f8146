(** Model of HIR types and of the analyses on them.
    Source: /repo/lib/hir/src/types/*.rs and /repo/lib/hir/src/analysis/*.rs.

    Source positions are dropped: [Position]'s [Eq] and [Ord] treat all
    positions as equal (lib/position/src/position.rs:62-84). *)
From Coq Require Import String List Ascii Bool.
From Verif Require Import Base.
Import ListNotations.
Local Open Scope string_scope.

(** [enum Type], lib/hir/src/types.rs; the payload structs are in
    lib/hir/src/types/{function,list,map,record,reference,union}.rs. *)
Inductive ty : Type :=
| TAny
| TBoolean
| TError
| TFunction (arguments : list ty) (result : ty)
| TList (element : ty)
| TMap (key value : ty)
| TNone
| TNumber
| TRecord (name original_name : string)
| TReference (name : string)
| TString
| TUnion (lhs rhs : ty).

(** ** Derived [Ord] (lib/hir/src/types.rs: [#[derive(PartialOrd, Ord)]]).
    Constructors are ordered as declared, payloads field by field,
    [Vec]s lexicographically. *)
Definition ty_index (t : ty) : nat :=
  match t with
  | TAny => 0 | TBoolean => 1 | TError => 2 | TFunction _ _ => 3 | TList _ => 4
  | TMap _ _ => 5 | TNone => 6 | TNumber => 7 | TRecord _ _ => 8 | TReference _ => 9
  | TString => 10 | TUnion _ _ => 11
  end.

Definition lex (c : comparison) (d : comparison) : comparison :=
  match c with Eq => d | _ => c end.

Section CompareList.
  Variable A : Type.
  Variable cmp : A -> A -> comparison.
  Fixpoint compare_list (l l' : list A) : comparison :=
    match l, l' with
    | [], [] => Eq
    | [], _ :: _ => Lt
    | _ :: _, [] => Gt
    | x :: xs, y :: ys => lex (cmp x y) (compare_list xs ys)
    end.
End CompareList.
Arguments compare_list {A} cmp l l'.

Fixpoint ty_compare (s t : ty) {struct s} : comparison :=
  match s, t with
  | TFunction a r, TFunction a' r' => lex (compare_list ty_compare a a') (ty_compare r r')
  | TList e, TList e' => ty_compare e e'
  | TMap k v, TMap k' v' => lex (ty_compare k k') (ty_compare v v')
  | TRecord n o, TRecord n' o' => lex (String.compare n n') (String.compare o o')
  | TReference n, TReference n' => String.compare n n'
  | TUnion l r, TUnion l' r' => lex (ty_compare l l') (ty_compare r r')
  | _, _ => Nat.compare (ty_index s) (ty_index t)
  end.

(** ** [BTreeSet<Type>]: a strictly increasing list. *)
Fixpoint set_insert (t : ty) (s : list ty) : list ty :=
  match s with
  | [] => [t]
  | u :: us =>
      match ty_compare t u with
      | Lt => t :: s
      | Eq => s
      | Gt => u :: set_insert t us
      end
  end.

Fixpoint set_mem (t : ty) (s : list ty) : bool :=
  match s with
  | [] => false
  | u :: us => match ty_compare t u with Eq => true | _ => set_mem t us end
  end.

(** The type environment [types: FnvHashMap<String, Type>]. *)
Definition tenv := list (string * ty).

(** type_resolver.rs:5-14 [resolve] *)
Definition resolve (E : tenv) (name : string) : res ty :=
  match lookup E name with Some t => Ok t | None => NotFound name end.

Definition is_any (t : ty) : bool := match t with TAny => true | _ => false end.

(** type_canonicalizer.rs:78-87, the closure given to [reduce] *)
Definition join (one other : ty) : ty :=
  if is_any one then one else if is_any other then other else TUnion one other.

(** type_canonicalizer.rs:76-87: [into_iter().reduce(..).unwrap()] *)
Definition reduce_union (s : list ty) : res ty :=
  match s with
  | [] => Panic
  | t :: ts => Ok (fold_left join ts t)
  end.

(** type_canonicalizer.rs:7-42 [canonicalize], 72-88 [canonicalize_union] and
    101-133 [collect_types_in_place].  Fuel bounds the recursion, which goes
    through aliases and need not be structural. *)
Fixpoint canonicalize (n : nat) (E : tenv) (t : ty) {struct n} : res ty :=
  match n with
  | O => OutOfFuel
  | S n =>
      match t with
      | TFunction a r =>
          bind (mapM (canonicalize n E) a) (fun a' =>
          bind (canonicalize n E r) (fun r' => Ok (TFunction a' r')))
      | TList e => bind (canonicalize n E e) (fun e' => Ok (TList e'))
      | TMap k v =>
          bind (canonicalize n E k) (fun k' =>
          bind (canonicalize n E v) (fun v' => Ok (TMap k' v')))
      | TUnion _ _ => bind (collect_types n E t []) reduce_union
      | TAny | TBoolean | TError | TRecord _ _ | TNone | TNumber | TString => Ok t
      | TReference x => bind (resolve E x) (canonicalize n E)
      end
  end
with collect_types (n : nat) (E : tenv) (t : ty) (acc : list ty) {struct n} : res (list ty) :=
  match n with
  | O => OutOfFuel
  | S n =>
      match t with
      | TUnion l r => bind (collect_types n E l acc) (collect_types n E r)
      | TAny | TBoolean | TError | TFunction _ _ | TRecord _ _ | TList _ | TMap _ _
      | TNone | TNumber | TString =>
          bind (canonicalize n E t) (fun c => Ok (set_insert c acc))
      | TReference x => bind (resolve E x) (fun t' => collect_types n E t' acc)
      end
  end.


(** Rust's short-circuiting [a? && b?] and [a? || b?]. *)
Definition andr (a : res bool) (b : res bool) : res bool :=
  bind a (fun x => if x then b else Ok false).
Definition orr (a : res bool) (b : res bool) : res bool :=
  bind a (fun x => if x then Ok true else b).

Section AllList2.
  Variable A : Type.
  Variable f : A -> A -> res bool.
  (** [zip(..).all(..)], stopping at the shorter list *)
  Fixpoint zip_all (l l' : list A) : res bool :=
    match l, l' with
    | x :: xs, y :: ys => andr (f x y) (zip_all xs ys)
    | _, _ => Ok true
    end.
End AllList2.
Arguments zip_all {A} f l l'.

(** type_equality_checker.rs:16-44 [check_canonical] *)
Fixpoint equal_canonical (s t : ty) {struct s} : res bool :=
  match s, t with
  | TFunction a r, TFunction a' r' =>
      andr (Ok (Nat.eqb (List.length a) (List.length a')))
        (andr (zip_all equal_canonical a a') (equal_canonical r r'))
  | TList e, TList e' => equal_canonical e e'
  | TMap k v, TMap k' v' => andr (equal_canonical k k') (equal_canonical v v')
  | TUnion l r, TUnion l' r' => andr (equal_canonical l l') (equal_canonical r r')
  | TRecord n _, TRecord n' _ => Ok (String.eqb n n')
  | TAny, TAny | TBoolean, TBoolean | TError, TError | TNone, TNone
  | TNumber, TNumber | TString, TString => Ok true
  | TReference _, _ | _, TReference _ => Panic
  | _, _ => Ok false
  end.

(** type_equality_checker.rs:5-14 [check] *)
Definition equal_types (n : nat) (E : tenv) (one other : ty) : res bool :=
  bind (canonicalize n E one) (fun c =>
  bind (canonicalize n E other) (fun d => equal_canonical c d)).

(** type_subsumption_checker.rs:25,29,30: the case where [lower] is not a union.
    The two recursions of [check_canonical] are written as one function on
    [upper] (here) and one on [lower] (below). *)
Fixpoint subsumes_member (n : nat) (E : tenv) (lower upper : ty) {struct upper} : res bool :=
  match upper with
  | TAny => Ok true
  | TUnion l r => orr (subsumes_member n E lower l) (subsumes_member n E lower r)
  | _ => equal_types n E lower upper
  end.

(** type_subsumption_checker.rs:17-32 [check_canonical] *)
Fixpoint subsumes_canonical (n : nat) (E : tenv) (lower upper : ty) {struct lower} : res bool :=
  match lower, upper with
  | _, TAny => Ok true
  | TUnion l r, TUnion _ _ =>
      andr (subsumes_canonical n E l upper) (subsumes_canonical n E r upper)
  | _, _ => subsumes_member n E lower upper
  end.

(** type_subsumption_checker.rs:5-15 [check] *)
Definition subsumes (n : nat) (E : tenv) (lower upper : ty) : res bool :=
  bind (canonicalize n E lower) (fun c =>
  bind (canonicalize n E upper) (fun d => subsumes_canonical n E c d)).

(** union_type_member_calculator.rs:18-26 [calculate_canonical], collected into
    a [BTreeSet] (lines 11-15).  The intermediate hash set is unordered, and
    only its elements matter. *)
Fixpoint members_canonical (t : ty) : list ty :=
  match t with
  | TUnion l r => (members_canonical l ++ members_canonical r)%list
  | _ => [t]
  end.

(** union_type_member_calculator.rs:7-16 [calculate] *)
Definition union_members (n : nat) (E : tenv) (t : ty) : res (list ty) :=
  bind (canonicalize n E t) (fun c =>
  Ok (fold_right set_insert [] (members_canonical c))).

(** union_type_creator.rs:4-9 [create] *)
Definition create_union (ts : list ty) : option ty :=
  match ts with
  | [] => None
  | t :: ts => Some (fold_left TUnion ts t)
  end.

(** type_difference_calculator.rs:5-26 [calculate] *)
Definition type_difference (n : nat) (E : tenv) (one other : ty) : res (option ty) :=
  bind (canonicalize n E one) (fun one =>
  bind (canonicalize n E other) (fun other =>
  if is_any other then Ok None
  else if is_any one then Ok (Some one)
  else
    bind (union_members n E one) (fun ms =>
    bind (union_members n E other) (fun ms' =>
    Ok (create_union (filter (fun m => negb (set_mem m ms')) ms)))))).

(** type_id_calculator.rs:26-58 [calculate_string]; [Panic] for a reference *)
Definition join_strings (sep : string) (l : list string) : string := String.concat sep l.

Fixpoint id_string (t : ty) : res string :=
  match t with
  | TAny => Ok "any"
  | TBoolean => Ok "boolean"
  | TError => Ok "error"
  | TFunction a r =>
      bind (mapM id_string a) (fun a' =>
      bind (id_string r) (fun r' =>
      Ok ("(\(" ++ join_strings "," a' ++ ")" ++ r' ++ ")")))
  | TList e => bind (id_string e) (fun e' => Ok ("[" ++ e' ++ "]"))
  | TMap k v =>
      bind (id_string k) (fun k' =>
      bind (id_string v) (fun v' => Ok ("{" ++ k' ++ ":" ++ v' ++ "}")))
  | TNone => Ok "none"
  | TNumber => Ok "number"
  | TRecord n _ => Ok ("record(" ++ n ++ ")")
  | TString => Ok "string"
  | TUnion l r =>
      bind (id_string l) (fun l' =>
      bind (id_string r) (fun r' => Ok ("(" ++ l' ++ "|" ++ r' ++ ")")))
  | TReference _ => Panic
  end.

(** type_id_calculator.rs:17-24 [calculate_canonical_string].  The hashing of
    this string (lines 9-15) is not modelled. *)
Definition type_id_string (n : nat) (E : tenv) (t : ty) : res string :=
  bind (canonicalize n E t) id_string.

(** The record environment [records: FnvHashMap<String, Vec<RecordField>>]. *)
Definition renv := list (string * list (string * ty)).

(** record_field_resolver.rs:19-26 [resolve_record] *)
Definition resolve_record (R : renv) (name : string) : res (list (string * ty)) :=
  match lookup R name with Some f => Ok f | None => NotFound name end.

(** [iter().map(f).collect::<Result<Vec<_>, _>>()?.into_iter().all(id)]: all
    elements are computed before they are combined. *)
Definition all_of (f : ty -> res bool) (l : list ty) : res bool :=
  bind (mapM f l) (fun bs => Ok (forallb (fun b => b) bs)).
Definition any_of (f : ty -> res bool) (l : list ty) : res bool :=
  bind (mapM f l) (fun bs => Ok (existsb (fun b => b) bs)).

(** type_comparability_checker.rs:13-62 [check_with_cache] *)
Fixpoint comparable_cached (n : nat) (E : tenv) (R : renv) (cache : list string) (t : ty) : res bool :=
  match n with
  | O => OutOfFuel
  | S n =>
      match t with
      | TAny | TError | TFunction _ _ => Ok false
      | TBoolean | TNone | TNumber | TString => Ok true
      | TList e => comparable_cached n E R cache e
      | TMap k v => andr (comparable_cached n E R cache k) (comparable_cached n E R cache v)
      | TRecord r _ =>
          if mem r cache then Ok true
          else
            bind (resolve_record R r) (fun fields =>
            all_of (comparable_cached n E R (r :: cache)) (map snd fields))
      | TReference x => bind (resolve E x) (comparable_cached n E R cache)
      | TUnion l r => andr (comparable_cached n E R cache l) (comparable_cached n E R cache r)
      end
  end.

(** type_comparability_checker.rs:5-11 [check] *)
Definition comparable (n : nat) (E : tenv) (R : renv) (t : ty) : res bool :=
  comparable_cached n E R [] t.

(** impossible_type_validator.rs:32-73 [is_type_recursive] *)
Fixpoint type_recursive (n : nat) (E : tenv) (R : renv) (name : string) (cache : list string) (t : ty)
  : res bool :=
  match n with
  | O => OutOfFuel
  | S n =>
      match t with
      | TReference x => bind (resolve E x) (type_recursive n E R name cache)
      | TRecord r _ =>
          if mem r cache then Ok false
          else if String.eqb name r then Ok true
          else
            bind (resolve_record R r) (fun fields =>
            any_of (type_recursive n E R name (r :: cache)) (map snd fields))
      | TUnion l r => all_of (type_recursive n E R name cache) [l; r]
      | _ => Ok false
      end
  end.

(** impossible_type_validator.rs:14-30 [validate_type_definition]: [Ok true]
    means the definition is accepted, [Ok false] is [ImpossibleRecord]. *)
Definition possible_record (n : nat) (E : tenv) (R : renv) (name : string) (fields : list (string * ty))
  : res bool :=
  bind (any_of (type_recursive n E R name []) (map snd fields)) (fun b => Ok (negb b)).

(** recursive_type_alias_validator.rs:28-54 [collect_references]; the set is
    kept as a list *)
Fixpoint references (t : ty) : list string :=
  match t with
  | TFunction a r => (flat_map references a ++ references r)%list
  | TList e => references e
  | TMap k v => (references k ++ references v)%list
  | TUnion l r => (references l ++ references r)%list
  | TReference x => [x]
  | TAny | TBoolean | TError | TRecord _ _ | TNone | TNumber | TString => []
  end.
