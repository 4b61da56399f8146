(** High-level intermediate representation (HIR) expressions and the type
    extractor.
    Source: /repo/lib/hir/src/ir/*.rs, /repo/lib/hir/src/analysis/type_extractor.rs
    and module_environment.rs.

    Source positions are dropped.  An [Err(AnalysisError)] is [reject] with the
    name of the error. *)
From Coq Require Import String List ZArith Bool.
From Verif Require Import Base HirType.
Import ListNotations.
Local Open Scope string_scope.

Definition reject {A} (error : string) : res A := NotFound error.

(** lib/hir/src/ir/built_in_function.rs [BuiltInFunctionName] *)
Inductive builtin : Type :=
| BDebug | BDelete | BError | BKeys | BRace | BReflectDebug | BReflectEqual
| BSize | BSource | BSpawn | BValues.

(** lib/hir/src/ir/arithmetic_operation.rs, boolean_operation.rs,
    equality_operation.rs, order_operation.rs: the operators *)
Inductive harith : Type := HSubtract | HMultiply | HDivide.
Inductive hbool : Type := HAnd | HOr.
Inductive hequality : Type := HEqual | HNotEqual.
Inductive horder : Type := HLess | HLessEqual | HGreater | HGreaterEqual.

(** lib/hir/src/ir/operation.rs: the operations with two operands *)
Inductive binop : Type :=
| BinAddition (type : option ty)
| BinArithmetic (o : harith)
| BinBoolean (o : hbool)
| BinEquality (type : option ty) (o : hequality)
| BinOrder (o : horder).

(** lib/hir/src/ir/list_element.rs *)
Inductive element_ (A : Type) : Type :=
| Single (a : A)
| Multiple (a : A).
Arguments Single {A}.
Arguments Multiple {A}.

(** lib/hir/src/ir/map_element.rs and map_entry.rs *)
Inductive map_element_ (A : Type) : Type :=
| Entry (key value : A)
| Spread (map : A).
Arguments Entry {A}.
Arguments Spread {A}.

(** lib/hir/src/ir/list_comprehension_branch.rs and
    list_comprehension_iteratee.rs *)
Record comp_branch_ (A : Type) : Type := CompBranch {
  b_names : list string;
  b_iteratees : list (option ty * A);
  b_condition : option A
}.
Arguments CompBranch {A}.
Arguments b_names {A}.
Arguments b_iteratees {A}.
Arguments b_condition {A}.

(** lib/hir/src/ir/expression.rs 10-34 and the payload structs *)
Inductive hexpr : Type :=
| HBoolean (b : bool)
| HBuiltIn (f : builtin)
| HCall (function_type : option ty) (function : hexpr) (arguments : list hexpr)
| HIf (c t e : hexpr)
| HIfList (type : option ty) (list : hexpr) (first rest : string) (t e : hexpr)
| HIfMap (key_type value_type : option ty) (name : string) (map key t e : hexpr)
| HIfType (name : string) (argument : hexpr) (branches : list (ty * hexpr))
    (else_ : option (option ty * hexpr))
| HLambda (arguments : list (string * ty)) (result : ty) (body : hexpr)
| HLet (name : option string) (type : option ty) (bound e : hexpr)
| HList (type : ty) (elements : list (element_ hexpr))
| HComprehension (type : ty) (element : hexpr) (branches : list (comp_branch_ hexpr))
| HMap (key_type value_type : ty) (elements : list (map_element_ hexpr))
| HNone
| HNumber (n : Z)
| HBinary (o : binop) (lhs rhs : hexpr)
| HNot (e : hexpr)
| HTry (type : option ty) (e : hexpr)
| HRecord (type : ty) (fields : list (string * hexpr))
| HField (type : option ty) (record : hexpr) (field : string)
| HUpdate (type : ty) (record : hexpr) (fields : list (string * hexpr))
| HString (s : string)
| HThunk (type : option ty) (e : hexpr)
| HCoerce (from to : ty) (e : hexpr)
| HVariable (x : string).

Definition element := element_ hexpr.
Definition map_element := map_element_ hexpr.
Definition comp_branch := comp_branch_ hexpr.

(** lib/hir/src/ir/lambda.rs *)
Record lambda : Type := Lambda {
  l_arguments : list (string * ty);
  l_result : ty;
  l_body : hexpr
}.

(** lib/hir/src/ir/module.rs 5-14.  The type definitions and aliases are in the
    environments [E] and [R] of [HirType]; [h_declared] are the function
    declarations followed by the foreign declarations.  Names other than the
    first one of a definition, and export flags, are dropped. *)
Record hmodule : Type := HModule {
  h_declared : list (string * ty);
  h_defs : list (string * lambda)
}.

(** [plist::FlailMap<String, Type>]: the latest insertion is at the front. *)
Definition venv := list (string * ty).

(** [option.ok_or_else(|| AnalysisError::TypeNotInferred(..))] *)
Definition annotated (t : option ty) : res ty :=
  match t with Some t => Ok t | None => reject "TypeNotInferred" end.

(** type_canonicalizer.rs 44-70 [canonicalize_function], [canonicalize_list],
    [canonicalize_map], [canonicalize_record], each followed by the callers'
    [ok_or_else(|| AnalysisError::..Expected(..))] *)
Definition canonical_function (n : nat) (E : tenv) (t : ty) : res (list ty * ty) :=
  bind (canonicalize n E t) (fun c =>
  match c with TFunction a r => Ok (a, r) | _ => reject "FunctionExpected" end).

Definition canonical_list (n : nat) (E : tenv) (t : ty) : res ty :=
  bind (canonicalize n E t) (fun c =>
  match c with TList e => Ok e | _ => reject "ListExpected" end).

Definition canonical_map (n : nat) (E : tenv) (t : ty) : res (ty * ty) :=
  bind (canonicalize n E t) (fun c =>
  match c with TMap k v => Ok (k, v) | _ => reject "MapExpected" end).

Definition canonical_record (n : nat) (E : tenv) (t : ty) : res string :=
  bind (canonicalize n E t) (fun c =>
  match c with TRecord name _ => Ok name | _ => reject "RecordExpected" end).

(** record_field_resolver.rs 6-17 [resolve] *)
Definition record_fields (n : nat) (E : tenv) (R : renv) (t : ty) : res (list (string * ty)) :=
  bind (canonical_record n E t) (resolve_record R).

(** [field_types.iter().find(|field| field.name() == name).ok_or_else(..)] *)
Definition field_type (fields : list (string * ty)) (name : string) : res ty :=
  match lookup fields name with Some t => Ok t | None => reject "UnknownRecordField" end.

(** The variables of an if-list (type_extractor.rs 52-63 and the same code in
    the other passes). *)
Definition list_env (first rest : string) (t : ty) (G : venv) : venv :=
  (rest, TList t) :: (first, TFunction [] t) :: G.

(** [variables.insert_iter(let_.name().map(|name| (name, type)))] *)
Definition let_env (name : option string) (t : ty) (G : venv) : venv :=
  match name with Some x => (x, t) :: G | None => G end.

(** [variables.insert_iter(..)] of arguments: the last one wins. *)
Definition args_env (args : list (string * ty)) (G : venv) : venv := (rev args ++ G)%list.

(** type_extractor.rs 8-205 [extract_from_expression] *)
Fixpoint extract (n : nat) (E : tenv) (R : renv) (G : venv) (e : hexpr) {struct e} : res ty :=
  match e with
  | HBoolean _ => Ok TBoolean
  | HBuiltIn _ => reject "BuiltInFunctionNotCalled"
  | HCall ft _ _ => bind (annotated ft) (fun t => bind (canonical_function n E t) (fun ar => Ok (snd ar)))
  | HIf _ a b => bind (extract n E R G a) (fun s => bind (extract n E R G b) (fun t => Ok (TUnion s t)))
  | HIfList _ l first rest a b =>
      bind (extract n E R G l) (fun lt =>
      bind (canonical_list n E lt) (fun et =>
      bind (extract n E R (list_env first rest et G) a) (fun s =>
      bind (extract n E R G b) (fun t => Ok (TUnion s t)))))
  | HIfMap _ _ x m _ a b =>
      bind (extract n E R G m) (fun mt =>
      bind (canonical_map n E mt) (fun kv =>
      bind (extract n E R ((x, snd kv) :: G) a) (fun s =>
      bind (extract n E R G b) (fun t => Ok (TUnion s t)))))
  | HIfType x _ branches els =>
      bind (mapM (fun b => extract n E R ((x, fst b) :: G) (snd b)) branches) (fun ts =>
      bind (match els with
            | None => Ok []
            | Some (t, b) => bind (annotated t) (fun t => rmap (fun u => [u]) (extract n E R ((x, t) :: G) b))
            end) (fun us =>
      match create_union (ts ++ us) with Some u => Ok u | None => Panic end))
  | HLambda args r _ => Ok (TFunction (map snd args) r)
  | HLet x t _ b =>
      match x with
      | None => extract n E R G b
      | Some x => bind (annotated t) (fun t => extract n E R ((x, t) :: G) b)
      end
  | HList t _ => Ok (TList t)
  | HComprehension t _ _ => Ok (TList t)
  | HMap k v _ => Ok (TMap k v)
  | HNone => Ok TNone
  | HNumber _ => Ok TNumber
  | HBinary o _ _ =>
      match o with
      | BinAddition t => annotated t
      | BinArithmetic _ => Ok TNumber
      | BinBoolean _ | BinEquality _ _ | BinOrder _ => Ok TBoolean
      end
  | HNot _ => Ok TBoolean
  | HTry t _ => annotated t
  | HRecord t _ => Ok t
  | HField t _ name =>
      bind (annotated t) (fun t => bind (record_fields n E R t) (fun fs => field_type fs name))
  | HUpdate t _ _ => Ok t
  | HString _ => Ok TString
  | HThunk t _ => bind (annotated t) (fun t => Ok (TFunction [] t))
  | HCoerce _ t _ => Ok t
  | HVariable x => match lookup G x with Some t => Ok t | None => reject "VariableNotFound" end
  end.

(** type_extractor.rs 207-217 [extract_from_lambda] *)
Definition lambda_type (l : lambda) : ty := TFunction (map snd (l_arguments l)) (l_result l).

(** module_environment.rs 6-29 [create] *)
Definition module_env (m : hmodule) : venv :=
  rev (h_declared m ++ map (fun d => (fst d, lambda_type (snd d))) (h_defs m))%list.
