(** The HIR type checker.  Source: /repo/lib/hir/src/analysis/type_checker.rs. *)
From Coq Require Import String List ZArith Bool.
From Verif Require Import Base HirType Hir.
Import ListNotations.
Local Open Scope string_scope.

(** type_checker.rs 868-883 [check_subsumption] *)
Definition check_sub (n : nat) (E : tenv) (lower upper : ty) : res unit :=
  bind (subsumes n E lower upper) (fun b => if b then Ok tt else reject "TypesNotMatched").

(** type_checker.rs 570-671 [check_built_in_call]; the argument expressions
    only give positions and a count, which equals that of the types here
    (84-86). *)
Definition check_builtin (n : nat) (E : tenv) (f : builtin) (args : list ty) (result : ty) : res unit :=
  match f with
  | BDelete =>
      match args with
      | [m; k] =>
          bind (check_sub n E m result) (fun _ =>
          bind (canonical_map n E m) (fun kv => check_sub n E k (fst kv)))
      | _ => reject "ArgumentCount"
      end
  | BRace =>
      match args with
      | [t] => bind (canonical_list n E t) (fun e => bind (canonical_list n E e) (fun _ => Ok tt))
      | _ => reject "ArgumentCount"
      end
  | BSize =>
      match args with
      | [t] => match t with TList _ | TMap _ _ => Ok tt | _ => reject "CollectionExpected" end
      | _ => reject "ArgumentCount"
      end
  | BSpawn =>
      match args with
      | [t] =>
          bind (canonical_function n E t) (fun ar =>
          match fst ar with [] => Ok tt | _ => reject "SpawnedFunctionArguments" end)
      | _ => reject "ArgumentCount"
      end
  | BDebug | BError | BKeys | BReflectDebug | BReflectEqual | BSource | BValues => Ok tt
  end.

(** type_checker.rs 195: [Type::is_variant] (types.rs) on a canonical type *)
Definition is_variant (t : ty) : bool := match t with TAny | TUnion _ _ => true | _ => false end.

Section Lists.
  Variable n : nat.
  Variable E : tenv.
  Variable check : venv -> hexpr -> res ty.

  (** 88-95: arguments against parameter types *)
  Fixpoint check_arguments (G : venv) (es : list hexpr) (ts : list ty) {struct es} : res unit :=
    match es, ts with
    | e :: es', t :: ts' =>
        bind (check G e) (fun s => bind (check_sub n E s t) (fun _ => check_arguments G es' ts'))
    | _, _ => Ok tt
    end.

  (** 202-220: the branches of an if-type *)
  Fixpoint check_branches (G : venv) (x : string) (u : ty) (bs : list (ty * hexpr)) : res unit :=
    match bs with
    | [] => Ok tt
    | (t, e) :: bs' =>
        bind (check_sub n E t u) (fun _ =>
        bind (check ((x, t) :: G) e) (fun _ =>
        bind (canonicalize n E t) (fun c =>
        if is_any c then reject "AnyTypeBranch" else check_branches G x u bs')))
    end.

  (** 280-308: list elements *)
  Fixpoint check_elements (G : venv) (t : ty) (es : list element) : res unit :=
    match es with
    | [] => Ok tt
    | Multiple e :: es' =>
        bind (check G e) (fun s =>
        bind (canonical_list n E s) (fun s' =>
        bind (check_sub n E s' t) (fun _ => check_elements G t es')))
    | Single e :: es' =>
        bind (check G e) (fun s => bind (check_sub n E s t) (fun _ => check_elements G t es'))
    end.

  (** 325-355: the lists of one branch of a comprehension; each name is in the
      scope of the lists after it *)
  Fixpoint check_iteratees (G : venv) (names : list string) (its : list (option ty * hexpr)) {struct its}
    : res venv :=
    match names, its with
    | x :: names', (t, e) :: its' =>
        bind (annotated t) (fun t =>
        bind (check G e) (fun s =>
        bind (check_sub n E s t) (fun _ =>
        bind (canonical_list n E t) (fun et =>
        check_iteratees ((x, TFunction [] et) :: G) names' its'))))
    | _, _ => Ok G
    end.

  (** 316-365: the branches of a comprehension *)
  Fixpoint check_comp_branches (G : venv) (bs : list comp_branch) : res venv :=
    match bs with
    | [] => Ok G
    | b :: bs' =>
        match b with
        | CompBranch names its cond =>
            if Nat.eqb (List.length names) (List.length its) then
              bind (check_iteratees G names its) (fun G' =>
              bind (match cond with
                    | None => Ok tt
                    | Some c => bind (check G' c) (fun s => check_sub n E s TBoolean)
                    end) (fun _ =>
              check_comp_branches G' bs'))
            else reject "ListComprehensionIterateeCount"
        end
    end.

  (** 377-415: map elements *)
  Fixpoint check_map_elements (G : venv) (k v : ty) (es : list map_element) : res unit :=
    match es with
    | [] => Ok tt
    | Entry a b :: es' =>
        bind (check G a) (fun s =>
        bind (check_sub n E s k) (fun _ =>
        bind (check G b) (fun s' =>
        bind (check_sub n E s' v) (fun _ => check_map_elements G k v es'))))
    | Spread m :: es' =>
        bind (check G m) (fun s =>
        bind (canonical_map n E s) (fun kv =>
        bind (check_sub n E (fst kv) k) (fun _ =>
        bind (check_sub n E (snd kv) v) (fun _ => check_map_elements G k v es'))))
    end.

  (** 435-448 and 510-523: record fields *)
  Fixpoint check_fields (G : venv) (fts : list (string * ty)) (fs : list (string * hexpr)) : res unit :=
    match fs with
    | [] => Ok tt
    | (x, e) :: fs' =>
        bind (field_type fts x) (fun t =>
        bind (check G e) (fun s => bind (check_sub n E s t) (fun _ => check_fields G fts fs')))
    end.
End Lists.

(** 450-463: all fields are given *)
Fixpoint check_complete (fts : list (string * ty)) (given : list string) : res unit :=
  match fts with
  | [] => Ok tt
  | (x, _) :: fts' => if mem x given then check_complete fts' given else reject "RecordFieldNotFound"
  end.

(** type_checker.rs 48-568 [check_expression] and 673-866 [check_operation] *)
Fixpoint check (n : nat) (E : tenv) (R : renv) (G : venv) (e : hexpr) {struct e} : res ty :=
  match e with
  | HBoolean _ => Ok TBoolean
  | HBuiltIn _ => reject "BuiltInFunctionNotCalled"
  | HCall ft f args =>
      bind (annotated ft) (fun t =>
      bind (canonical_function n E t) (fun ar =>
      if Nat.eqb (List.length args) (List.length (fst ar)) then
        bind (check_arguments n E (check n E R) G args (fst ar)) (fun _ =>
        bind (match f with
              | HBuiltIn b => check_builtin n E b (fst ar) (snd ar)
              | _ => bind (check n E R G f) (fun s => check_sub n E s t)
              end) (fun _ => Ok (snd ar)))
      else reject "ArgumentCount"))
  | HIf c a b =>
      bind (check n E R G c) (fun s =>
      bind (check_sub n E s TBoolean) (fun _ =>
      bind (check n E R G a) (fun _ => bind (check n E R G b) (fun _ => extract n E R G e))))
  | HIfList t l first rest a b =>
      bind (annotated t) (fun t =>
      bind (check n E R G l) (fun s =>
      bind (check_sub n E s (TList t)) (fun _ =>
      bind (check n E R (list_env first rest t G) a) (fun _ =>
      bind (check n E R G b) (fun _ => extract n E R G e)))))
  | HIfMap kt vt x m k a b =>
      bind (annotated kt) (fun kt =>
      bind (annotated vt) (fun vt =>
      bind (check n E R G k) (fun s =>
      bind (check_sub n E s kt) (fun _ =>
      bind (check n E R G m) (fun s' =>
      bind (check_sub n E s' (TMap kt vt)) (fun _ =>
      bind (check n E R ((x, vt) :: G) a) (fun _ =>
      bind (check n E R G b) (fun _ => extract n E R G e))))))))
  | HIfType x a branches els =>
      bind (check n E R G a) (fun s =>
      bind (canonicalize n E s) (fun u =>
      if is_variant u then
        bind (check_branches n E (check n E R) G x u branches) (fun _ =>
        bind (match els with
              | Some (t, b) => bind (annotated t) (fun t => bind (check n E R ((x, t) :: G) b) (fun _ => Ok tt))
              | None =>
                  match create_union (map fst branches) with
                  | None => Panic
                  | Some v =>
                      bind (equal_types n E u v) (fun same =>
                      if same then Ok tt else reject "MissingElseBlock")
                  end
              end) (fun _ => extract n E R G e))
      else reject "VariantExpected"))
  | HLambda args r b =>
      bind (check n E R (args_env args G) b) (fun s =>
      bind (check_sub n E s r) (fun _ => Ok (TFunction (map snd args) r)))
  | HLet x t b e' =>
      bind (annotated t) (fun t =>
      bind (check n E R G b) (fun s =>
      bind (check_sub n E s t) (fun _ => check n E R (let_env x t G) e')))
  | HList t es => bind (check_elements n E (check n E R) G t es) (fun _ => Ok (TList t))
  | HComprehension t el bs =>
      bind (check_comp_branches n E (check n E R) G bs) (fun G' =>
      bind (check n E R G' el) (fun s =>
      bind (check_sub n E s t) (fun _ => Ok (TList t))))
  | HMap k v es => bind (check_map_elements n E (check n E R) G k v es) (fun _ => Ok (TMap k v))
  | HNone => Ok TNone
  | HNumber _ => Ok TNumber
  | HBinary o l r =>
      match o with
      | BinAddition t =>
          bind (annotated t) (fun t =>
          bind (check n E R G l) (fun s =>
          bind (check n E R G r) (fun s' =>
          bind (equal_types n E t TNumber) (fun b =>
          if b then
            bind (check_sub n E s TNumber) (fun _ => bind (check_sub n E s' TNumber) (fun _ => Ok t))
          else
            bind (equal_types n E t TString) (fun b =>
            if b then
              bind (check_sub n E s TString) (fun _ => bind (check_sub n E s' TString) (fun _ => Ok t))
            else reject "InvalidAdditionOperand")))))
      | BinArithmetic _ =>
          bind (check n E R G l) (fun s =>
          bind (check_sub n E s TNumber) (fun _ =>
          bind (check n E R G r) (fun s' =>
          bind (check_sub n E s' TNumber) (fun _ => Ok TNumber))))
      | BinBoolean _ =>
          bind (check n E R G l) (fun s =>
          bind (check_sub n E s TBoolean) (fun _ =>
          bind (check n E R G r) (fun s' =>
          bind (check_sub n E s' TBoolean) (fun _ => Ok TBoolean))))
      | BinEquality t _ =>
          bind (annotated t) (fun t =>
          bind (check n E R G l) (fun s =>
          bind (check_sub n E s t) (fun _ =>
          bind (check n E R G r) (fun s' =>
          bind (check_sub n E s' t) (fun _ =>
          bind (extract n E R G l) (fun lt =>
          bind (extract n E R G r) (fun rt =>
          bind (subsumes n E lt rt) (fun b =>
          if b then Ok TBoolean
          else bind (subsumes n E rt lt) (fun b => if b then Ok TBoolean else reject "TypesNotMatched")))))))))
      | BinOrder _ =>
          bind (check n E R G l) (fun s =>
          bind (check_sub n E s TNumber) (fun _ =>
          bind (check n E R G r) (fun s' =>
          bind (check_sub n E s' TNumber) (fun _ => Ok TBoolean))))
      end
  | HNot a => bind (check n E R G a) (fun s => bind (check_sub n E s TBoolean) (fun _ => Ok TBoolean))
  | HTry t a =>
      bind (annotated t) (fun t =>
      bind (check n E R G a) (fun u =>
      bind (check_sub n E TError u) (fun _ =>
      bind (check_sub n E t u) (fun _ =>
      bind (check_sub n E u (TUnion t TError)) (fun _ => Ok t)))))
  | HRecord t fs =>
      bind (record_fields n E R t) (fun fts =>
      bind (check_fields n E (check n E R) G fts fs) (fun _ =>
      bind (check_complete fts (map fst fs)) (fun _ => Ok t)))
  | HField t r x =>
      bind (annotated t) (fun t =>
      bind (check n E R G r) (fun s =>
      bind (check_sub n E s t) (fun _ =>
      bind (record_fields n E R t) (fun fts => field_type fts x))))
  | HUpdate t r fs =>
      bind (check n E R G r) (fun s =>
      bind (check_sub n E s t) (fun _ =>
      bind (record_fields n E R t) (fun fts =>
      bind (check_fields n E (check n E R) G fts fs) (fun _ => Ok t))))
  | HString _ => Ok TString
  | HThunk t a =>
      bind (annotated t) (fun t =>
      bind (check n E R G a) (fun s =>
      bind (check_sub n E s t) (fun _ => extract n E R G e)))
  | HCoerce from to a =>
      bind (check n E R G a) (fun s =>
      bind (check_sub n E s from) (fun _ =>
      bind (canonicalize n E to) (fun c =>
      match c with
      | TList _ | TMap _ _ => Ok to
      | _ => bind (check_sub n E from to) (fun _ => Ok to)
      end)))
  | HVariable x => match lookup G x with Some t => Ok t | None => reject "VariableNotFound" end
  end.

(** type_checker.rs 23-46 [check_lambda] *)
Definition check_lambda (n : nat) (E : tenv) (R : renv) (G : venv) (l : lambda) : res unit :=
  bind (check n E R (args_env (l_arguments l) G) (l_body l)) (fun s => check_sub n E s (l_result l)).

(** type_checker.rs 13-21 [check_types] *)
Definition check_module (n : nat) (E : tenv) (R : renv) (m : hmodule) : res unit :=
  rmap (fun _ => tt) (mapM (fun d => check_lambda n E R (module_env m) (snd d)) (h_defs m)).
