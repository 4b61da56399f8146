(** The type coercer: subtyping becomes explicit conversion.
    Source: /repo/lib/hir/src/analysis/type_coercer.rs. *)
From Coq Require Import String List ZArith Bool.
From Verif Require Import Base HirType Hir.
Import ListNotations.
Local Open Scope string_scope.

(** type_coercer.rs 535-556 [coerce_expression] *)
Definition coerce_to (n : nat) (E : tenv) (R : renv) (G : venv) (e : hexpr) (upper : ty) : res hexpr :=
  bind (extract n E R G e) (fun lower =>
  bind (equal_types n E lower upper) (fun same =>
  Ok (if same then e else HCoerce lower upper e))).

Section Lists.
  Variable n : nat.
  Variable E : tenv.
  Variable R : renv.
  Variable coerce : venv -> hexpr -> res hexpr.

  (** type_coercer.rs 75-82 [transform_and_coerce_expression] *)
  Definition coerce_into (G : venv) (t : ty) (e : hexpr) : res hexpr :=
    bind (coerce G e) (fun e' => coerce_to n E R G e' t).

  (** 103-109: arguments zipped with parameter types *)
  Fixpoint coerce_arguments (G : venv) (es : list hexpr) (ts : list ty) {struct es} : res (list hexpr) :=
    match es, ts with
    | e :: es', t :: ts' =>
        bind (coerce_into G t e) (fun e' => bind (coerce_arguments G es' ts') (fun r => Ok (e' :: r)))
    | _, _ => Ok []
    end.

  (** 263-280 *)
  Definition coerce_element (G : venv) (t : ty) (el : element) : res element :=
    match el with
    | Multiple e => rmap Multiple (coerce_into G (TList t) e)
    | Single e => rmap Single (coerce_into G t e)
    end.

  (** 358-389 *)
  Definition coerce_map_element (G : venv) (k v : ty) (el : map_element) : res map_element :=
    match el with
    | Entry a b => bind (coerce_into G k a) (fun a' => bind (coerce_into G v b) (fun b' => Ok (Entry a' b')))
    | Spread m => rmap Spread (coerce_into G (TMap k v) m)
    end.

  (** 501-533 [transform_record_fields] after the field types *)
  Definition coerce_field (G : venv) (fts : list (string * ty)) (f : string * hexpr)
    : res (string * hexpr) :=
    bind (coerce G (snd f)) (fun e' =>
    bind (field_type fts (fst f)) (fun t =>
    rmap (fun e'' => (fst f, e'')) (coerce_to n E R G e' t))).

  (** 301-330: the names of one branch of a comprehension *)
  Fixpoint iteratee_types (names : list string) (its : list (option ty * hexpr)) {struct its}
    : res (list (string * ty)) :=
    match names, its with
    | x :: names', (t, _) :: its' =>
        bind (annotated t) (fun t =>
        bind (canonical_list n E t) (fun et =>
        bind (iteratee_types names' its') (fun r => Ok ((x, TFunction [] et) :: r))))
    | _, _ => Ok []
    end.

  (** 289-341: the branches of a comprehension; the lists of one branch are
      outside the scope of its names *)
  Fixpoint coerce_branches (G : venv) (bs : list comp_branch) : res (venv * list comp_branch) :=
    match bs with
    | [] => Ok (G, [])
    | b :: bs' =>
        match b with
        | CompBranch names its cond =>
            bind (mapM (fun it => rmap (fun e' => (fst it, e')) (coerce G (snd it))) its) (fun its' =>
            bind (iteratee_types names its) (fun ns =>
            let G' := args_env ns G in
            bind (match cond with None => Ok None | Some c => rmap Some (coerce G' c) end) (fun cond' =>
            bind (coerce_branches G' bs') (fun r =>
            Ok (fst r, CompBranch names its' cond' :: snd r)))))
        end
    end.
End Lists.

(** type_coercer.rs 68-499 [transform_expression] *)
Fixpoint coerce (n : nat) (E : tenv) (R : renv) (G : venv) (e : hexpr) {struct e} : res hexpr :=
  match e with
  | HCall ft f args =>
      bind (annotated ft) (fun t =>
      bind (canonical_function n E t) (fun ar =>
      bind (coerce n E R G f) (fun f' =>
      bind (coerce_arguments n E R (coerce n E R) G args (fst ar)) (fun args' =>
      Ok (HCall ft f' args')))))
  | HIf c a b =>
      bind (extract n E R G e) (fun t =>
      bind (coerce n E R G c) (fun c' =>
      bind (coerce_into n E R (coerce n E R) G t a) (fun a' =>
      bind (coerce_into n E R (coerce n E R) G t b) (fun b' => Ok (HIf c' a' b')))))
  | HIfList lt l first rest a b =>
      bind (annotated lt) (fun et =>
      bind (extract n E R G e) (fun t =>
      bind (coerce n E R G l) (fun l' =>
      bind (coerce_into n E R (coerce n E R) (list_env first rest et G) t a) (fun a' =>
      bind (coerce_into n E R (coerce n E R) G t b) (fun b' => Ok (HIfList lt l' first rest a' b'))))))
  | HIfMap kt vt x m k a b =>
      bind (annotated kt) (fun k_ =>
      bind (annotated vt) (fun v_ =>
      bind (extract n E R G e) (fun t =>
      bind (coerce n E R G m) (fun m' =>
      bind (coerce_into n E R (coerce n E R) G k_ k) (fun k' =>
      bind (coerce_into n E R (coerce n E R) ((x, v_) :: G) t a) (fun a' =>
      bind (coerce_into n E R (coerce n E R) G t b) (fun b' => Ok (HIfMap kt vt x m' k' a' b'))))))))
  | HIfType x a branches els =>
      bind (extract n E R G e) (fun t =>
      bind (coerce n E R G a) (fun a' =>
      bind (mapM (fun b => rmap (fun e' => (fst b, e'))
                             (coerce_into n E R (coerce n E R) ((x, fst b) :: G) t (snd b))) branches) (fun bs' =>
      bind (match els with
            | None => Ok None
            | Some (et, b) =>
                bind (annotated et) (fun et_ =>
                rmap (fun b' => Some (et, b')) (coerce_into n E R (coerce n E R) ((x, et_) :: G) t b))
            end) (fun els' => Ok (HIfType x a' bs' els')))))
  | HLambda args r b =>
      bind (coerce_into n E R (coerce n E R) (args_env args G) r b) (fun b' => Ok (HLambda args r b'))
  | HLet x t b e' =>
      bind (coerce n E R G b) (fun b' =>
      match x with
      | None => bind (coerce n E R G e') (fun e'' => Ok (HLet x t b' e''))
      | Some y =>
          bind (annotated t) (fun t_ =>
          bind (coerce n E R ((y, t_) :: G) e') (fun e'' => Ok (HLet x t b' e'')))
      end)
  | HList t es => bind (mapM (coerce_element n E R (coerce n E R) G t) es) (fun es' => Ok (HList t es'))
  | HComprehension t el bs =>
      bind (coerce_branches n E (coerce n E R) G bs) (fun r =>
      bind (coerce_into n E R (coerce n E R) (fst r) t el) (fun el' =>
      Ok (HComprehension t el' (snd r))))
  | HMap k v es =>
      bind (mapM (coerce_map_element n E R (coerce n E R) G k v) es) (fun es' => Ok (HMap k v es'))
  | HBinary o l r =>
      match o with
      | BinEquality t _ =>
          bind (annotated t) (fun t =>
          bind (coerce_into n E R (coerce n E R) G t l) (fun l' =>
          bind (coerce_into n E R (coerce n E R) G t r) (fun r' => Ok (HBinary o l' r'))))
      | _ =>
          bind (coerce n E R G l) (fun l' => bind (coerce n E R G r) (fun r' => Ok (HBinary o l' r')))
      end
  | HNot a => rmap HNot (coerce n E R G a)
  | HTry t a => rmap (HTry t) (coerce n E R G a)
  | HRecord t fs =>
      bind (record_fields n E R t) (fun fts =>
      bind (mapM (coerce_field n E R (coerce n E R) G fts) fs) (fun fs' => Ok (HRecord t fs')))
  | HField t r x => bind (coerce n E R G r) (fun r' => Ok (HField t r' x))
  | HUpdate t r fs =>
      bind (coerce n E R G r) (fun r' =>
      bind (record_fields n E R t) (fun fts =>
      bind (mapM (coerce_field n E R (coerce n E R) G fts) fs) (fun fs' => Ok (HUpdate t r' fs'))))
  | HThunk t a =>
      bind (annotated t) (fun t_ =>
      bind (coerce_into n E R (coerce n E R) G t_ a) (fun a' => Ok (HThunk t a')))
  | HCoerce from to a => rmap (HCoerce from to) (coerce n E R G a)
  | HBoolean _ | HBuiltIn _ | HNone | HNumber _ | HString _ | HVariable _ => Ok e
  end.

(** type_coercer.rs 43-66 [transform_lambda] *)
Definition coerce_lambda (n : nat) (E : tenv) (R : renv) (G : venv) (l : lambda) : res lambda :=
  rmap (Lambda (l_arguments l) (l_result l))
    (coerce_into n E R (coerce n E R) (args_env (l_arguments l) G) (l_result l) (l_body l)).

(** type_coercer.rs 11-41 [coerce_types] *)
Definition coerce_module (n : nat) (E : tenv) (R : renv) (m : hmodule) : res hmodule :=
  rmap (HModule (h_declared m))
    (mapM (fun d => rmap (fun l => (fst d, l)) (coerce_lambda n E R (module_env m) (snd d))) (h_defs m)).
