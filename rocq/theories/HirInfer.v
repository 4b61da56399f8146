(** The type inferrer: it fills in the type annotations.
    Source: /repo/lib/hir/src/analysis/type_inferrer.rs. *)
From Coq Require Import String List ZArith Bool.
From Verif Require Import Base HirType Hir HirCoerce.
Import ListNotations.
Local Open Scope string_scope.

(** type_inferrer.rs 511-656 [infer_built_in_call], given the types of the
    arguments *)
Definition builtin_type (n : nat) (E : tenv) (f : builtin) (ts : list ty) : res ty :=
  match f with
  | BDebug => Ok (TFunction [TAny] TNone)
  | BDelete => match ts with t :: _ => Ok (TFunction ts t) | [] => reject "ArgumentCount" end
  | BError => Ok (TFunction [TAny] TError)
  | BKeys =>
      match ts with
      | [t] => bind (canonical_map n E t) (fun kv => Ok (TFunction [t] (TList (fst kv))))
      | _ => reject "ArgumentCount"
      end
  | BRace =>
      match ts with
      | [t] => bind (canonical_list n E t) (fun e => Ok (TFunction ts e))
      | _ => reject "ArgumentCount"
      end
  | BReflectDebug => Ok (TFunction [TAny] TString)
  | BReflectEqual => Ok (TFunction [TAny; TAny] (TUnion TBoolean TNone))
  | BSize => Ok (TFunction ts TNumber)
  | BSource => Ok (TFunction [TError] TAny)
  | BSpawn => match ts with t :: _ => Ok (TFunction ts t) | [] => reject "ArgumentCount" end
  | BValues =>
      match ts with
      | [t] => bind (canonical_map n E t) (fun kv => Ok (TFunction [t] (TList (snd kv))))
      | _ => reject "ArgumentCount"
      end
  end.

Section Lists.
  Variable n : nat.
  Variable E : tenv.
  Variable R : renv.
  Variable infer : venv -> hexpr -> res hexpr.

  (** 239-249 *)
  Definition infer_element (G : venv) (el : element) : res element :=
    match el with
    | Multiple e => rmap Multiple (infer G e)
    | Single e => rmap Single (infer G e)
    end.

  (** 330-342 *)
  Definition infer_map_element (G : venv) (el : map_element) : res map_element :=
    match el with
    | Entry a b => bind (infer G a) (fun a' => bind (infer G b) (fun b' => Ok (Entry a' b')))
    | Spread m => rmap Spread (infer G m)
    end.

  (** 258-273 *)
  Definition infer_iteratee (G : venv) (it : option ty * hexpr) : res (option ty * hexpr) :=
    bind (infer G (snd it)) (fun e' => bind (extract n E R G e') (fun t => Ok (Some t, e'))).

  (** 257-315 *)
  Fixpoint infer_branches (G : venv) (bs : list comp_branch) : res (venv * list comp_branch) :=
    match bs with
    | [] => Ok (G, [])
    | b :: bs' =>
        match b with
        | CompBranch names its cond =>
            bind (mapM (infer_iteratee G) its) (fun its' =>
            bind (iteratee_types n E names its') (fun ns =>
            let G' := args_env ns G in
            bind (match cond with None => Ok None | Some c => rmap Some (infer G' c) end) (fun cond' =>
            bind (infer_branches G' bs') (fun r =>
            Ok (fst r, CompBranch names its' cond' :: snd r)))))
        end
    end.

  (** 444-451 *)
  Definition infer_field (G : venv) (f : string * hexpr) : res (string * hexpr) :=
    rmap (fun e' => (fst f, e')) (infer G (snd f)).
End Lists.

(** type_inferrer.rs 64-509 [infer_expression] *)
Fixpoint infer (n : nat) (E : tenv) (R : renv) (G : venv) (e : hexpr) {struct e} : res hexpr :=
  match e with
  | HCall _ f args =>
      match f with
      | HBuiltIn b =>
          bind (mapM (infer n E R G) args) (fun args' =>
          bind (mapM (extract n E R G) args') (fun ts =>
          bind (builtin_type n E b ts) (fun t => Ok (HCall (Some t) f args'))))
      | _ =>
          bind (infer n E R G f) (fun f' =>
          bind (extract n E R G f') (fun t =>
          bind (mapM (infer n E R G) args) (fun args' => Ok (HCall (Some t) f' args'))))
      end
  | HIf c a b =>
      bind (infer n E R G a) (fun a' =>
      bind (infer n E R G b) (fun b' =>
      bind (infer n E R G c) (fun c' => Ok (HIf c' a' b'))))
  | HIfList _ l first rest a b =>
      bind (infer n E R G l) (fun l' =>
      bind (extract n E R G l') (fun lt =>
      bind (canonical_list n E lt) (fun et =>
      bind (infer n E R (list_env first rest et G) a) (fun a' =>
      bind (infer n E R G b) (fun b' => Ok (HIfList (Some et) l' first rest a' b'))))))
  | HIfMap _ _ x m k a b =>
      bind (infer n E R G m) (fun m' =>
      bind (infer n E R G k) (fun k' =>
      bind (extract n E R G m') (fun mt =>
      bind (canonical_map n E mt) (fun kv =>
      bind (infer n E R ((x, snd kv) :: G) a) (fun a' =>
      bind (infer n E R G b) (fun b' =>
      Ok (HIfMap (Some (fst kv)) (Some (snd kv)) x m' k' a' b')))))))
  | HIfType x a branches els =>
      bind (infer n E R G a) (fun a' =>
      bind (mapM (fun b => rmap (fun e' => (fst b, e')) (infer n E R ((x, fst b) :: G) (snd b))) branches) (fun bs' =>
      bind (match els with
            | None => Ok None
            | Some (_, b) =>
                bind (extract n E R G a') (fun u =>
                match create_union (map fst branches) with
                | None => Panic
                | Some v =>
                    bind (type_difference n E u v) (fun d =>
                    match d with
                    | None => reject "UnreachableCode"
                    | Some t => rmap (fun b' => Some (Some t, b')) (infer n E R ((x, t) :: G) b)
                    end)
                end)
            end) (fun els' => Ok (HIfType x a' bs' els'))))
  | HLambda args r b => bind (infer n E R (args_env args G) b) (fun b' => Ok (HLambda args r b'))
  | HLet x _ b e' =>
      bind (infer n E R G b) (fun b' =>
      bind (extract n E R G b') (fun t =>
      bind (infer n E R (let_env x t G) e') (fun e'' => Ok (HLet x (Some t) b' e''))))
  | HList t es => bind (mapM (infer_element (infer n E R) G) es) (fun es' => Ok (HList t es'))
  | HComprehension t el bs =>
      bind (infer_branches n E R (infer n E R) G bs) (fun r =>
      bind (infer n E R (fst r) el) (fun el' => Ok (HComprehension t el' (snd r))))
  | HMap k v es => bind (mapM (infer_map_element (infer n E R) G) es) (fun es' => Ok (HMap k v es'))
  | HBinary o l r =>
      match o with
      | BinAddition _ =>
          bind (infer n E R G l) (fun l' =>
          bind (extract n E R G l') (fun t =>
          bind (canonicalize n E t) (fun c =>
          bind (infer n E R G r) (fun r' => Ok (HBinary (BinAddition (Some c)) l' r')))))
      | BinEquality _ op =>
          bind (infer n E R G l) (fun l' =>
          bind (infer n E R G r) (fun r' =>
          bind (extract n E R G l') (fun t =>
          bind (extract n E R G r') (fun t' =>
          Ok (HBinary (BinEquality (Some (TUnion t t')) op) l' r')))))
      | _ => bind (infer n E R G l) (fun l' => bind (infer n E R G r) (fun r' => Ok (HBinary o l' r')))
      end
  | HNot a => rmap HNot (infer n E R G a)
  | HTry _ a =>
      bind (infer n E R G a) (fun a' =>
      bind (extract n E R G a') (fun t =>
      bind (type_difference n E t TError) (fun d =>
      match d with
      | None => reject "UnionExpected"
      | Some s => if is_any s then reject "UnionExpected" else Ok (HTry (Some s) a')
      end)))
  | HRecord t fs => bind (mapM (infer_field (infer n E R) G) fs) (fun fs' => Ok (HRecord t fs'))
  | HField _ r x =>
      bind (infer n E R G r) (fun r' => bind (extract n E R G r') (fun t => Ok (HField (Some t) r' x)))
  | HUpdate t r fs =>
      bind (infer n E R G r) (fun r' =>
      bind (mapM (infer_field (infer n E R) G) fs) (fun fs' => Ok (HUpdate t r' fs')))
  | HThunk _ a =>
      bind (extract n E R G a) (fun t => bind (infer n E R G a) (fun a' => Ok (HThunk (Some t) a')))
  | HCoerce from to a => rmap (HCoerce from to) (infer n E R G a)
  | HBoolean _ | HBuiltIn _ | HNone | HNumber _ | HString _ | HVariable _ => Ok e
  end.

(** type_inferrer.rs 42-62 [infer_lambda] *)
Definition infer_lambda (n : nat) (E : tenv) (R : renv) (G : venv) (l : lambda) : res lambda :=
  rmap (Lambda (l_arguments l) (l_result l)) (infer n E R (args_env (l_arguments l) G) (l_body l)).

(** type_inferrer.rs 10-40 [infer] *)
Definition infer_module (n : nat) (E : tenv) (R : renv) (m : hmodule) : res hmodule :=
  rmap (HModule (h_declared m))
    (mapM (fun d => rmap (fun l => (fst d, l)) (infer_lambda n E R (module_env m) (snd d))) (h_defs m)).
