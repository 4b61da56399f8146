(** Compilation of a whole HIR module to MIR: the functions generated for
    records, lists and maps, the type definitions and the type information.
    Source: /repo/lib/hir-mir/src/lib.rs 78-103 [compile_module], module.rs,
    generic_type_definition.rs, variant_type_collection.rs,
    runtime_function_declaration.rs, type_information.rs,
    type_information/*.rs, transformation/collection_type.rs,
    transformation/*/module.rs, transformation/record_*_function.rs and
    /repo/lib/hir/src/analysis/type_visitor.rs.

    Sets of types are ordered lists without duplicates, as a hash set's order
    has no meaning.  Export flags and foreign names are dropped.  The
    configuration is present, as it is for every module but the prelude's. *)
From Coq Require Import String List ZArith Bool.
From Verif Require Import Base Mir HirType HirTypeModule Hir HirValidate HirMir.
Import ListNotations.
Local Open Scope string_scope.
Local Open Scope list_scope.

(** lib/hir/src/ir/type_definition.rs *)
Record type_def : Type := TypeDef {
  t_def : typedef;
  t_open : bool;
  t_external : bool
}.

(** lib/hir/src/ir/module.rs 5-14 *)
Record program : Type := Program {
  p_types : list type_def;
  p_aliases : list (string * ty);
  p_foreign : list (string * ty);
  p_declared : list (string * ty);
  p_defs : list (string * lambda)
}.

Definition add_declared (p : program) (ds : list (string * ty)) : program :=
  Program (p_types p) (p_aliases p) (p_foreign p) (p_declared p ++ ds) (p_defs p).
Definition add_defs (p : program) (ds : list (string * lambda)) : program :=
  Program (p_types p) (p_aliases p) (p_foreign p) (p_declared p) (p_defs p ++ ds).

(** context.rs 16-26 [new] with type_collector.rs *)
Definition program_module (p : program) : tmodule :=
  {| tm_defs := map t_def (p_types p); tm_aliases := p_aliases p |}.
Definition program_env (p : program) : tenv := collect_env (program_module p).
Definition program_records (p : program) : renv := collect_records (program_module p).

Definition def_record (d : type_def) : ty := TRecord (td_name (t_def d)) (td_original (t_def d)).

(** record_field_validator.rs 85-98 [collect_open_records] *)
Definition open_records (p : program) : list string :=
  map (fun d => td_name (t_def d)) (filter (fun d => negb (t_external d) || t_open d) (p_types p)).

Definition program_hir (p : program) : hmodule := HModule (p_declared p ++ p_foreign p) (p_defs p).

(** lib/hir/src/analysis.rs 42-62 [analyze].  The check of the names in the
    types of expressions (type_existence_validator.rs) is not modelled, nor are
    the impossible records (modelled in [HirType]): neither changes a module. *)
Definition analyze_program (n : nat) (p : program) : res program :=
  if negb (no_duplicates [] (map fst (p_defs p))) then reject "DuplicateFunctionNames"
  else if negb (no_duplicates [] (type_names (program_module p))) then reject "DuplicateTypeNames"
  else if negb (types_exist (program_module p)) then reject "TypeNotFound"
  else if negb (aliases_not_recursive (program_module p)) then reject "RecursiveTypeAlias"
  else
    bind (analyze n (program_env p) (program_records p) (open_records p) (program_hir p)) (fun m =>
    Ok (Program (p_types p) (p_aliases p) (p_foreign p) (p_declared p) (h_defs m))).

(** ** The types a visitor meets (type_visitor.rs) *)

(** 256-291 [visit_type], [visit_function_type] *)
Fixpoint visit_type (t : ty) : list ty :=
  t :: match t with
       | TFunction a r => visit_type r ++ flat_map visit_type a
       | TList e => visit_type e
       | TMap k v => visit_type k ++ visit_type v
       | TUnion l r => visit_type l ++ visit_type r
       | _ => []
       end%list.

Definition visit_option (t : option ty) : list ty := match t with Some t => visit_type t | None => [] end.

(** The types written in one expression, without those in its parts: 69-254
    [visit_expression].  An iteratee's type is visited with its comprehension. *)
Definition written_types (e : hexpr) : list ty :=
  match e with
  | HCall t _ _ | HIfList t _ _ _ _ _ | HLet _ t _ _ | HField t _ _ | HThunk t _ => visit_option t
  | HIfMap k v _ _ _ _ _ => visit_option k ++ visit_option v
  | HIfType _ _ bs els =>
      flat_map (fun b => visit_type (fst b)) bs ++
      match els with Some (t, _) => visit_option t | None => [] end
  | HCoerce from to _ => visit_type from ++ visit_type to
  | HLambda args r _ => flat_map (fun a => visit_type (snd a)) args ++ visit_type r
  | HList t _ => visit_type t
  | HComprehension t _ bs =>
      visit_type t ++ flat_map (fun b => flat_map (fun it => visit_option (fst it)) (b_iteratees b)) bs
  | HMap k v _ => visit_type k ++ visit_type v
  | HBinary (BinAddition t) _ _ | HBinary (BinEquality t _) _ _ => visit_option t
  | HRecord t _ | HUpdate t _ _ => visit_type t
  | _ => []
  end%list.

(** 59-67 [visit_lambda].  The conditions of list comprehensions are not
    visited (in 69-254), as in [visit]. *)
Definition visit_lambda (l : lambda) : list ty :=
  (flat_map (fun a => visit_type (snd a)) (l_arguments l) ++ visit_type (l_result l) ++
   flat_map written_types (visit (l_body l)))%list.

(** 6-26 [visit] *)
Definition visit_types (p : program) : list ty :=
  (flat_map (fun d => flat_map (fun f => visit_type (snd f)) (td_fields (t_def d))) (p_types p) ++
   flat_map (fun a => visit_type (snd a)) (p_aliases p) ++
   flat_map (fun d => visit_type (snd d)) (p_foreign p) ++
   flat_map (fun d => visit_type (snd d)) (p_declared p) ++
   flat_map (fun d => visit_lambda (snd d)) (p_defs p))%list.

(** expression_visitor.rs 3-18 [visit] *)
Definition visit_expressions (p : program) : list hexpr := flat_map (fun d => visit (l_body (snd d))) (p_defs p).

Definition type_set (ts : list ty) : list ty := fold_right set_insert [] ts.

Definition option_list {A} (o : option A) : list A := match o with Some a => [a] | None => [] end.

Section Program.
  (** the fuel of the canonicalizer and that of the compiler, the types, the
      records and the configuration *)
  Variable n : nat.
  Variable k : nat.
  Variable E : tenv.
  Variable R : renv.
  Variable C : config.

  (** ** Generated functions *)

  (** transformation/record_equal_function.rs 7-36: the comparable records,
      those of other modules first *)
  Definition comparable_records (p : program) : res (list type_def * list type_def) :=
    bind (mapM (fun d => bind (comparable n E R (def_record d)) (fun b => Ok (if b then [d] else []))) (p_types p)) (fun ds =>
    Ok (filter t_external (concat ds), filter (fun d => negb (t_external d)) (concat ds))).

  (** record_equal_function.rs 38-142 *)
  Definition add_record_equal (p : program) : res program :=
    bind (comparable_records p) (fun ds =>
    Ok (add_defs
          (add_declared p
             (map (fun d => (record_equal_name (td_name (t_def d)), TFunction [def_record d; def_record d] TBoolean)) (fst ds)))
          (map (fun d => record_equal_definition (td_name (t_def d)) (td_original (t_def d)) (td_fields (t_def d))) (snd ds)))).

  (** record_hash_function.rs 16-157 *)
  Definition add_record_hash (p : program) : res program :=
    bind (comparable_records p) (fun ds =>
    bind (mapM (fun d => record_hash_definition n E R C k (td_name (t_def d)) (td_original (t_def d)) (td_fields (t_def d))) (snd ds)) (fun fs =>
    Ok (add_defs
          (add_declared p (map (fun d => (record_hash_name (td_name (t_def d)), TFunction [def_record d] TNumber)) (fst ds)))
          fs))).

  (** transformation/map_context/module.rs 139-180 [collect_map_types] *)
  Definition map_types (p : program) : res (list ty) :=
    bind (mapM (canonicalize n E)
            (filter (fun t => match t with TMap _ _ => true | _ => false end) (visit_types p) ++
             flat_map (fun e => match e with
                                | HIfMap (Some kt) (Some vt) _ _ _ _ _ | HMap kt vt _ => [TMap kt vt]
                                | _ => []
                                end) (visit_expressions p))) (fun ts => Ok (type_set ts)).

  (** map_context/module.rs 19-38 [transform] *)
  Definition add_map_contexts (p : program) : res program :=
    bind (map_types p) (fun ts =>
    bind (mapM (fun t => match t with
                         | TMap kt vt => map_context_definition n E R C kt vt
                         | _ => Panic
                         end) ts) (fun ds => Ok (add_defs p ds))).

  (** transformation/collection_type.rs 37-88 [collect_comparable_parameter_types] *)
  Definition parameter_types (p : program) : res (list ty) :=
    bind (mapM (fun t =>
            bind (canonicalize n E t) (fun c =>
            bind (comparable n E R c) (fun b => Ok (if b then [c] else []))))
            (flat_map (fun t => match t with TList e => [e] | TMap kt vt => [kt; vt] | _ => [] end) (visit_types p) ++
             flat_map (fun e => match e with
                                | HIfList t _ _ _ _ _ => option_list t
                                | HIfMap kt vt _ _ _ _ _ => option_list kt ++ option_list vt
                                | HList t _ | HComprehension t _ _ => [t]
                                | HMap kt vt _ => [kt; vt]
                                | _ => []
                                end) (visit_expressions p))) (fun ts => Ok (type_set (concat ts))).

  (** transformation/equal_operation/module.rs 8-27,
      transformation/hash_calculation/module.rs 12-31 *)
  Definition add_equal (p : program) : res program :=
    bind (parameter_types p) (fun ts => bind (mapM (equal_definition n E R C k) ts) (fun ds => Ok (add_defs p ds))).
  Definition add_hash (p : program) : res program :=
    bind (parameter_types p) (fun ts => bind (mapM (hash_definition n E R C k) ts) (fun ds => Ok (add_defs p ds))).

  (** lib.rs 88-92 *)
  Definition transform_program (p : program) : res program :=
    bind (add_record_equal p) (fun p =>
    bind (add_record_hash p) (fun p =>
    bind (add_map_contexts p) (fun p =>
    bind (add_equal p) add_hash))).

  (** ** Types in variants *)

  (** variant_type_collection.rs 19-82: what one expression converts from and
      to variants.  [unwrap] of a missing annotation panics in the code;
      analysis leaves none. *)
  Definition lower_types (e : hexpr) : list ty :=
    match e with
    | HCall _ (HBuiltIn BRace) _ => [TList TAny]
    | HIfList t _ _ _ _ _ => option_list t
    | HIfMap kt vt _ _ _ _ _ => option_list kt ++ option_list vt
    | HIfType _ _ bs els => map fst bs ++ match els with Some (Some t, _) => [t] | _ => [] end
    | HList t _ => [t]
    | HComprehension t _ bs =>
        flat_map (fun b => flat_map (fun it => match fst it with Some (TList e) => [e] | _ => [] end) (b_iteratees b)) bs ++ [t]
    | HMap kt vt _ => [kt; vt]
    | HCoerce from _ _ => [from]
    | HBinary (BinEquality t _) _ _ | HTry t _ => option_list t
    | _ => []
    end%list.

  (** variant_type_collection.rs 10-100 [collect] *)
  Definition variant_types (p : program) : res (list ty) :=
    bind (mapM (union_members n E)
            (flat_map lower_types (visit_expressions p) ++
             flat_map (fun d => map snd (td_fields (t_def d))) (p_types p))) (fun ts => Ok (type_set (concat ts))).

  (** generic_type_definition.rs 18-50 [compile_type_definition] *)
  Definition carrier_definition (t : ty) : res (list (string * list mtype)) :=
    match t with
    | TReference _ | TUnion _ _ => Panic
    | _ =>
        bind (concrete_name n E C t) (fun o =>
        match o with
        | None => Ok []
        | Some r => bind (compile_type n E C t) (fun m => Ok [(r, [m])])
        end)
    end.

  (** generic_type_definition.rs 5-16 [compile] *)
  Definition carrier_definitions (p : program) : res (list (string * list mtype)) :=
    bind (variant_types p) (fun ts => bind (mapM carrier_definition ts) (fun ds => Ok (concat ds))).

  (** ** Type information *)

  Definition debug_type : mtype := Mir.TFunction [TVariant] TByteString.
  Definition equal_type : mtype := Mir.TFunction [TVariant; TVariant] TVariant.
  Definition information_type : mtype := Mir.TFunction [] (Mir.TRecord information_record).

  (** type_information.rs 118-123, debug.rs 27-32, equal.rs 30-35: the names *)
  Definition information_name (t : ty) : res string := rmap (append "hir:type_information:") (type_id n E C t).
  Definition reflect_debug_name (t : ty) : res string := rmap (append "hir:reflect:debug:") (type_id n E C t).
  Definition reflect_equal_name (t : ty) : res string := rmap (append "hir:reflect:equal:") (type_id n E C t).

  (** type_information/utility.rs 4-20 [compile_any] *)
  Definition variant_value (e : expr) (t : ty) : res expr :=
    bind (compile_type n E C t) (fun m =>
    match m with
    | TVariant => Ok e
    | _ =>
        bind (compile_concrete n E C t) (fun c =>
        bind (concrete_value n E C e t) (fun v => Ok (Op (OVariant c) [v])))
    end).

  (** utility.rs 22-35 [compile_unboxed_concrete] *)
  Definition unboxed_value (e : expr) (t : ty) : res expr :=
    bind (compile_concrete n E C t) (fun m =>
    match m with Mir.TRecord r => Ok (Op (OField r 0) [e]) | _ => Panic end).

  (** debug.rs 227-245, equal.rs 286-307 [compile_element_function] *)
  Definition debug_element : expr :=
    LetRec (Fdef "hir:debug:element" [] [("$x", TVariant)] TByteString (debug_call (Var "$x")) false)
      (Var "hir:debug:element").
  Definition equal_element : expr :=
    LetRec (Fdef "hir:equal:element" [] [("$lhs", TVariant); ("$rhs", TVariant)] TVariant
              (equal_call (Var "$lhs") (Var "$rhs")) false)
      (Var "hir:equal:element").

  Definition text (s : string) : expr := Lit (LBytes s).

  (** [itertools::intersperse] followed by [flatten] *)
  Fixpoint separated {A} (s : A) (l : list (list A)) : list A :=
    match l with
    | [] => []
    | [x] => x
    | x :: l' => (x ++ s :: separated s l')%list
    end.

  (** debug.rs 52-189: the fields of a record *)
  Fixpoint debug_fields (r : string) (i : nat) (fts : list (string * ty)) : res (list (list expr)) :=
    match fts with
    | [] => Ok []
    | (x, t) :: fts' =>
        bind (variant_value (Op (OField r i) [Var "$x"]) t) (fun v =>
        bind (debug_fields r (S i) fts') (fun l => Ok ([text (append x ": "); debug_call v] :: l)))
    end.

  (** debug.rs 52-189 [compile_function_definition]: the debug output of a value of a type *)
  Definition debug_body (t : ty) : res expr :=
    let x := Var "$x" in
    match t with
    | TBoolean => Ok (If x (text "true") (text "false"))
    | TError => Ok (Op OConcat [text "error("; debug_call (error_source x); text ")"])
    | TFunction _ _ => Ok (text "<function>")
    | TList e =>
        bind (unboxed_value x t) (fun v =>
        Ok (Op (OCall [TByteString; list_mtype C; debug_type] TByteString)
              [Var (list_debug C); text (c_format C e); v; debug_element]))
    | TMap kt vt =>
        bind (unboxed_value x t) (fun v =>
        Ok (Op (OCall [TByteString; TByteString; map_mtype C; debug_type] TByteString)
              [Var (map_debug C); text (c_format C kt); text (c_format C vt); v; debug_element]))
    | TNone => Ok (text "none")
    | TNumber => Ok (Op (OCall [Mir.TNumber] TByteString) [Var (number_debug C); x])
    | TRecord r o =>
        bind (resolve_record R r) (fun fts =>
        bind (debug_fields r 0 fts) (fun l =>
        Ok (Op OConcat (text (append o "{") :: separated (text ", ") l ++ [text "}"]))))
    | TString =>
        let quote := String (Ascii.ascii_of_nat 34) "" in
        Ok (Op OConcat [text quote; x; text quote])
    | TAny | TReference _ | TUnion _ _ => reject "InvalidVariantType"
    end.

  (** debug.rs 203-225 [compile_function_definition_for_concrete_type] *)
  Definition debug_definition (t : ty) : res fdef :=
    bind (reflect_debug_name t) (fun name =>
    bind (debug_body t) (fun body =>
    bind (compile_concrete n E C t) (fun m =>
    Ok (Fdef name [] [("$x", TVariant)] TByteString (Case (Var "$x") [Alt [m] "$x" body] None) false)))).

  Definition boolean_variant (e : expr) : expr := Op (OVariant Mir.TBoolean) [e].
  Definition none_variant : expr := Op (OVariant Mir.TNone) [Lit LNone].

  (** equal.rs 247-284 [compile_merged_result] *)
  Definition merged_result (l r : expr) : expr :=
    Case l
      [Alt [Mir.TBoolean] "$lhs_result"
         (Case r
            [Alt [Mir.TBoolean] "$rhs_result"
               (boolean_variant (If (Var "$lhs_result") (Var "$rhs_result") (Lit (LBool false))))]
            (Some ("", none_variant)))]
      (Some ("", none_variant)).

  (** equal.rs 55-196: the fields of a record, from the first *)
  Fixpoint equal_field_results (r : string) (i : nat) (fts : list (string * ty)) (e : expr) : res expr :=
    match fts with
    | [] => Ok e
    | (_, t) :: fts' =>
        bind (variant_value (Op (OField r i) [Var "$lhs"]) t) (fun l =>
        bind (variant_value (Op (OField r i) [Var "$rhs"]) t) (fun r' =>
        equal_field_results r (S i) fts' (merged_result e (equal_call l r'))))
    end.

  (** equal.rs 55-196 [compile_function_definition]: the comparison of two values of a type *)
  Definition equal_body (t : ty) : res expr :=
    let l := Var "$lhs" in
    let r := Var "$rhs" in
    match t with
    | TBoolean => Ok (boolean_variant (If l r (If r (Lit (LBool false)) (Lit (LBool true)))))
    | TError => Ok (equal_call (error_source l) (error_source r))
    | TFunction _ _ => Ok none_variant
    | TList _ =>
        bind (unboxed_value l t) (fun l =>
        bind (unboxed_value r t) (fun r =>
        Ok (Op (OCall [equal_type; list_mtype C; list_mtype C] TVariant) [Var (list_maybe_equal C); equal_element; l; r])))
    | TMap _ _ =>
        bind (unboxed_value l t) (fun l =>
        bind (unboxed_value r t) (fun r =>
        Ok (Op (OCall [equal_type; map_mtype C; map_mtype C] TVariant) [Var (map_maybe_equal C); equal_element; l; r])))
    | TNone => Ok (boolean_variant (Lit (LBool true)))
    | TNumber => Ok (boolean_variant (Op (OCompare Equal) [l; r]))
    | TRecord name _ =>
        bind (resolve_record R name) (fun fts =>
        equal_field_results name 0 fts (boolean_variant (Lit (LBool true))))
    | TString =>
        Ok (boolean_variant (Op (OCall [TByteString; TByteString] Mir.TBoolean) [Var (string_equal C); l; r]))
    | TAny | TReference _ | TUnion _ _ => reject "InvalidVariantType"
    end.

  (** equal.rs 210-245 [compile_function_definition_for_concrete_type] *)
  Definition reflect_equal_definition (t : ty) : res fdef :=
    let default := Some ("", boolean_variant (Lit (LBool false))) in
    bind (reflect_equal_name t) (fun name =>
    bind (equal_body t) (fun body =>
    bind (compile_concrete n E C t) (fun m =>
    Ok (Fdef name [] [("$lhs", TVariant); ("$rhs", TVariant)] TVariant
          (Case (Var "$lhs") [Alt [m] "$lhs" (Case (Var "$rhs") [Alt [m] "$rhs" body] default)] default) false)))).

  (** type_information.rs 143-171 [compile_function_definitions] *)
  Definition information_definitions (t : ty) : res (list fdef) :=
    bind (debug_definition t) (fun d =>
    bind (reflect_equal_definition t) (fun e =>
    bind (information_name t) (fun name =>
    bind (reflect_debug_name t) (fun x =>
    bind (reflect_equal_name t) (fun y =>
    Ok [d; e;
        Fdef name [] [] (Mir.TRecord information_record) (Op (ORecord information_record) [Var x; Var y]) true]))))).

  (** type_information.rs 129-141 [compile_function_declarations] *)
  Definition information_declarations (t : ty) : res (list (string * mtype)) :=
    bind (reflect_debug_name t) (fun x =>
    bind (reflect_equal_name t) (fun y =>
    bind (information_name t) (fun name => Ok [(x, debug_type); (y, equal_type); (name, information_type)]))).

  (** type_information.rs 173-198 [compile_default_function_definitions] *)
  Definition default_definitions : list fdef :=
    [Fdef "hir:reflect:debug:default" [] [("$x", TVariant)] TByteString (text "<unknown>") false;
     Fdef "hir:reflect:equal:default" [] [("$lhs", TVariant); ("$rhs", TVariant)] TVariant none_variant false;
     Fdef information_default [] [] (Mir.TRecord information_record)
       (Op (ORecord information_record) [Var "hir:reflect:debug:default"; Var "hir:reflect:equal:default"]) false].

  (** type_information.rs 204-230 [collect_types] *)
  Definition information_types (p : program) : res (list ty) :=
    bind (variant_types p) (fun vs =>
    bind (mapM (canonicalize n E) ([TBoolean; TError; TNone; TNumber; TString] ++ vs ++ map def_record (p_types p))) (fun ts =>
    Ok (type_set (filter (fun t => match t with TAny | TUnion _ _ => false | _ => true end) ts)))).

  (** type_information.rs 59-116: the records of other modules *)
  Definition external_type (p : program) (t : ty) : bool :=
    match t with
    | TRecord r _ => mem r (map (fun d => td_name (t_def d)) (filter t_external (p_types p)))
    | _ => false
    end.

  (** ** The module (module.rs 5-78 [compile]) *)

  (** 87-101 [compile_type_definition] *)
  Definition compile_type_def (d : type_def) : res (string * list mtype) :=
    bind (mapM (fun f => compile_type n E C (snd f)) (td_fields (t_def d))) (fun ms => Ok (td_name (t_def d), ms)).

  (** 103-108 [compile_internal_type_definitions], error_type.rs 3-8, type_information.rs 49-57 *)
  Definition internal_type_definitions : list (string * list mtype) :=
    [(error_record, [TVariant]); (information_record, [debug_type; equal_type])].

  (** 19-38 and 110-118 [compile_function_declaration] *)
  Definition compile_declaration (d : string * ty) : res (string * mtype) :=
    bind (compile_signature n E C (snd d)) (fun s => Ok (fst d, Mir.TFunction (fst s) (snd s))).

  (** runtime_function_declaration.rs 10-36, type_.rs 144-171 *)
  Definition runtime_declarations : list (string * mtype) :=
    let thunk := Mir.TFunction [] TVariant in
    [(debug_function, Mir.TFunction [TByteString] Mir.TNone);
     (race_function, Mir.TFunction [list_mtype C] (list_mtype C));
     (spawn_function, Mir.TFunction [thunk] thunk)].

  Definition lower_program (p : program) : res mmodule :=
    bind (information_types p) (fun its =>
    bind (mapM information_declarations (filter (external_type p) its)) (fun ids =>
    bind (mapM information_definitions (filter (fun t => negb (external_type p t)) its)) (fun ifs =>
    bind (mapM compile_type_def (p_types p)) (fun tds =>
    bind (carrier_definitions p) (fun cds =>
    bind (mapM compile_declaration (p_foreign p)) (fun fds =>
    bind (mapM compile_declaration (p_declared p)) (fun dds =>
    bind (mapM (compile_definition n E R C k) (p_defs p)) (fun defs =>
    bind (mapM (fun t => bind (compile_concrete n E C t) (fun m => bind (information_name t) (fun x => Ok (m, x)))) its) (fun infos =>
    Ok (MModule (tds ++ cds ++ internal_type_definitions) (fds ++ runtime_declarations ++ dds ++ concat ids)
          (defs ++ concat ifs ++ default_definitions) infos information_default)))))))))).
End Program.

(** lib.rs 78-103 [compile_module], without the module interface and the final
    type check *)
Definition compile_program (n k : nat) (C : config) (p : program) : res mmodule :=
  bind (analyze_program n p) (fun p =>
  let E := program_env p in
  let R := program_records p in
  bind (transform_program n k E R C p) (lower_program n k E R C)).
