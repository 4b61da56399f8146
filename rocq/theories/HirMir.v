(** The lowering of HIR to MIR.
    Source: /repo/lib/hir-mir/src/*.rs and /repo/lib/hir-mir/src/transformation/*.rs.

    Source positions are dropped.  An [Err(CompileError)] is [reject] with the
    name of the error.  The configuration is always present, as it is for every
    module but the prelude's own. *)
From Coq Require Import String List ZArith Bool.
From Verif Require Import Base Mir HirType Hir.
Import ListNotations.
Local Open Scope string_scope.

(** compile_configuration.rs, list_type_configuration.rs,
    map_type_configuration.rs and string_type_configuration.rs: the names of the
    prelude's types and functions.  [c_hash] is the hash that turns the text of
    a type into its identifier (type_id_calculator.rs 9-15), [c_identity] the
    hash of a record's name (record_hash_function.rs 165-174), [c_format] the
    text of a type in debug output (type_formatter.rs). *)
Record config : Type := Config {
  list_empty : string;
  list_concatenate : string;
  list_equal : string;
  list_maybe_equal : string;
  list_prepend : string;
  list_deconstruct : string;
  list_lazy : string;
  list_first : string;
  list_rest : string;
  list_type : string;
  list_first_rest : string;
  list_size : string;
  list_debug : string;
  map_context_function : string;
  map_context : string;
  map_delete : string;
  map_empty : string;
  map_empty_type : string;
  map_equal : string;
  map_maybe_equal : string;
  map_get : string;
  map_type : string;
  map_merge : string;
  map_set : string;
  map_size : string;
  map_debug : string;
  hash_combine : string;
  hash_number : string;
  hash_string : string;
  hash_list : string;
  hash_map : string;
  iterator_type : string;
  iterate_map : string;
  iterator_key : string;
  iterator_value : string;
  iterator_rest : string;
  number_debug : string;
  string_equal : string;
  c_hash : string -> string;
  c_identity : string -> Z;
  c_format : ty -> string
}.

(** transformation/record_type_information.rs *)
Definition record_equal_name (r : string) : string := r ++ ".$equal".
Definition record_hash_name (r : string) : string := r ++ ".$hash".

(** error_type.rs 1, type_information.rs 13-14, runtime_function_declaration.rs 3-5 *)
Definition error_record : string := "hir:error".
Definition information_default : string := "hir:type_information:default".
Definition information_record : string := "hir:type_information:record".
Definition debug_function : string := "__debug".
Definition race_function : string := "__race".
Definition spawn_function : string := "__spawn".

Definition any_function : ty := TFunction [TAny; TAny] TBoolean.
Definition any_thunk : ty := TFunction [] TAny.

Definition hcall (f : string) (a : list ty) (r : ty) (es : list hexpr) : hexpr :=
  HCall (Some (TFunction a r)) (HVariable f) es.

(** [iter().position(|field| field.name() == name).unwrap()] *)
Fixpoint field_index (fs : list (string * ty)) (x : string) : res nat :=
  match fs with
  | [] => Panic
  | f :: fs' => if String.eqb x (fst f) then Ok 0 else rmap S (field_index fs' x)
  end.

(** [format!("{LIST_NAME}_{index}")] (list_comprehension.rs 94-96): the decimal
    digits of the index *)
Definition digit (n : nat) : string :=
  match n with
  | 0 => "0" | 1 => "1" | 2 => "2" | 3 => "3" | 4 => "4"
  | 5 => "5" | 6 => "6" | 7 => "7" | 8 => "8" | _ => "9"
  end.

Fixpoint decimal (fuel n : nat) : string :=
  match fuel with
  | O => ""
  | S fuel =>
      let q := Nat.div n 10 in
      match q with
      | O => digit n
      | _ => decimal fuel q ++ digit (Nat.modulo n 10)
      end
  end.

Definition iteratee_name (i : nat) : string := "$list_" ++ decimal (S i) i.

Section Compile.
  (** the fuel of the canonicalizer, the types, the records, the configuration *)
  Variable n : nat.
  Variable E : tenv.
  Variable R : renv.
  Variable C : config.

  (** ** Types *)

  (** type_id_calculator.rs 9-15 [calculate] *)
  Definition type_id (t : ty) : res string := rmap (c_hash C) (type_id_string n E t).

  (** type_.rs 9-25 [compile] and 48-66 [compile_function], [compile_record] on
      canonical types.  The code canonicalizes the components of a function type
      again, which changes nothing. *)
  Fixpoint lower (t : ty) : res mtype :=
    match t with
    | TBoolean => Ok Mir.TBoolean
    | TError => Ok (Mir.TRecord error_record)
    | TFunction a r => bind (mapM lower a) (fun a' => bind (lower r) (fun r' => Ok (Mir.TFunction a' r')))
    | TList _ => Ok (Mir.TRecord (list_type C))
    | TMap _ _ => Ok (Mir.TRecord (map_type C))
    | TNone => Ok Mir.TNone
    | TNumber => Ok Mir.TNumber
    | TRecord r _ => Ok (Mir.TRecord r)
    | TString => Ok TByteString
    | TAny | TUnion _ _ => Ok TVariant
    | TReference _ => Panic
    end.

  Definition compile_type (t : ty) : res mtype := bind (canonicalize n E t) lower.

  (** type_.rs 48-62 followed by [into_function] *)
  Definition compile_signature (t : ty) : res (list mtype * mtype) :=
    bind (compile_type t) (fun m =>
    match m with Mir.TFunction a r => Ok (a, r) | _ => reject "FunctionExpected" end).

  (** [type_::compile(..)?.into_record().unwrap()] *)
  Definition compile_record_type (t : ty) : res string :=
    bind (compile_type t) (fun m => match m with Mir.TRecord r => Ok r | _ => Panic end).

  (** type_.rs 68-142: the records that carry functions, lists and maps in
      variants.  [None] for any other type. *)
  Definition concrete_name (t : ty) : res (option string) :=
    match t with
    | TFunction _ _ => bind (type_id t) (fun i => Ok (Some ("hir:function:" ++ i)))
    | TList e => bind (type_id e) (fun i => Ok (Some ("hir:list:" ++ i)))
    | TMap k v =>
        bind (type_id k) (fun i => bind (type_id v) (fun j => Ok (Some ("hir:map:" ++ i ++ ":" ++ j))))
    | _ => Ok None
    end.

  (** type_.rs 31-46 [compile_concrete] *)
  Definition compile_concrete (t : ty) : res mtype :=
    bind (canonicalize n E t) (fun c =>
    match c with
    | TAny | TReference _ | TUnion _ _ => Panic
    | _ =>
        bind (concrete_name c) (fun o =>
        match o with Some r => Ok (Mir.TRecord r) | None => lower c end)
    end).

  (** concrete_type.rs 4-37 [compile] *)
  Definition concrete_value (e : expr) (t : ty) : res expr :=
    bind (canonicalize n E t) (fun c =>
    match c with
    | TAny | TReference _ | TUnion _ _ => Panic
    | _ =>
        bind (concrete_name c) (fun o =>
        match o with Some r => Ok (Op (ORecord r) [e]) | None => Ok e end)
    end).

  (** ** Transformations of HIR *)

  (** transformation/collection_type.rs 13-35 *)
  Definition list_reference : ty := TReference (list_type C).
  Definition map_reference : ty := TReference (map_type C).
  Definition context_reference : ty := TReference (map_context C).

  (** downcast.rs 12-48 *)
  Definition downcast_code (from to : ty) (e : hexpr) : res hexpr :=
    bind (canonicalize n E from) (fun from =>
    if negb (match from with TAny | TUnion _ _ => true | _ => false end) then reject "VariantExpected"
    else
      bind (subsumes n E to from) (fun b =>
      if negb b then reject "TypesNotMatched"
      else
        bind (equal_types n E from to) (fun same =>
        Ok (if same then e
            else HIfType "$value" e [(to, HVariable "$value")] None)))).

  (** transformation/boolean_operation.rs *)
  Definition boolean_operation (o : hbool) (l r : hexpr) : hexpr :=
    match o with
    | HAnd => HIf l r (HBoolean false)
    | HOr => HIf l (HBoolean true) r
    end.

  (** transformation/not_equal_operation.rs *)
  Definition not_equal (t : option ty) (l r : hexpr) : hexpr :=
    HIf (HBinary (BinEquality t HEqual) l r) (HBoolean false) (HBoolean true).

  (** transformation/map_context.rs 11-19 and map_context/expression.rs *)
  Definition context_name (t : ty) : res string := rmap (append "hir:map:context:") (type_id t).
  Definition map_context_call (t : ty) : res hexpr :=
    bind (context_name t) (fun f => Ok (hcall f [] context_reference [])).

  (** transformation/equal_operation/function.rs, hash_calculation/function.rs *)
  Definition equal_name (t : ty) : res string := rmap (append "hir:equal:") (type_id t).
  Definition hash_name (t : ty) : res string := rmap (append "hir:hash:") (type_id t).

  (** The types of [ts] other than [t] (equal_operation/operation.rs 180-195) *)
  Fixpoint other_types (ts : list ty) (t : ty) : res (list ty) :=
    match ts with
    | [] => Ok []
    | u :: us =>
        bind (equal_types n E u t) (fun same =>
        bind (other_types us t) (fun r => Ok (if same then r else u :: r)))
    end.

  (** transformation/equal_operation/operation.rs 36-222 [transform_canonical] *)
  Fixpoint equal_code (k : nat) (t : ty) (l r : hexpr) {struct k} : res hexpr :=
    match k with
    | O => OutOfFuel
    | S k =>
        match t with
        | TBoolean => Ok (HIf l r (HIf r (HBoolean false) (HBoolean true)))
        | TList e =>
            bind (equal_name e) (fun f =>
            Ok (hcall (list_equal C) [any_function; list_reference; list_reference] TBoolean
                  [HVariable f; l; r]))
        | TMap _ _ =>
            bind (map_context_call t) (fun c =>
            Ok (hcall (map_equal C) [context_reference; map_reference; map_reference] TBoolean [c; l; r]))
        | TNone => Ok (HBoolean true)
        | TNumber | TString => Ok (HBinary (BinEquality (Some t) HEqual) l r)
        | TRecord name _ =>
            bind (comparable n E R t) (fun b =>
            if b then Ok (hcall (record_equal_name name) [t; t] TBoolean [l; r])
            else reject "InvalidRecordEqualOperation")
        | TUnion _ _ =>
            bind (union_members n E t) (fun ms =>
            bind (mapM (fun m =>
                    bind (equal_code k m (HVariable "$lhs") (HVariable "$rhs")) (fun e =>
                    bind (other_types ms m) (fun others =>
                    match create_union others with
                    | None => Panic
                    | Some u =>
                        Ok (m, HIfType "$rhs" r [(m, e)] (Some (Some u, HBoolean false)))
                    end))) ms) (fun bs => Ok (HIfType "$lhs" l bs None)))
        | TReference x => bind (resolve E x) (fun u => equal_code k u l r)
        | TAny | TError | TFunction _ _ => reject "TypeNotComparable"
        end
    end.

  (** transformation/equal_operation/operation.rs 20-34 [transform] *)
  Definition equal_operation (k : nat) (t : ty) (l r : hexpr) : res hexpr :=
    bind (canonicalize n E t) (fun c => equal_code k c l r).

  (** transformation/hash_calculation/expression.rs 20-143 [transform].  The
      numbers are the bit patterns of 1.0, 2.0 and 0.0. *)
  Definition true_hash : Z := 4607182418800017408%Z.
  Definition false_hash : Z := 4611686018427387904%Z.

  Fixpoint hash_calculation (k : nat) (v : hexpr) (t : ty) {struct k} : res hexpr :=
    match k with
    | O => OutOfFuel
    | S k =>
        match t with
        | TBoolean => Ok (HIf v (HNumber true_hash) (HNumber false_hash))
        | TList e =>
            bind (hash_name e) (fun f =>
            Ok (hcall (hash_list C) [TFunction [TAny] TNumber; list_reference] TNumber [HVariable f; v]))
        | TMap _ _ =>
            bind (map_context_call t) (fun c =>
            Ok (hcall (hash_map C) [context_reference; map_reference] TNumber [c; v]))
        | TNone => Ok (HNumber 0)
        | TNumber => Ok (hcall (hash_number C) [t] TNumber [v])
        | TRecord name _ =>
            bind (comparable n E R t) (fun b =>
            if b then Ok (hcall (record_hash_name name) [t] TNumber [v])
            else reject "InvalidRecordEqualOperation")
        | TString => Ok (hcall (hash_string C) [t] TNumber [v])
        | TUnion _ _ =>
            bind (union_members n E t) (fun ms =>
            bind (mapM (fun m => bind (hash_calculation k (HVariable "$x") m) (fun e => Ok (m, e))) ms)
              (fun bs => Ok (HIfType "$x" v bs None)))
        | TReference x => bind (resolve E x) (hash_calculation k v)
        | TAny | TError | TFunction _ _ => reject "TypeNotComparable"
        end
    end.

  (** transformation/if_list.rs 11-120 *)
  Definition if_list (t : option ty) (l : hexpr) (first rest : string) (a b : hexpr) : res hexpr :=
    bind (annotated t) (fun t =>
    let fr := TReference (list_first_rest C) in
    let first_call := hcall (list_first C) [fr] any_thunk [HVariable "$firstRest"] in
    bind (equal_types n E t TAny) (fun same =>
    bind (if same then Ok first_call
          else
            bind (downcast_code TAny t (HCall (Some any_thunk) (HVariable first) [])) (fun d =>
            Ok (HLet (Some first) (Some any_thunk) first_call (HLambda [] t d)))) (fun bound =>
    Ok (HIfType "$firstRest"
          (hcall (list_deconstruct C) [list_reference] (TUnion fr TNone) [l])
          [(fr,
            HLet (Some first) (Some (TFunction [] t)) bound
              (HLet (Some rest) (Some list_reference)
                 (hcall (list_rest C) [fr] list_reference [HVariable "$firstRest"]) a));
           (TNone, b)]
          None)))).

  (** transformation/if_map.rs 9-76 *)
  Definition if_map (kt vt : option ty) (x : string) (m k a b : hexpr) : res hexpr :=
    bind (annotated kt) (fun kt =>
    bind (annotated vt) (fun vt =>
    bind (map_context_call (TMap kt vt)) (fun ctx =>
    bind (downcast_code TAny vt (HVariable x)) (fun d =>
    Ok (HIfType x
          (hcall (map_get C) [context_reference; map_reference; TAny] TAny [ctx; m; HCoerce kt TAny k])
          [(TReference (map_empty_type C), b)]
          (Some (Some TAny, HLet (Some x) (Some vt) d a))))))).

  (** transformation/list_literal.rs 13-105 [transform_list] *)
  Fixpoint list_literal (t : ty) (es : list element) : hexpr :=
    match es with
    | [] => hcall (list_empty C) [] list_reference []
    | [Multiple e] =>
        hcall (list_lazy C) [TFunction [] list_reference] list_reference [HThunk (Some list_reference) e]
    | Multiple e :: es' =>
        hcall (list_concatenate C) [TFunction [] list_reference; list_reference] list_reference
          [HThunk (Some list_reference) e; list_literal t es']
    | Single e :: es' =>
        hcall (list_prepend C) [any_thunk; list_reference] list_reference
          [HThunk (Some TAny) (HCoerce t TAny e); list_literal t es']
    end.

  (** transformation/map_literal.rs 39-131 [transform_map], on the elements in
      reverse: the code recurs on all elements but the last. *)
  Fixpoint map_entries (kt vt : ty) (es : list map_element) : hexpr :=
    match es with
    | [] => hcall (map_empty C) [] map_reference []
    | [Spread e] => e
    | Entry k v :: es' =>
        hcall (map_set C) [context_reference; map_reference; TAny; TAny] map_reference
          [HVariable "$ctx"; map_entries kt vt es'; HCoerce kt TAny k; HCoerce vt TAny v]
    | Spread e :: es' =>
        hcall (map_merge C) [context_reference; map_reference; map_reference] map_reference
          [HVariable "$ctx"; e; map_entries kt vt es']
    end.

  (** transformation/map_literal.rs 11-37 [transform] *)
  Definition map_literal (kt vt : ty) (es : list map_element) : res hexpr :=
    bind (map_context_call (TMap kt vt)) (fun ctx =>
    Ok (HLet (Some "$ctx") (Some context_reference) ctx (map_entries kt vt (rev es)))).

  (** ** Expressions *)

  (** type_information.rs 34-47 [compile_function] *)
  Definition information_function (e : expr) (i : nat) : expr :=
    Op (OField information_record i)
      [Op (OCall [] (Mir.TRecord information_record)) [Op OTypeInfo [e]]].

  (** type_information/debug.rs 12-21, equal.rs 12-24 [compile_call] *)
  Definition debug_call (e : expr) : expr :=
    Op (OCall [TVariant] TByteString) [information_function e 0; e].
  Definition equal_call (l r : expr) : expr :=
    Op (OCall [TVariant; TVariant] TVariant) [information_function l 1; l; r].

  (** error_type.rs 10-36 *)
  Definition make_error (e : expr) : expr :=
    Let "$source" TVariant e
      (Case (Var "$source")
         [Alt [Mir.TRecord error_record] "$source" (Var "$source")]
         (Some ("$source", Op (ORecord error_record) [Var "$source"]))).
  Definition error_source (e : expr) : expr := Op (OField error_record 0) [e].

  (** expression.rs 290-348 [compile_alternative] and
      [compile_generic_type_alternative], on a compiled branch *)
  Definition compile_alternative (x : string) (t : ty) (e : expr) : res Mir.alt :=
    bind (canonicalize n E t) (fun t =>
    bind (concrete_name t) (fun o =>
    match o with
    | Some r =>
        bind (compile_type t) (fun m =>
        Ok (Alt [Mir.TRecord r] x (Let x m (Op (OField r 0) [Var x]) e)))
    | None =>
        bind (union_members n E t) (fun ms =>
        bind (mapM compile_concrete ms) (fun ts => Ok (Alt ts x e)))
    end)).

  (** expression.rs 464-504 [compile_record_fields]: the lets around the record.
      The record takes the variables of its fields in the order of the type. *)
  Fixpoint field_lets (fts : list (string * ty)) (fs : list (string * expr)) (e : expr) : res expr :=
    match fs with
    | [] => Ok e
    | f :: fs' =>
        bind (match lookup fts (fst f) with
              | Some t => compile_type t
              | None => reject "RecordFieldUnknown"
              end) (fun t =>
        bind (field_lets fts fs' e) (fun e' => Ok (Let ("$" ++ fst f) t (snd f) e')))
    end.

  Definition list_mtype : mtype := Mir.TRecord (list_type C).
  Definition map_mtype : mtype := Mir.TRecord (map_type C).

  (** list_comprehension.rs 34-81 [compile_lists] and built_in_call.rs 289-345
      [compile_map_iteration]: a lazy list computed by a local recursive function *)
  Definition lazy_loop (d : fdef) (ts : list mtype) (es : list expr) : expr :=
    Op (OCall [Mir.TFunction [] list_mtype] list_mtype)
      [Var (list_lazy C);
       LetRec
         (Fdef "$loop" [] [] list_mtype
            (LetRec d (Op (OCall ts list_mtype) (Var "$loop" :: es))) false)
         (Var "$loop")].

  (** list_comprehension.rs 113-168: the body of the loop *)
  Definition loop_rest (t : ty) (its : list ty) (names : list string) : hexpr :=
    HCall (Some (TFunction its (TList t))) (HVariable "$loop") (map HVariable names).

  Fixpoint loop_lists (t : ty) (vars : list (string * string * ty)) (body : hexpr) : hexpr :=
    match vars with
    | [] => body
    | (x, l, et) :: vars' =>
        HIfList (Some et) (HVariable l) x l (loop_lists t vars' body) (HList t [])
    end.

  (** list_comprehension.rs 97-111: [flatten] drops what is not a list *)
  Fixpoint iteratee_elements (its : list (option ty * hexpr)) : res (list ty) :=
    match its with
    | [] => Ok []
    | it :: its' =>
        bind (annotated (fst it)) (fun t =>
        bind (canonicalize n E t) (fun c =>
        bind (iteratee_elements its') (fun r =>
        Ok (match c with TList e => e :: r | _ => r end))))
    end.

  Definition loop_body (t : ty) (el : element) (b : comp_branch) : res hexpr :=
    let names := map iteratee_name (seq 0 (List.length (b_iteratees b))) in
    bind (iteratee_elements (b_iteratees b)) (fun ets =>
    let rest := loop_rest t (map TList ets) names in
    let list := HList t [el; Multiple rest] in
    let body := match b_condition b with Some c => HIf c list rest | None => list end in
    Ok (loop_lists t (combine (combine (b_names b) names) ets) body)).

  (** built_in_call.rs 347-454 [compile_map_iteration_function_definition]: the
      body of the loop *)
  Definition iteration_body (f : string) (t : ty) : res hexpr :=
    let it := TReference (iterator_type C) in
    let it_or_none := TUnion it TNone in
    bind (downcast_code TAny t (hcall f [it] TAny [HVariable "$iterator"])) (fun d =>
    Ok (HIfType "$iterator" (HVariable "$iterator")
          [(it,
            HList t
              [Single d;
               Multiple
                 (HCall (Some (TFunction [it_or_none] (TList t))) (HVariable "$loop")
                    [hcall (iterator_rest C) [it] it_or_none [HVariable "$iterator"]])])]
          (Some (Some TNone, HList t [])))).

  Section Expression.
    (** [expression::compile] *)
    Variable compile : hexpr -> res expr.

    (** built_in_call.rs 289-345 *)
    Definition map_iteration (f : string) (m : hexpr) (t : ty) : res expr :=
      bind (iteration_body f t) (fun body =>
      bind (compile body) (fun body =>
      bind (compile m) (fun m =>
      Ok (lazy_loop (Fdef "$loop" [] [("$iterator", TVariant)] list_mtype body false) [TVariant]
            [Op (OCall [map_mtype] TVariant) [Var (iterate_map C); m]])))).

    (** built_in_call.rs 18-287.  [arguments()[i]] panics when there are too few. *)
    Definition compile_built_in (f : builtin) (ft : option ty) (args : list hexpr) : res expr :=
      bind (annotated ft) (fun ft =>
      bind (canonical_function n E ft) (fun ar =>
      bind (mapM compile args) (fun es =>
      let arg {A} (i : nat) (l : list A) : res A :=
        match nth_error l i with Some a => Ok a | None => Panic end in
      match f with
      | BDebug =>
          bind (arg 0 es) (fun e =>
          Ok (Op (OCall [TByteString] Mir.TNone) [Var debug_function; debug_call e]))
      | BDelete =>
          bind (canonical_map n E (snd ar)) (fun kv =>
          bind (map_context_call (TMap (fst kv) (snd kv))) (fun ctx =>
          bind (compile ctx) (fun ctx =>
          bind (arg 0 es) (fun m =>
          bind (arg 1 (fst ar)) (fun kt =>
          bind (arg 1 args) (fun k =>
          bind (compile (HCoerce kt TAny k)) (fun k =>
          Ok (Op (OCall [Mir.TRecord (map_context C); map_mtype; TVariant] map_mtype)
                [Var (map_delete C); ctx; m; k]))))))))
      | BError => bind (arg 0 es) (fun e => Ok (make_error e))
      | BKeys =>
          bind (arg 0 (fst ar)) (fun t =>
          bind (arg 0 args) (fun m =>
          bind (canonical_map n E t) (fun kv => map_iteration (iterator_key C) m (fst kv))))
      | BRace =>
          bind (canonical_list n E (snd ar)) (fun et =>
          bind (arg 0 args) (fun a =>
          bind (compile
                  (HComprehension (TList TAny)
                     (HCall (Some (TFunction [] (TList et))) (HVariable "$element") [])
                     [CompBranch ["$element"] [(Some (TList (TList et)), a)] None])) (fun l =>
          bind (compile_signature (TFunction (fst ar) (snd ar))) (fun s =>
          Ok (Op (OCall (fst s) (snd s)) [Var race_function; l])))))
      | BReflectDebug => bind (arg 0 es) (fun e => Ok (debug_call e))
      | BReflectEqual => bind (arg 0 es) (fun a => bind (arg 1 es) (fun b => Ok (equal_call a b)))
      | BSize =>
          bind (compile_signature (TFunction (fst ar) (snd ar))) (fun s =>
          bind (arg 0 (fst ar)) (fun t =>
          bind (match t with TList _ => Ok (list_size C) | TMap _ _ => Ok (map_size C) | _ => Panic end) (fun g =>
          Ok (Op (OCall (fst s) (snd s)) (Var g :: es)))))
      | BSource => bind (arg 0 es) (fun e => Ok (error_source e))
      | BSpawn =>
          bind (arg 0 (fst ar)) (fun ft =>
          bind (canonical_function n E ft) (fun ar =>
          let r := snd ar in
          bind (arg 0 args) (fun a =>
          bind (compile (HCoerce r TAny (HCall (Some (TFunction (fst ar) r)) a []))) (fun body =>
          bind (compile_type r) (fun rm =>
          bind (downcast_code TAny r (HCall (Some any_thunk) (HVariable "$any_thunk") [])) (fun d =>
          bind (compile d) (fun d =>
          let tm := Mir.TFunction [] TVariant in
          Ok (Let "$any_thunk" tm
                (Op (OCall [tm] tm)
                   [Var spawn_function;
                    LetRec (Fdef "$any_thunk" [] [] TVariant body true)
                      (Op (OSync tm) [Var "$any_thunk"])])
                (LetRec (Fdef "$thunk" [] [] rm d false) (Var "$thunk"))))))))))
      | BValues =>
          bind (arg 0 (fst ar)) (fun t =>
          bind (arg 0 args) (fun m =>
          bind (canonical_map n E t) (fun kv => map_iteration (iterator_value C) m (snd kv))))
      end))).

    (** list_comprehension.rs 8-81 *)
    Definition comprehension (t : ty) (el : hexpr) (bs : list comp_branch) : res expr :=
      match bs with
      | [] => Panic
      | b :: bs' =>
          let el := match bs' with [] => Single el | _ => Multiple (HComprehension t el bs') end in
          bind (loop_body t el b) (fun body =>
          bind (compile body) (fun body =>
          bind (mapM (fun it => compile (snd it)) (b_iteratees b)) (fun its =>
          let names := map iteratee_name (seq 0 (List.length (b_iteratees b))) in
          Ok (lazy_loop
                (Fdef "$loop" [] (map (fun x => (x, list_mtype)) names) list_mtype body false)
                (map (fun _ => list_mtype) names) its))))
      end.

    Definition compile_branch (x : string) (b : ty * hexpr) : res Mir.alt :=
      bind (compile (snd b)) (compile_alternative x (fst b)).

    (** expression.rs 350-462 [compile_operation].  The first argument is the
        fuel of the equality transformation. *)
    Definition compile_binary (k : nat) (o : binop) (l r : hexpr) : res expr :=
      let both (f : expr -> expr -> expr) := bind (compile l) (fun l => bind (compile r) (fun r => Ok (f l r))) in
      match o with
      | BinAddition t =>
          bind (annotated t) (fun t =>
          match t with
          | TNumber => both (fun l r => Op (OArith Add) [l; r])
          | TString => both (fun l r => Op OConcat [l; r])
          | _ => reject "InvalidAdditionOperand"
          end)
      | BinArithmetic o =>
          both (fun l r =>
            Op (OArith (match o with HSubtract => Subtract | HMultiply => Multiply | HDivide => Divide end)) [l; r])
      | BinBoolean o => compile (boolean_operation o l r)
      | BinEquality t HEqual =>
          bind (annotated t) (fun t =>
          bind (canonicalize n E t) (fun c =>
          match c with
          | TNumber => both (fun l r => Op (OCompare Equal) [l; r])
          | TString =>
              both (fun l r =>
                Op (OCall [TByteString; TByteString] Mir.TBoolean) [Var (string_equal C); l; r])
          | _ => bind (equal_operation k t l r) compile
          end))
      | BinEquality t HNotEqual => compile (not_equal t l r)
      | BinOrder o =>
          both (fun l r =>
            Op (OCompare (match o with
                          | HLess => LessThan | HLessEqual => LessThanOrEqual
                          | HGreater => GreaterThan | HGreaterEqual => GreaterThanOrEqual
                          end)) [l; r])
      end.

    (** expression.rs 66-109: the else branch is an alternative unless its type is [any] *)
    Definition compile_else (x : string) (els : option (option ty * hexpr))
      : res (list Mir.alt * option (string * expr)) :=
      match els with
      | None => Ok ([], None)
      | Some (t, e) =>
          match t with
          | None => Panic
          | Some t =>
              bind (equal_types n E t TAny) (fun any =>
              if any then bind (compile e) (fun e => Ok ([], Some (x, e)))
              else bind (compile_branch x (t, e)) (fun a => Ok ([a], None)))
          end
      end.

    (** expression.rs 214-258: the type coercion *)
    Definition compile_coercion (from to : ty) (e : hexpr) : res expr :=
      bind (canonicalize n E from) (fun from =>
      bind (canonicalize n E to) (fun to =>
      bind (compile e) (fun e =>
      let wrap :=
        bind (concrete_name from) (fun o =>
        match o with
        | Some r => bind (concrete_value e from) (fun v => Ok (Op (OVariant (Mir.TRecord r)) [v]))
        | None => Panic
        end) in
      match from with
      | TBoolean | TError | TNone | TNumber | TRecord _ _ | TString =>
          bind (compile_type from) (fun t => Ok (Op (OVariant t) [e]))
      | TFunction _ _ => wrap
      | TList _ => match to with TList _ => Ok e | _ => wrap end
      | TMap _ _ => match to with TMap _ _ => Ok e | _ => wrap end
      | TAny | TUnion _ _ => Ok e
      | TReference _ => Panic
      end))).
  End Expression.

  (** expression.rs 21-261 [compile].  The recursion is not structural, because
      transformed expressions are compiled again: it is bounded by fuel. *)
  Fixpoint compile (k : nat) (e : hexpr) {struct k} : res expr :=
    match k with
    | O => OutOfFuel
    | S k =>
        match e with
        | HBoolean b => Ok (Lit (LBool b))
        | HBuiltIn _ => reject "BuiltInFunctionNotCalled"
        | HCall ft (HBuiltIn f) args => compile_built_in (compile k) f ft args
        | HCall ft f args =>
            bind (annotated ft) (fun t =>
            bind (compile_signature t) (fun s =>
            bind (compile k f) (fun f =>
            bind (mapM (compile k) args) (fun es => Ok (Op (OCall (fst s) (snd s)) (f :: es))))))
        | HIf c a b =>
            bind (compile k c) (fun c => bind (compile k a) (fun a => bind (compile k b) (fun b => Ok (If c a b))))
        | HIfList t l first rest a b => bind (if_list t l first rest a b) (compile k)
        | HIfMap kt vt x m key a b => bind (if_map kt vt x m key a b) (compile k)
        | HIfType x a bs els =>
            bind (compile k a) (fun a =>
            bind (mapM (compile_branch (compile k) x) bs) (fun alts =>
            bind (compile_else (compile k) x els) (fun de => Ok (Case a (alts ++ fst de) (snd de)))))
        | HLambda args r body =>
            bind (mapM (fun a => bind (compile_type (snd a)) (fun t => Ok (fst a, t))) args) (fun args =>
            bind (compile_type r) (fun r =>
            bind (compile k body) (fun body =>
            Ok (LetRec (Fdef "$closure" [] args r body false) (Var "$closure")))))
        | HLet x t b e =>
            bind (annotated t) (fun t =>
            bind (compile_type t) (fun t =>
            bind (compile k b) (fun b =>
            bind (compile k e) (fun e => Ok (Let (match x with Some x => x | None => "" end) t b e)))))
        | HList t es => compile k (list_literal t es)
        | HComprehension t el bs => comprehension (compile k) t el bs
        | HMap kt vt es => bind (map_literal kt vt es) (compile k)
        | HNone => Ok (Lit LNone)
        | HNumber z => Ok (Lit (LNumber z))
        | HBinary o l r => compile_binary (compile k) k o l r
        | HNot e =>
            bind (compile k e) (fun e => Ok (If e (Lit (LBool false)) (Lit (LBool true))))
        | HTry t e =>
            let err := Mir.TRecord error_record in
            bind (compile k e) (fun e =>
            bind (annotated t) (fun t =>
            bind (compile_alternative "$success" t (Var "$success")) (fun a =>
            Ok (Case (Try e "$error" err (Op (OVariant err) [Var "$error"])) [a] None))))
        | HRecord t fs =>
            bind (record_fields n E R t) (fun fts =>
            bind (compile_record_type t) (fun r =>
            bind (mapM (fun f => bind (compile k (snd f)) (fun e => Ok (fst f, e))) fs) (fun es =>
            bind (mapM (fun ft => if mem (fst ft) (map fst fs) then Ok (Var ("$" ++ fst ft)) else Panic) fts) (fun vs =>
            field_lets fts es (Op (ORecord r) vs)))))
        | HField t e x =>
            match t with
            | None => Panic
            | Some t =>
                bind (compile_record_type t) (fun r =>
                bind (record_fields n E R t) (fun fts =>
                bind (field_index fts x) (fun i =>
                bind (compile k e) (fun e => Ok (Op (OField r i) [e])))))
            end
        | HUpdate t e fs =>
            bind (compile_record_type t) (fun r =>
            bind (compile k e) (fun e =>
            bind (mapM (fun f =>
                    bind (record_fields n E R t) (fun fts =>
                    bind (field_index fts (fst f)) (fun i =>
                    bind (compile k (snd f)) (fun e => Ok (i, e))))) fs) (fun fs =>
            Ok (Op (OUpdate r (map fst fs)) (e :: map snd fs)))))
        | HString s => Ok (Lit (LBytes s))
        | HThunk t e =>
            bind (annotated t) (fun t =>
            bind (compile_type t) (fun t =>
            bind (compile k e) (fun e =>
            Ok (LetRec (Fdef "$thunk" [] [] t e true) (Var "$thunk")))))
        | HCoerce from to e => compile_coercion (compile k) from to e
        | HVariable x => Ok (Var x)
        end
    end.

  (** ** Generated functions *)

  (** transformation/record_equal_function.rs 83-136 *)
  Fixpoint equal_fields (r : ty) (fts : list (string * ty)) : hexpr :=
    match fts with
    | [] => HBoolean true
    | (x, t) :: fts' =>
        HIf (HBinary (BinEquality (Some t) HEqual)
               (HField (Some r) (HVariable "$lhs") x) (HField (Some r) (HVariable "$rhs") x))
          (equal_fields r fts') (HBoolean false)
    end.

  Definition record_equal_definition (name original : string) (fts : list (string * ty)) : string * lambda :=
    let r := TRecord name original in
    (record_equal_name name, Lambda [("$lhs", r); ("$rhs", r)] TBoolean (equal_fields r fts)).

  (** transformation/record_hash_function.rs 98-157: the fold starts with the
      last field *)
  Fixpoint hash_fields (k : nat) (r : ty) (fts : list (string * ty)) (h : hexpr) : res hexpr :=
    match fts with
    | [] => Ok h
    | (x, t) :: fts' =>
        bind (hash_fields k r fts' h) (fun h =>
        bind (hash_calculation k (HField (Some r) (HVariable "$record") x) t) (fun e =>
        Ok (hcall (hash_combine C) [TNumber; TNumber] TNumber [h; e])))
    end.

  Definition record_hash_definition (k : nat) (name original : string) (fts : list (string * ty)) : res (string * lambda) :=
    let r := TRecord name original in
    bind (hash_fields k r fts (HNumber (c_identity C name))) (fun e =>
    Ok (record_hash_name name, Lambda [("$record", r)] TNumber e)).

  (** transformation/equal_operation/module.rs 29-79; [t] is canonical *)
  Definition equal_definition (k : nat) (t : ty) : res (string * lambda) :=
    bind (equal_name t) (fun name =>
    bind (equal_operation k t (HVariable "$lhs") (HVariable "$rhs")) (fun e =>
    Ok (name,
        Lambda [("$lhs", TAny); ("$rhs", TAny)] TBoolean
          (HIfType "$lhs" (HVariable "$lhs")
             [(t, HIfType "$rhs" (HVariable "$rhs") [(t, e)] None)] None)))).

  (** transformation/hash_calculation/module.rs 33-72; [t] is canonical *)
  Definition hash_definition (k : nat) (t : ty) : res (string * lambda) :=
    bind (hash_name t) (fun name =>
    bind (hash_calculation k (HVariable "$x") t) (fun e =>
    Ok (name, Lambda [("$x", TAny)] TNumber (HIfType "$x" (HVariable "$x") [(t, e)] None)))).

  (** transformation/map_context/module.rs 40-137 *)
  Definition map_context_definition (kt vt : ty) : res (string * lambda) :=
    bind (context_name (TMap kt vt)) (fun name =>
    bind (equal_name kt) (fun ek =>
    bind (hash_name kt) (fun hk =>
    bind (comparable n E R vt) (fun b =>
    bind (if b then
            bind (equal_name vt) (fun ev => bind (hash_name vt) (fun hv => Ok [HVariable ev; HVariable hv]))
          else
            Ok [HLambda [("$value1", TAny); ("$value2", TAny)] TBoolean (HBoolean false);
                HLambda [("$value", TAny)] TNumber (HNumber 0)]) (fun vs =>
    let hash := TFunction [TAny] TNumber in
    Ok (name,
        Lambda [] context_reference
          (hcall (map_context_function C) [any_function; hash; any_function; hash] context_reference
             (HVariable ek :: HVariable hk :: vs)))))))).

  (** module.rs 120-150 [compile_function_definition]: a function without
      arguments is evaluated once *)
  Definition compile_definition (k : nat) (d : string * lambda) : res fdef :=
    bind (compile k (l_body (snd d))) (fun e =>
    bind (compile_type (l_result (snd d))) (fun r =>
    match l_arguments (snd d) with
    | [] => Ok (Fdef (fst d) [] [] r e true)
    | args =>
        bind (mapM (fun a => bind (compile_type (snd a)) (fun t => Ok (fst a, t))) args) (fun args =>
        Ok (Fdef (fst d) [] args r e false))
    end)).
End Compile.
