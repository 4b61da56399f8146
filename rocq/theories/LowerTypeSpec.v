(** What the lowering of a module to MIR relies on: the functions and records
    the compiler's own code mentions, and the names it keeps for itself. *)
From Coq Require Import String Ascii List ZArith Bool.
From Verif Require Import Base Mir HirType HirTypeSpec Hir HirSpec HirMir.
Import ListNotations.
Local Open Scope string_scope.

(** ** What compiled code mentions *)
Inductive need : Type :=
| NName (x : string)        (* a variable or a function *)
| NRecord (r : string).     (* a record type whose fields matter *)

Definition operation_needs (o : operation) : list need :=
  match o with
  | ORecord r | OField r _ | OUpdate r _ => [NRecord r]
  | _ => []
  end.

Fixpoint needs (e : expr) : list need :=
  match e with
  | Lit _ => []
  | Var x => [NName x]
  | Op o es => operation_needs o ++ flat_map needs es
  | If c t e => needs c ++ needs t ++ needs e
  | Case a alts de =>
      needs a ++ flat_map (fun al => needs (a_body al)) alts ++
      match de with Some (_, e) => needs e | None => [] end
  | Let _ _ b e => needs b ++ needs e
  | LetRec d e => needs (f_body d) ++ needs e
  | Try o _ _ e => needs o ++ needs e
  | CloneVars _ e | DropVars _ e => needs e
  end%list.

Section Names.
  Variable E : tenv.
  Variable R : renv.
  Variable C : config.

  (** A type whose aliases are known and whose records have names without
      closing parentheses (they would make the identifiers of types ambiguous) *)
  Definition proper (t : ty) : Prop := exists c, (exists n, canonicalize n E t = Ok c) /\ plain_names c.

  (** The representation of a proper type *)
  Definition lowers (t : ty) (m : mtype) : Prop := exists c, (exists n, canonicalize n E t = Ok c) /\ lower C c = Ok m /\ plain_names c.

  Let list_ := Mir.TRecord (list_type C).
  Let map_ := Mir.TRecord (map_type C).
  Let context_ := Mir.TRecord (map_context C).
  Let first_rest_ := Mir.TRecord (list_first_rest C).
  Let iterator_ := Mir.TRecord (iterator_type C).
  Let equal_ := Mir.TFunction [TVariant; TVariant] Mir.TBoolean.
  Let hash_ := Mir.TFunction [TVariant] Mir.TNumber.
  Let debug_ := Mir.TFunction [TVariant] TByteString.
  Let maybe_equal_ := Mir.TFunction [TVariant; TVariant] TVariant.
  Let information_ := Mir.TRecord information_record.

  (** [i] is the identifier of the type [t]. *)
  Definition identifier (t : ty) (i : string) : Prop := exists n, type_id n E C t = Ok i.

  (** The prelude's functions (packages/prelude/*.pen), the runtime's functions
      (runtime_function_declaration.rs) and the functions the compiler
      generates, with their types *)
  Inductive compiler_name : string -> mtype -> Prop :=
  | cn_list_empty : compiler_name (list_empty C) (Mir.TFunction [] list_)
  | cn_list_concatenate : compiler_name (list_concatenate C) (Mir.TFunction [Mir.TFunction [] list_; list_] list_)
  | cn_list_equal : compiler_name (list_equal C) (Mir.TFunction [equal_; list_; list_] Mir.TBoolean)
  | cn_list_prepend : compiler_name (list_prepend C) (Mir.TFunction [Mir.TFunction [] TVariant; list_] list_)
  | cn_list_deconstruct : compiler_name (list_deconstruct C) (Mir.TFunction [list_] TVariant)
  | cn_list_lazy : compiler_name (list_lazy C) (Mir.TFunction [Mir.TFunction [] list_] list_)
  | cn_list_first : compiler_name (list_first C) (Mir.TFunction [first_rest_] (Mir.TFunction [] TVariant))
  | cn_list_rest : compiler_name (list_rest C) (Mir.TFunction [first_rest_] list_)
  | cn_list_size : compiler_name (list_size C) (Mir.TFunction [list_] Mir.TNumber)
  | cn_map_context_function :
      compiler_name (map_context_function C) (Mir.TFunction [equal_; hash_; equal_; hash_] context_)
  | cn_map_delete : compiler_name (map_delete C) (Mir.TFunction [context_; map_; TVariant] map_)
  | cn_map_empty : compiler_name (map_empty C) (Mir.TFunction [] map_)
  | cn_map_equal : compiler_name (map_equal C) (Mir.TFunction [context_; map_; map_] Mir.TBoolean)
  | cn_map_get : compiler_name (map_get C) (Mir.TFunction [context_; map_; TVariant] TVariant)
  | cn_map_merge : compiler_name (map_merge C) (Mir.TFunction [context_; map_; map_] map_)
  | cn_map_set : compiler_name (map_set C) (Mir.TFunction [context_; map_; TVariant; TVariant] map_)
  | cn_map_size : compiler_name (map_size C) (Mir.TFunction [map_] Mir.TNumber)
  | cn_hash_combine : compiler_name (hash_combine C) (Mir.TFunction [Mir.TNumber; Mir.TNumber] Mir.TNumber)
  | cn_hash_number : compiler_name (hash_number C) (Mir.TFunction [Mir.TNumber] Mir.TNumber)
  | cn_hash_string : compiler_name (hash_string C) (Mir.TFunction [TByteString] Mir.TNumber)
  | cn_hash_list : compiler_name (hash_list C) (Mir.TFunction [hash_; list_] Mir.TNumber)
  | cn_hash_map : compiler_name (hash_map C) (Mir.TFunction [context_; map_] Mir.TNumber)
  | cn_iterate_map : compiler_name (iterate_map C) (Mir.TFunction [map_] TVariant)
  | cn_iterator_key : compiler_name (iterator_key C) (Mir.TFunction [iterator_] TVariant)
  | cn_iterator_value : compiler_name (iterator_value C) (Mir.TFunction [iterator_] TVariant)
  | cn_iterator_rest : compiler_name (iterator_rest C) (Mir.TFunction [iterator_] TVariant)
  | cn_string_equal : compiler_name (string_equal C) (Mir.TFunction [TByteString; TByteString] Mir.TBoolean)
  | cn_number_debug : compiler_name (number_debug C) (Mir.TFunction [Mir.TNumber] TByteString)
  | cn_list_debug : compiler_name (list_debug C) (Mir.TFunction [TByteString; list_; debug_] TByteString)
  | cn_map_debug : compiler_name (map_debug C) (Mir.TFunction [TByteString; TByteString; map_; debug_] TByteString)
  | cn_list_maybe_equal : compiler_name (list_maybe_equal C) (Mir.TFunction [maybe_equal_; list_; list_] TVariant)
  | cn_map_maybe_equal : compiler_name (map_maybe_equal C) (Mir.TFunction [maybe_equal_; map_; map_] TVariant)
  | cn_debug : compiler_name "__debug" (Mir.TFunction [TByteString] Mir.TNone)
  | cn_race : compiler_name "__race" (Mir.TFunction [list_] list_)
  | cn_spawn : compiler_name "__spawn" (Mir.TFunction [Mir.TFunction [] TVariant] (Mir.TFunction [] TVariant))
  | cn_information : compiler_name "hir:type_information:default" (Mir.TFunction [] information_)
  | cn_type_information : forall t i, identifier t i -> compiler_name ("hir:type_information:" ++ i) (Mir.TFunction [] information_)
  | cn_reflect_debug : forall t i, identifier t i -> compiler_name ("hir:reflect:debug:" ++ i) debug_
  | cn_reflect_equal : forall t i, identifier t i -> compiler_name ("hir:reflect:equal:" ++ i) maybe_equal_
  | cn_equal : forall t i, identifier t i -> compiler_name ("hir:equal:" ++ i) equal_
  | cn_hash : forall t i, identifier t i -> compiler_name ("hir:hash:" ++ i) hash_
  | cn_context : forall t i, identifier t i -> compiler_name ("hir:map:context:" ++ i) (Mir.TFunction [] context_)
  | cn_record_equal : forall r, lookup R r <> None ->
      compiler_name (r ++ ".$equal") (Mir.TFunction [Mir.TRecord r; Mir.TRecord r] Mir.TBoolean)
  | cn_record_hash : forall r, lookup R r <> None ->
      compiler_name (r ++ ".$hash") (Mir.TFunction [Mir.TRecord r] Mir.TNumber).

  (** Records of the program, of the runtime, and the carriers of functions,
      lists and maps in variants, with the types of their fields *)
  Inductive compiler_record : string -> list mtype -> Prop :=
  | cr_user : forall r fts ms, lookup R r = Some fts -> Forall2 (fun ft m => lowers (snd ft) m) fts ms ->
      compiler_record r ms
  | cr_error : compiler_record "hir:error" [TVariant]
  | cr_information :
      compiler_record "hir:type_information:record"
        [Mir.TFunction [TVariant] TByteString; Mir.TFunction [TVariant; TVariant] TVariant]
  | cr_function : forall a r i m, identifier (TFunction a r) i -> lowers (TFunction a r) m ->
      compiler_record ("hir:function:" ++ i) [m]
  | cr_list : forall e i, identifier e i -> compiler_record ("hir:list:" ++ i) [list_]
  | cr_map : forall k v i j, identifier k i -> identifier v j -> compiler_record ("hir:map:" ++ i ++ ":" ++ j) [map_].

  (** The module [M] and the variables in scope provide what the code [e]
      mentions of these. *)
  Definition provides (M : mmodule) (vars : list (string * mtype)) (e : expr) : Prop :=
    (forall x t, In (NName x) (needs e) -> compiler_name x t -> lookup vars x = Some t) /\
    (forall r ts, In (NRecord r) (needs e) -> compiler_record r ts -> lookup (m_types M) r = Some ts) /\
    m_fallback M = "hir:type_information:default" /\
    lookup vars "hir:type_information:default" = Some (Mir.TFunction [] information_).

  (** ** Names in programs *)

  (** The compiler's local variables start with a dollar sign or are empty. *)
  Definition user_name (x : string) : Prop := x <> "" /\ prefix "$" x = false.

  Definition free_name (x : string) : Prop := user_name x /\ forall t, ~ compiler_name x t.

  Record config_ok : Prop := ConfigOk {
    k_types : forall x, In x [list_type C; map_type C; map_context C; list_first_rest C; map_empty_type C; iterator_type C] ->
      (exists o, lookup E x = Some (TRecord x o)) /\ has_char ")"%char x = false;
    k_names : forall x t, compiler_name x t -> user_name x;
    k_locals : forall x t, In x ["hir:debug:element"; "hir:equal:element"] -> ~ compiler_name x t;
    k_fields : forall r fts, lookup R r = Some fts -> NoDup (map fst fts);
    k_records : forall r fts, lookup R r = Some fts -> has_char ")"%char r = false /\ forall x t, In (x, t) fts -> proper t
  }.

  (** The names an expression binds *)
  Definition bound (e : hexpr) : list string :=
    match e with
    | HIfList _ _ x y _ _ => [x; y]
    | HIfMap _ _ x _ _ _ _ => [x]
    | HIfType x _ _ _ => [x]
    | HLambda args _ _ => map fst args
    | HLet (Some x) _ _ _ => [x]
    | HComprehension _ _ bs => flat_map b_names bs
    | _ => []
    end.

  (** The types written in an expression itself, not in its parts *)
  Definition node_types (e : hexpr) : list ty :=
    match e with
    | HCall t _ _ | HIfList t _ _ _ _ _ | HLet _ t _ _ | HField t _ _ | HThunk t _ | HTry t _ => opt_types t
    | HBinary (BinAddition t) _ _ | HBinary (BinEquality t _) _ _ => opt_types t
    | HIfMap k v _ _ _ _ _ => opt_types k ++ opt_types v
    | HIfType _ _ bs els => map fst bs ++ match els with Some (t, _) => opt_types t | None => [] end
    | HCoerce from to _ => [from; to]
    | HLambda args r _ => map snd args ++ [r]
    | HList t _ | HRecord t _ | HUpdate t _ _ => [t]
    | HComprehension t _ bs => t :: flat_map (fun b => flat_map (fun it => opt_types (fst it)) (b_iteratees b)) bs
    | HMap k v _ => [k; v]
    | _ => []
    end%list.

  (** A program does not bind the compiler's names, no else branch of an
      [if x = m[k]] mentions [x], and no argument of [keys], [race] or [values]
      has a [?] outside of the functions it defines. *)
  Definition tame (e : hexpr) : Prop :=
    (forall x p, occurs p e -> In x (bound p) -> free_name x) /\
    (forall x, occurs (HVariable x) e -> user_name x) /\
    (forall kt vt x m k a b, occurs (HIfMap kt vt x m k a b) e -> ~ occurs (HVariable x) b) /\
    (forall p t, occurs p e -> In t (node_types p) -> proper t) /\
    (forall ft b args a t x, occurs (HCall ft (HBuiltIn b) args) e -> In b [BKeys; BRace; BValues] -> In a args ->
      ~ within None a None (HTry t x)).

  (** A union whose alternatives are all the same, possibly behind aliases.  Such
      a type is represented as that alternative. *)
  Inductive collapsed : ty -> Prop :=
  | collapsed_union : forall l r a, single a -> teq E (TUnion l r) a -> collapsed (TUnion l r)
  | collapsed_alias : forall x t, lookup E x = Some t -> collapsed t -> collapsed (TReference x).

  (** Every [?] is evaluated by a function that may return an error and
      something else. *)
  Definition tries_fit (c : option ty) (e : hexpr) : Prop :=
    forall c' t a, within c e c' (HTry t a) -> exists r, c' = Some r /\ sub E TError r /\ ~ teq E r TError.
End Names.
