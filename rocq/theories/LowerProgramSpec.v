(** What the compilation of a whole module relies on: a prelude, a program that
    leaves the compiler's names alone, and a compiled module that has every
    function and record its code mentions. *)
From Coq Require Import String Ascii List ZArith Bool.
From Verif Require Import Base Mir HirType HirTypeSpec HirTypeModule Hir HirSpec HirMir HirProgram LowerTypeSpec.
Import ListNotations.
Local Open Scope string_scope.

(** ** The prelude *)
Section Prelude.
  Variable C : config.

  Let list_ := Mir.TRecord (list_type C).
  Let map_ := Mir.TRecord (map_type C).
  Let context_ := Mir.TRecord (map_context C).
  Let first_rest_ := Mir.TRecord (list_first_rest C).
  Let iterator_ := Mir.TRecord (iterator_type C).
  Let equal_ := Mir.TFunction [TVariant; TVariant] Mir.TBoolean.
  Let hash_ := Mir.TFunction [TVariant] Mir.TNumber.
  Let debug_ := Mir.TFunction [TVariant] TByteString.
  Let maybe_equal_ := Mir.TFunction [TVariant; TVariant] TVariant.
  Let fn := Mir.TFunction.

  (** The functions of packages/prelude/*.pen that compiled code calls *)
  Definition prelude_functions : list (string * mtype) :=
    [(list_empty C, fn [] list_);
     (list_concatenate C, fn [fn [] list_; list_] list_);
     (list_equal C, fn [equal_; list_; list_] Mir.TBoolean);
     (list_prepend C, fn [fn [] TVariant; list_] list_);
     (list_deconstruct C, fn [list_] TVariant);
     (list_lazy C, fn [fn [] list_] list_);
     (list_first C, fn [first_rest_] (fn [] TVariant));
     (list_rest C, fn [first_rest_] list_);
     (list_size C, fn [list_] Mir.TNumber);
     (map_context_function C, fn [equal_; hash_; equal_; hash_] context_);
     (map_delete C, fn [context_; map_; TVariant] map_);
     (map_empty C, fn [] map_);
     (map_equal C, fn [context_; map_; map_] Mir.TBoolean);
     (map_get C, fn [context_; map_; TVariant] TVariant);
     (map_merge C, fn [context_; map_; map_] map_);
     (map_set C, fn [context_; map_; TVariant; TVariant] map_);
     (map_size C, fn [map_] Mir.TNumber);
     (hash_combine C, fn [Mir.TNumber; Mir.TNumber] Mir.TNumber);
     (hash_number C, fn [Mir.TNumber] Mir.TNumber);
     (hash_string C, fn [TByteString] Mir.TNumber);
     (hash_list C, fn [hash_; list_] Mir.TNumber);
     (hash_map C, fn [context_; map_] Mir.TNumber);
     (iterate_map C, fn [map_] TVariant);
     (iterator_key C, fn [iterator_] TVariant);
     (iterator_value C, fn [iterator_] TVariant);
     (iterator_rest C, fn [iterator_] TVariant);
     (string_equal C, fn [TByteString; TByteString] Mir.TBoolean);
     (number_debug C, fn [Mir.TNumber] TByteString);
     (list_debug C, fn [TByteString; list_; debug_] TByteString);
     (map_debug C, fn [TByteString; TByteString; map_; debug_] TByteString);
     (list_maybe_equal C, fn [maybe_equal_; list_; list_] TVariant);
     (map_maybe_equal C, fn [maybe_equal_; map_; map_] TVariant)].

  Definition prelude_types : list string :=
    [list_type C; map_type C; map_context C; list_first_rest C; map_empty_type C; iterator_type C].
End Prelude.

(** The compiler's own names start with [hir:], with a dollar sign or are the
    names of runtime functions. *)
Definition source_name (x : string) : Prop :=
  user_name x /\ prefix "hir:" x = false /\ ~ In x ["__debug"; "__race"; "__spawn"].

(** The prelude's functions have different names, and identifiers of types are
    different words other than [default] and [element] for different types. *)
Record config_fits (C : config) : Prop := ConfigFits {
  cf_distinct : NoDup (map fst (prelude_functions C));
  cf_names : forall x, In x (map fst (prelude_functions C)) -> source_name x;
  cf_hash : forall s t, c_hash C s = c_hash C t -> s = t;
  cf_words : forall s, has_char ":"%char (c_hash C s) = false /\ ~ In (c_hash C s) ["default"; "element"]
}.

(** ** Programs *)

(** A program as the parser leaves it, without annotations, conversions or
    thunks *)
Definition raw_program (p : program) : Prop :=
  forall x l, In (x, l) (p_defs p) -> strip (l_body l) = l_body l /\ no_thunks (l_body l).

(** The types a program mentions *)
Inductive type_in (p : program) : ty -> Prop :=
| ti_field : forall d x t, In d (p_types p) -> In (x, t) (td_fields (t_def d)) -> type_in p t
| ti_record : forall d, In d (p_types p) -> type_in p (def_record d)
| ti_alias : forall x t, In (x, t) (p_aliases p) -> type_in p t
| ti_foreign : forall x t, In (x, t) (p_foreign p) -> type_in p t
| ti_declared : forall x t, In (x, t) (p_declared p) -> type_in p t
| ti_argument : forall x l y t, In (x, l) (p_defs p) -> In (y, t) (l_arguments l) -> type_in p t
| ti_result : forall x l, In (x, l) (p_defs p) -> type_in p (l_result l)
| ti_expression : forall x l e t, In (x, l) (p_defs p) -> occurs e (l_body l) -> In t (node_types e) -> type_in p t.

Definition record_name (d : type_def) : string := td_name (t_def d).

Definition global_names (p : program) : list string :=
  (map fst (p_foreign p) ++ map fst (p_declared p) ++ map fst (p_defs p))%list.

Section Fits.
  (** the original names of records, the configuration and the program *)
  Variable f : string -> string.
  Variable C : config.
  Variable p : program.

  Let E := program_env p.
  Let R := program_records p.

  (** An accepted program that keeps away from the compiler's names *)
  Record program_fits : Prop := ProgramFits {
    pf_context : context_ok f E R;
    pf_types : forall t, type_in p t -> ok f E t /\ plain_names t;
    pf_prelude_types : forall x, In x (prelude_types C) -> In x (map record_name (p_types p));
    pf_records : forall d, In d (p_types p) -> prefix "hir:" (record_name d) = false /\ prefix "$" (record_name d) = false;
    pf_type_names : NoDup (type_names (program_module p));
    pf_fields : forall d, In d (p_types p) -> NoDup (map fst (td_fields (t_def d)));
    (** finding 20: no field of a record with comparison has a union type that
        stands for one of its alternatives *)
    pf_collapsed : forall d x t, In d (p_types p) -> In (x, t) (td_fields (t_def d)) -> ~ collapsed E t;
    pf_names : NoDup (global_names p);
    pf_globals : forall x, In x (global_names p) -> source_name x;
    pf_record_functions : forall x d, In x (global_names p ++ map fst (prelude_functions C))%list -> In d (p_types p) ->
      x <> record_equal_name (record_name d) /\ x <> record_hash_name (record_name d);
    (** the prelude's functions are declared with their types, not defined *)
    pf_prelude : forall x t m, In (x, t) (p_foreign p ++ p_declared p)%list -> In (x, m) (prelude_functions C) -> lowers E C t m;
    pf_definitions : forall x l, In (x, l) (p_defs p) -> ~ In x (map fst (prelude_functions C)) /\
      (forall y t, In (y, t) (l_arguments l) -> free_name E R C y) /\
      tame E R C (l_body l) /\
      (** finding 35: no [?] in a function whose result type is exactly [error] *)
      (forall c t a, within (Some (l_result l)) (l_body l) c (HTry t a) -> forall r, c = Some r -> ~ teq E r TError)
  }.

  (** The module [M] has the compiler's functions and the records that its code
      mentions. *)
  Definition complete (M : mmodule) : Prop := forall d, In d (m_defs M) ->
    (forall x t, In (NName x) (needs (f_body d)) -> compiler_name E R C x t ->
      In x (map fst (m_declared M) ++ map f_name (m_defs M))%list) /\
    (forall r ts, In (NRecord r) (needs (f_body d)) -> compiler_record E R C r ts -> In r (map fst (m_types M))).
End Fits.
