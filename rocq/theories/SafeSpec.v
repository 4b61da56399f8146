(** What it means that a Pen program does not go wrong: values of types, and
    calls that are nested deeper and deeper.  Independent of the compiler's code.

    From [HirSpec]: [exact E R G e t] (typing of analyzed programs).  From
    [HirMeaning]: [ev], [applies].  From [HirForever]: [goes_on], [enters]. *)
From Coq Require Import String List ZArith Bool.
From Verif Require Import Base Mir HirType HirTypeSpec Hir HirSpec HirProgram LowerSpec LowerTypeSpec MeaningProgramSpec HirMeaning HirForever.
Import ListNotations.

Section Safe.
  (** the types, the fields of all records, those of the module's own records, and
      the module *)
  Variable E : tenv.
  Variable R : renv.
  Variable own : renv.
  Variable p : hmodule.

  (** Types whose values are made of booleans, numbers, strings, none and the
      module's own records *)
  Definition simple_types (D : ty -> Prop) : Prop := forall t, D t ->
    defined E t /\ ~ has_alt E t TAny /\
    forall a, single a -> has_alt E t a ->
      teq E a TBoolean \/ teq E a TNumber \/ teq E a TString \/ teq E a TNone \/
      exists r o fts, teq E a (TRecord r o) /\ lookup own r = Some fts /\ forall x ft, In (x, ft) fts -> D ft.
  Definition simple_type (t : ty) : Prop := exists D, simple_types D /\ D t.

  (** The kinds of expressions that [HirMeaning] gives a meaning *)
  Definition covered (e : hexpr) : Prop :=
    match e with
    | HIfList _ _ _ _ _ _ | HIfMap _ _ _ _ _ _ _ | HList _ _ | HComprehension _ _ _ | HMap _ _ _ | HThunk _ _ => False
    | HCall _ (HBuiltIn b) _ => b = BError \/ b = BSource
    | HBinary (BinEquality (Some t) _) _ _ => in_order E own t /\ simple_type t
    | HTry (Some t) _ => ~ has_alt E t TAny
    | _ => True
    end.

  (** The functions that the module's own functions name *)
  Definition named (g : string) : Prop := exists x l, In (x, l) (h_defs p) /\ occurs (HVariable g) (l_body l).

  (** The body [e] of a function with the result type [r]: its expressions are
      covered, its types are known, it names functions of the module and of the
      outside that the module names, and every [?] returns from a function whose
      result may be an error or something else. *)
  Definition sound_body (r : ty) (e : hexpr) : Prop :=
    defined E r /\
    (forall e', occurs e' e -> covered e' /\ forall t, In t (node_types e') -> defined E t) /\
    (forall g, occurs (HVariable g) e -> lookup (module_env p) g <> None -> lookup (h_defs p) g <> None \/ named g) /\
    (forall c t a, within (Some r) e c (HTry t a) -> exists r', c = Some r' /\ defined E r' /\ sub E TError r' /\ ~ teq E r' TError).

  (** [value_of t u]: [u] is a value of the type [t]. *)
  Inductive value_of : ty -> hvalue -> Prop :=
  | of_boolean : forall t b, teq E t TBoolean -> value_of t (UBoolean b)
  | of_number : forall t z, teq E t TNumber -> value_of t (UNumber z)
  | of_string : forall t s, teq E t TString -> value_of t (UString s)
  | of_none : forall t, teq E t TNone -> value_of t UNone
  | of_error : forall t u, teq E t TError -> value_of TAny u -> value_of t (UError u)
  | of_record : forall t r o fts fs (get : string -> hvalue), teq E t (TRecord r o) -> lookup R r = Some fts ->
      (forall x ft, lookup fts x = Some ft -> lookup fs x = Some (get x)) ->
      (forall x ft, lookup fts x = Some ft -> value_of ft (get x)) -> value_of t (URecord r fs)
  | of_tagged : forall t a u, varies E t -> single a -> defined E a -> takes E t a -> value_of a u -> value_of t (UTagged a u)
  | of_closure : forall t xs ts r body rho G, teq E t (TFunction ts r) -> List.length xs = List.length ts ->
      variables_of G rho -> exact E R (rev (combine xs ts) ++ G ++ module_env p)%list body r -> sound_body r body ->
      value_of t (UClosure xs body rho)
  | of_function : forall t g ft ts r, lookup (h_defs p) g <> None \/ named g -> teq E t (TFunction ts r) -> lookup (module_env p) g = Some ft -> teq E ft (TFunction ts r) ->
      value_of t (UGlobal g)
  with variables_of : venv -> henv -> Prop :=
  | vars_nil : variables_of [] []
  | vars_cons : forall x t u G rho, defined E t -> value_of t u -> variables_of G rho -> variables_of ((x, t) :: G) ((x, u) :: rho).

  (** The values that were kept are of the result types of their functions. *)
  Definition state_of (s : hstate) : Prop := forall g l u, lookup (h_defs p) g = Some l -> lookup (kept s) g = Some u -> value_of (l_result l) u.

  Variable w : world.
  Variable outer : list (string * list hvalue) -> string -> list hvalue -> hvalue -> Prop.

  (** The functions of the outside that the module names answer every call with
      values of the types they are declared with. *)
  Definition outside_answers : Prop := forall cs g t ts r us, named g -> lookup (h_defs p) g = None -> lookup (h_declared p) g = Some t ->
    teq E t (TFunction ts r) -> Forall2 value_of ts us -> exists v, outer cs g us v /\ value_of r v.

  (** Inside the evaluation [q], calls are nested [d] deep: it goes on to a call, whose
      body goes on to a call, and so on.  All that comes before has ended. *)
  Inductive nested : nat -> pending -> Prop :=
  | nested_any : forall q, nested 0 q
  | nested_inside : forall d q q', goes_on E own p w outer q q' -> nested d q' -> nested d q
  | nested_call : forall d s rho ft ts r f args g us s1 q, (forall b, f <> HBuiltIn b) ->
      teq E ft (TFunction ts r) -> List.length args = List.length ts ->
      evs E own p w outer s rho (f :: args) (inl (g :: us)) s1 -> enters p s1 g us q -> nested d q ->
      nested (S d) (s, rho, HCall (Some ft) f args).
End Safe.

(** All expressions of an analyzed program are covered. *)
Definition covered_program (q : program) : Prop := forall x l e, In (x, l) (p_defs q) -> occurs e (l_body l) ->
  covered (program_env q) (defined_records q) e.

(** Other modules and foreign code declare functions only.  Declarations of other
    modules always do (lib/hir/src/ir/function_declaration.rs:7); for foreign code
    (foreign_declaration.rs:10, any type) this is an assumption. *)
Definition declares_functions (q : program) : Prop := forall x t, In (x, t) (p_declared q ++ p_foreign q)%list -> exists ts r, t = TFunction ts r.

(** Values, states and answers of an analyzed program *)
Definition has_type (q : program) : ty -> hvalue -> Prop := value_of (program_env q) (program_records q) (defined_records q) (program_hir q).
Definition sound_state (q : program) : hstate -> Prop := state_of (program_env q) (program_records q) (defined_records q) (program_hir q).
Definition answers_typed (q : program) : (list (string * list hvalue) -> string -> list hvalue -> hvalue -> Prop) -> Prop :=
  outside_answers (program_env q) (program_records q) (defined_records q) (program_hir q).

(** Inside a call of [g] with [us], calls are nested [d] deep, not counting the call itself. *)
Definition goes_deep (q : program) (w : world) (outer : list (string * list hvalue) -> string -> list hvalue -> hvalue -> Prop)
    (d : nat) (s : hstate) (g : hvalue) (us : list hvalue) : Prop :=
  exists body, enters (program_hir q) s g us body /\ nested (program_env q) (defined_records q) (program_hir q) w outer d body.
