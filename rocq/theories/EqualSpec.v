(** Specification of equality: what data look like at run time, and what the code
    of comparisons relies on.

    Maps are left out. *)
From Coq Require Import String List ZArith Bool.
From Verif Require Import Base Mir HirType HirTypeSpec Hir HirSpec HirMir LowerSpec RunSpec ListSpec PreludeList.
From Verif Require Export DataSpec.
Import ListNotations.
Local Open Scope string_scope.

(** [t] is in canonical form: equal types in canonical form are the same. *)
Definition canonical (E : tenv) (t : ty) : Prop := exists n, canonicalize n E t = Ok t.

Section Values.
  Variable E : tenv.
  Variable R : renv.
  Variable C : config.
  Variable w : world.
  Variable m : mmodule.
  Variable Inv : state -> Prop.

  (** The type of [x], in its canonical form, is an alternative of [t]. *)
  Definition belongs (t : ty) (x : data) : Prop :=
    has_alt E t (type_of_data x) /\ canonical E (type_of_data x).

  (** [value_of x v]: the value [v] represents [x] at the type of [x].  At another
      type it is boxed. Elements of lists are values of type [any].  A list gives
      the same elements in all states that satisfy [Inv]. *)
  Fixpoint value_of (x : data) (v : value) : Prop :=
    match x with
    | DBool b => v = VBool b
    | DNumber z => v = VNumber z
    | DString s => v = VBytes s
    | DNone => v = VNone
    | DRecord r _ xs =>
        exists fts vs, lookup R r = Some fts /\ v = VRecord r vs /\
        (fix fields (xs : list data) (fts : list (string * ty)) (vs : list value) : Prop :=
           match xs, fts, vs with
           | [], [], [] => True
           | x :: xs, (_, t) :: fts, u :: vs =>
               (belongs t x /\ exists v b, value_of x v /\ boxed E C (type_of_data x) v b /\ seen E t (type_of_data x) v b u) /\
               fields xs fts vs
           | _, _, _ => False
           end) xs fts vs
    | DList e xs =>
        stable w m Inv
          (gives w m Inv (fun x b => belongs e x /\ exists v, value_of x v /\ boxed E C (type_of_data x) v b)) v xs
    end.

  (** [u] represents [x] at type [t]. *)
  Definition value_at (t : ty) (x : data) (u : value) : Prop :=
    belongs t x /\ exists v b, value_of x v /\ boxed E C (type_of_data x) v b /\ seen E t (type_of_data x) v b u.

  (** [b] represents [x], of type [t], at type [any]. *)
  Definition value_as_any (t : ty) (x : data) (b : value) : Prop :=
    belongs t x /\ exists v, value_of x v /\ boxed E C (type_of_data x) v b.
End Values.

(** The functions that comparisons call, of data with the records [G], and with
    lists if [Ls] *)
Inductive equality_name (n : nat) (E : tenv) (C : config) (G : string -> Prop) (Ls : Prop) : string -> Prop :=
| en_string : equality_name n E C G Ls (string_equal C)
| en_record : forall r, G r -> equality_name n E C G Ls (record_equal_name r)
| en_list : Ls -> equality_name n E C G Ls (list_equal C)
| en_element : forall e g, Ls -> equal_name n E C e = Ok g -> equality_name n E C G Ls g.

(** No local variable has the name of a function of [m] that comparisons call. *)
Definition clear_of_equality (n : nat) (E : tenv) (C : config) (m : mmodule) (G : string -> Prop) (Ls : Prop) (rho : env) : Prop :=
  forall g, equality_name n E C G Ls g -> global_type m g <> None -> lookup rho g = None.

(** No local variable has the name of a global function. *)
Definition clear_of_globals (m : mmodule) (rho : env) : Prop :=
  forall g, global_type m g <> None -> lookup rho g = None.

(** The program [m] has the code that equality of types without lists and with
    the records [G] uses. *)
Record record_code (f : string -> string) (n : nat) (E : tenv) (R : renv) (C : config) (T : ty -> Prop)
    (w : world) (m : mmodule) (Inv : state -> Prop) (G : string -> Prop) : Prop := RecordCode {
  rc_tidy : tidy f E C;
  rc_hashes : collision_free E C T;
  (* the compiler's variables are no functions *)
  rc_lhs : global_type m "$lhs" = None;
  rc_rhs : global_type m "$rhs" = None;
  (* strings *)
  rc_string_known : global_type m (string_equal C) <> None;
  rc_string : forall st a b, Inv st ->
    exists st', runs w m st (VGlobal (string_equal C)) [VBytes a; VBytes b] (VBool (String.eqb a b)) st' /\ Inv st';
  (* the equality functions of records, and the fields' types *)
  rc_records : forall r o fts, G r -> tidy_type f E (TRecord r o) -> comparable n E R (TRecord r o) = Ok true -> lookup R r = Some fts ->
    NoDup (map fst fts) /\
    (forall x t, In (x, t) fts -> tidy_type f E t /\ uses E T t) /\
    exists k d, compile_definition n E R C k (record_equal_definition r o fts) = Ok d /\
      find_def (m_defs m) (record_equal_name r) = Some d
}.

(** The program [m] has the code that equality of lists uses. *)
Record list_code (f : string -> string) (n : nat) (E : tenv) (R : renv) (C : config) (T : ty -> Prop) (m : mmodule) : Prop := ListCode {
  lc_names : list_names C;
  (* the prelude *)
  lc_prelude : links m list_defs;
  lc_declares : declares m list_records_mir;
  (* the equality functions of lists' elements *)
  lc_elements : forall e, T e -> canonical E e ->
    tidy_type f E e /\ uses E T e /\
    exists j k def d, equal_definition n E R C j e = Ok def /\ compile_definition n E R C k def = Ok d /\
      find_def (m_defs m) (fst def) = Some d
}.

(** The program [m] has the code that equality of the types [T] uses. *)
Record equality_code (f : string -> string) (n : nat) (E : tenv) (R : renv) (C : config) (T : ty -> Prop)
    (w : world) (m : mmodule) (Inv : state -> Prop) : Prop := EqualityCode {
  ec_records : record_code f n E R C T w m Inv (fun _ => True);
  ec_lists : list_code f n E R C T m
}.

(** Evaluating the operand [e] from [st] gives [v] and leaves [st']. *)
Definition operand n E R C w m (rho : env) (st : state) (e : hexpr) (v : value) (st' : state) : Prop :=
  forall k e', compile n E R C k e = Ok e' -> evals w m rho st e' v st'.

(** [rho'] is [rho] except for the variable [x]. *)
Definition same_but (x : string) (rho' rho : env) : Prop := forall y, y <> x -> lookup rho' y = lookup rho y.
