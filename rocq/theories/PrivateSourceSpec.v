(** Records whose fields are private, across modules. *)
From Coq Require Import String List.
From Verif Require Import Base HirType Ast Resolve Desugar Parser.
Import ListNotations.

(** An interface does not open the record [name]. *)
Definition closed_in (name : string) (i : interface) : Prop := forall d, In d (i_types i) -> it_name d = name -> it_open d = false.

(** An interface has no record of this name. *)
Definition absent_in (name : string) (i : interface) : Prop := forall d, In d (i_types i) -> it_name d <> name.

(** The interfaces that a module is compiled with *)
Definition reaches (interfaces : apath -> option interface) (prelude : list interface) (i : interface) : Prop :=
  (exists p, interfaces p = Some i) \/ In i prelude.

(** The names of the types that a source module defines *)
Definition defines_type (a : amodule) (x : string) : Prop :=
  (exists l, In (DRecord x l) (m_types a)) \/ (exists t, In (DAlias x t) (m_types a)).

(** All its records of this name have a field whose name is not public. *)
Definition hides_field (a : amodule) (x : string) : Prop :=
  forall l, In (DRecord x l) (m_types a) -> exists y, In y (map fst l) /\ public_name y = false.
