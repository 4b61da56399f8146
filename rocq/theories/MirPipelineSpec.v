(** What the middle end may assume of the modules the front end makes. *)
From Coq Require Import String List.
From Verif Require Import Base Mir MirSpec MirScopeSpec MirNormSpec.
Import ListNotations.
Local Open Scope string_scope.

(** Names that begin like the names made by the middle end. *)
Definition reserved (x : string) : Prop :=
  exists s, x = "anf:v" ++ s \/ x = "fv:" ++ s \/ x = "mir:lift" ++ s.

(** No name in the module is reserved. *)
Definition no_reserved_names (m : mmodule) : Prop :=
  (forall g, global_type m g <> None -> ~ reserved g) /\
  forall d x, In d (m_defs m) ->
    In x (map fst (f_args d)) \/ free x (f_body d) \/ In x (binders (f_body d)) -> ~ reserved x.

(** A variable bound in a global function may have the name of an argument that
    is used, but then it is not bound by a let expression, and the argument is
    not given another name: case expressions and try operations may bind the
    name of an argument again, as in [if x = x as number { ... }]. *)
Definition arguments_not_reused (m : mmodule) : Prop :=
  forall d x, In d (m_defs m) -> free x (f_body d) -> In x (binders (f_body d)) -> global_type m x = None ->
    ~ In x (lets (f_body d)) /\ ~ copied x (f_body d).

Record proper_source (m : mmodule) : Prop := {
  source_infos : infos_ok m;
  source_hygienic : hygienic m;
  source_arguments : distinct_arguments m;
  source_shaped : shaped m;
  source_reserved : no_reserved_names m;
  source_reused : arguments_not_reused m
}.
