(** What reference counting needs of the modules the front end makes. *)
From Coq Require Import String List.
From Verif Require Import Mir MirSpec MirScopeSpec MirNormSpec.

(** The arguments of a global function have distinct names. *)
Definition distinct_global_arguments (m : mmodule) : Prop :=
  forall d, In d (m_defs m) -> NoDup (map fst (f_args d)).

(** Only global names are both bound in a function and used from outside the
    binding.  In particular no function binds the name of one of its arguments. *)
Definition arguments_not_rebound (m : mmodule) : Prop :=
  forall d x, In d (m_defs m) -> free x (f_body d) -> In x (binders (f_body d)) -> global_type m x <> None.
