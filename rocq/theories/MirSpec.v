(** What it means that a transformation of a module preserves its behaviour.

    A module is observed from outside: by the calls it makes to foreign and
    imported functions, with their arguments, and by the results of the calls
    made to its functions.  A function inside such a value cannot be looked
    into, but the outside can call it later, and then observes that call
    ([observe] and [observe_event] in Mir.v).  *)
From Coq Require Import String List ZArith Bool.
From Verif Require Import Base Mir.
Import ListNotations.

Definition observe_log (st : state) : list observed_event := map observe_event (s_log st).

(** [m'] behaves like [m]: for every outside world, every sequence of calls it
    makes, and every bound on the depth of calls, a run of [m] that keeps to
    the rules has a counterpart in [m'] that shows the same events in the same
    order; when one exceeds the bound so does the other, after the same events
    (so infinite runs show the same events too). *)
Definition refines (md : mode) (m : mmodule) (md' : mode) (m' : mmodule) : Prop :=
  forall w n sc,
    match run md w m n sc with
    | Done _ st =>
        exists st', run md' w m' n sc = Done tt st' /\ observe_log st' = observe_log st
    | Timeout st =>
        exists st', run md' w m' n sc = Timeout st' /\ observe_log st' = observe_log st
    | Return _ _ => False
    | Bad _ => True
    | Wrong => True
    end.

(** A module whose type information names existing functions
    (checked by lib/mir/src/analysis/type_check.rs 58-82). *)
Definition infos_ok (m : mmodule) : Prop :=
  (forall t g, lookup_type (m_infos m) t = Some g -> global_type m g <> None) /\
  global_type m (m_fallback m) <> None.
