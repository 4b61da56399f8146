(** What it means that a module does not go wrong. *)
From Coq Require Import String List ZArith.
From Verif Require Import Base Mir MirScopeSpec MirNormSpec.
Import ListNotations.

(** Values of a type. *)
Inductive has_type (m : mmodule) : value -> mtype -> Prop :=
| has_bool b : has_type m (VBool b) TBoolean
| has_bytes s : has_type m (VBytes s) TByteString
| has_none : has_type m VNone TNone
| has_number n : has_type m (VNumber n) TNumber
| has_record n ts vs :
    lookup (m_types m) n = Some ts -> Forall2 (has_type m) vs ts -> has_type m (VRecord n vs) (TRecord n)
| has_variant t v : has_type m v t -> t <> TVariant -> has_type m (VVariant t v) TVariant
| has_closure d c : has_type m (VClosure d c) (TFunction (map snd (f_args d)) (f_result d))
| has_thunk i d c : has_type m (VThunk i d c) (TFunction (map snd (f_args d)) (f_result d))
| has_global g ts t : global_type m g = Some (TFunction ts t) -> has_type m (VGlobal g) (TFunction ts t)
| has_outside i ts t : has_type m (VOutside i (TFunction ts t)) (TFunction ts t).

(** What the outside sees has the declared types. *)
Definition event_fits (m : mmodule) (ev : event) : Prop :=
  match ev with
  | EvCall (FName g) vs =>
      exists ts t, lookup (m_declared m) g = Some (TFunction ts t) /\ Forall2 (has_type m) vs ts
  | EvCall (FHandle _) vs => exists ts, Forall2 (has_type m) vs ts
  | EvResult v => exists t, has_type m v t
  end.

(** ** What the data types of the compiler guarantee *)

(** Declared things are functions; thunks have no arguments; global functions
    have no environment. *)
Definition well_built (m : mmodule) : Prop :=
  (forall g t, In (g, t) (m_declared m) -> exists ts r, t = TFunction ts r) /\
  (forall d, In d (m_defs m) -> f_env d = [] /\ (f_thunk d = true -> f_args d = [])) /\
  (forall g d e, In g (m_defs m) -> within (LetRec d e) (f_body g) -> f_thunk d = true -> f_args d = []).

(** ** What the type checker does not check *)

(** Environments of local functions: nothing wrong, before they are inferred;
    exactly the captured variables, afterwards. *)
Definition environments_right (md : mode) (m : mmodule) : Prop :=
  forall scope d, local_function m scope d ->
    match md with
    | Lexical => forall x t, In (x, t) (f_env d) -> x <> f_name d /\ lookup scope x = Some t
    | Declared =>
        forall x t, In (x, t) (f_env d) <->
          lookup scope x = Some t /\ free x (f_body d) /\ x <> f_name d /\ ~ In x (map fst (f_args d))
    end.

(** Every case expression has a default alternative. *)
Definition cases_have_default (m : mmodule) : Prop :=
  forall g a alts, In g (m_defs m) -> ~ within (Case a alts None) (f_body g).

(** No local variable has the name of the fallback type information function. *)
Definition fallback_not_hidden (m : mmodule) : Prop :=
  forall g, In g (m_defs m) ->
    ~ In (m_fallback m) (map fst (f_args g)) /\ ~ In (m_fallback m) (binders (f_body g)).
