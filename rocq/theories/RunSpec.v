(** Terminating runs of code, for any large enough bound on the depth of calls. *)
From Coq Require Import String List ZArith Bool.
From Verif Require Import Base Mir.
Import ListNotations.

Section Runs.
  Variable w : world.
  Variable m : mmodule.

  (** In state [st], the code [e] with the variables [rho] ends with the value [v]
      and leaves the state [st']. *)
  Definition evals (rho : env) (st : state) (e : expr) (v : value) (st' : state) : Prop :=
    exists n0, forall n, n0 <= n -> eval Lexical w m (call Lexical w m n) rho st e = Done v st'.

  (** In state [st], a call of the function value [f] with the arguments [vs] ends
      with the value [v] and leaves the state [st']. *)
  Definition runs (st : state) (f : value) (vs : list value) (v : value) (st' : state) : Prop :=
    exists n0, forall n, n0 <= n -> call Lexical w m n st f vs = Done v st'.
End Runs.

(** The module [m] contains the definitions [ds]. *)
Definition links (m : mmodule) (ds : list fdef) : Prop :=
  forall d, In d ds -> find_def (m_defs m) (f_name d) = Some d.

(** The module [m] declares the records [ts]. *)
Definition declares (m : mmodule) (ts : list (string * list mtype)) : Prop :=
  forall r t, In (r, t) ts -> lookup (m_types m) r = Some t.
