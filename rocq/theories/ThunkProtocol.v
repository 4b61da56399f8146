(** Threads that call one synchronized thunk: lib/mir-fmm/src/entry_function.rs
    124-310 ([compile_initial_thunk_entry], [compile_normal_thunk_entry],
    [compile_locked_thunk_entry]).

    Simplifications: threads interleave and memory is sequentially consistent; the
    reference counts and the closure's metadata are left out; the thunk stays
    synchronized. *)
From Coq Require Import List Bool PeanoNat.
Import ListNotations.

(** The entry functions a closure's entry pointer can hold *)
Inductive entry : Type := Initial | LockedEntry | NormalEntry.

(** Where a thread is in a call of the thunk *)
Inductive position (V : Type) : Type :=
| Loading                    (* about to load the entry pointer: call.rs 3-26, entry_function.rs 168-176, 291-302 *)
| Entering (e : entry)       (* about to run the entry function it loaded *)
| Evaluating                 (* in the body: entry_function.rs 193 *)
| Storing (v : V)            (* about to store the value: 211-214 *)
| Unlocking (v : V)          (* about to store the entry pointer: 221-231 *)
| Reading                    (* about to load the value: 262-267 *)
| Returned (v : V).
Arguments Loading {V}.
Arguments Entering {V}.
Arguments Evaluating {V}.
Arguments Storing {V}.
Arguments Unlocking {V}.
Arguments Reading {V}.
Arguments Returned {V}.

Section Protocol.
  Context {V : Type}.

  Record pstate : Type := PState {
    p_entry : entry;               (* the closure's entry pointer *)
    p_value : option V;            (* the thunk's value *)
    p_threads : list (position V);
    p_runs : nat                   (* how often the body was started *)
  }.

  (** A thread moves from one position to another.  [early] says whether the body
      returns early (a try operation, lib/mir-fmm/src/expression.rs 498-533: the entry
      function returns the error). *)
  Inductive move (early : bool) (e : entry) (x : option V) (r : nat) :
    position V -> position V -> entry -> option V -> nat -> Prop :=
  | move_load : move early e x r Loading (Entering e) e x r
  (* 145-163: compare and swap *)
  | move_lock : e = Initial -> move early e x r (Entering Initial) Evaluating LockedEntry x (S r)
  | move_fail : e <> Initial -> move early e x r (Entering Initial) Loading e x r
  (* 193 *)
  | move_body : forall v, move early e x r Evaluating (Storing v) e x r
  | move_early : forall v, early = true -> move early e x r Evaluating (Returned v) e x r
  (* 211-214 *)
  | move_store : forall v, move early e x r (Storing v) (Unlocking v) e (Some v) r
  (* 221-240 *)
  | move_unlock : forall v, move early e x r (Unlocking v) (Returned v) NormalEntry x r
  (* 284-302: yield, and try again *)
  | move_wait : move early e x r (Entering LockedEntry) Loading e x r
  (* 247-278 *)
  | move_normal : move early e x r (Entering NormalEntry) Reading e x r
  | move_read : forall v, x = Some v -> move early e x r Reading (Returned v) e x r.

  (** One step of some thread *)
  Inductive pstep (early : bool) : pstate -> pstate -> Prop :=
  | pstep_at : forall e x before p after r p' e' x' r',
      move early e x r p p' e' x' r' ->
      pstep early (PState e x (before ++ p :: after) r) (PState e' x' (before ++ p' :: after) r').

  Inductive psteps (early : bool) : pstate -> pstate -> Prop :=
  | psteps_refl : forall s, psteps early s s
  | psteps_step : forall s t u, psteps early s t -> pstep early t u -> psteps early s u.

  (** [k] threads call a new thunk. *)
  Definition pstart (k : nat) : pstate := PState Initial None (repeat Loading k) 0.
End Protocol.
