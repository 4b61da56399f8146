(** Sessions: what the outside sees when it calls functions of a program one
    after another. *)
From Coq Require Import String List ZArith Bool.
From Verif Require Import Base Mir HirType HirTypeModule Hir HirMir HirProgram HirMeaning MeaningSpec MeaningProgramSpec LowerTypeSpec.
Import ListNotations.
Local Open Scope string_scope.

(** A program shows the functions it calls outside, with their arguments, and the
    results of the calls that are made of it. *)
Inductive shown : Type :=
| ShownCall (c : string * list hvalue)
| ShownResult (v : hvalue).

Section Session.
  Variable q : program.
  Variable w : world.
  Variable outer : list (string * list hvalue) -> string -> list hvalue -> hvalue -> Prop.

  (** In state [s], the calls [requests] of the program's functions are made and
      end, one after another.  They show [out] and leave the state [s']. *)
  Inductive session : hstate -> list (string * list hvalue) -> list shown -> hstate -> Prop :=
  | session_end : forall s, session s [] [] s
  | session_call : forall s g us v s1 made rest out s2,
      applies (program_env q) (defined_records q) (program_hir q) w outer s (UGlobal g) us v s1 ->
      calls s1 = (calls s ++ made)%list ->
      session s1 rest out s2 ->
      session s ((g, us) :: rest) (map ShownCall made ++ ShownResult v :: out)%list s2.
End Session.

(** The outside makes the call [r] of the compiled module [m]: it names the
    function, and builds arguments of the types that the function takes.  They are
    plain data. *)
Definition asks (m : mmodule) (r : string * list hvalue) (c : callee * list term) : Prop :=
  fst c = ByName (fst r) /\ find_def (m_defs m) (fst r) <> None /\
  exists types t vs, type_of m (VGlobal (fst r)) = Some (Mir.TFunction types t) /\
    Forall2 plain (snd r) vs /\ forall kn, resolve_args m kn (snd c) types = Some vs.

(** [o] is what the outside sees of [u]. *)
Definition looks (f : string -> string) (n : nat) (C : config) (q : program) (m : mmodule) (u : hvalue) (o : observation) : Prop :=
  exists v, at_run_time f n C q m u v /\ observe v = o.

(** [e] is what the outside sees of [x]. *)
Definition seen_as (f : string -> string) (n : nat) (C : config) (q : program) (m : mmodule) (x : shown) (e : observed_event) : Prop :=
  match x, e with
  | ShownCall (g, us), ObCall (FName g') os => g' = g /\ Forall2 (looks f n C q m) us os
  | ShownResult u, ObResult o => looks f n C q m u o
  | _, _ => False
  end.

(** The events but for the calls of the prelude's comparison of strings *)
Definition outward (C : config) (e : observed_event) : bool :=
  match e with
  | ObCall (FName g) _ => negb (String.eqb g (string_equal C))
  | _ => true
  end.

(** The outside makes no calls of the program while it answers one. *)
Definition quiet (w : world) : Prop := forall seen, w_script w seen = [].

(** [e] is what the outside sees of [x], if [x] has plain data only. *)
Definition plainly (x : shown) (e : observed_event) : Prop :=
  match x, e with
  | ShownCall (g, us), ObCall (FName g') os => g' = g /\ exists vs, Forall2 plain us vs /\ os = map observe vs
  | ShownResult u, ObResult o => exists v, plain u v /\ o = observe v
  | _, _ => False
  end.
