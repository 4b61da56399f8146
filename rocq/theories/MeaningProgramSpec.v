(** What the meaning of compiled programs relies on, besides [LowerProgramSpec]
    and [LowerCompleteSpec]. *)
From Coq Require Import String Ascii List ZArith Bool.
From Verif Require Import Base Mir HirType HirTypeSpec HirTypeModule Hir HirSpec HirMir HirProgram LowerSpec LowerTypeSpec LowerProgramSpec RunSpec
  HirMeaning MeaningSpec.
Import ListNotations.
Local Open Scope string_scope.

(** No record literal or update gives a field twice. *)
Definition fields_once (p : program) : Prop := forall x l e, In (x, l) (p_defs p) -> occurs e (l_body l) ->
  match e with
  | HRecord _ fs | HUpdate _ _ fs => NoDup (map fst fs)
  | _ => True
  end.

(** No type of the program names one of the compiler's own records. *)
Definition own_types (p : program) : Prop := forall t r, type_in p t -> In r (record_names t) -> prefix "hir:" r = false.

(** The records that the program defines itself, as opposed to those it imports. *)
Definition defined_records (p : program) : renv :=
  map (fun d => (td_name (t_def d), td_fields (t_def d))) (filter (fun d => negb (t_external d)) (p_types p)).

(** Values and states of the analyzed program [q] at run time.  No two types
    have the same hash in what follows ([config_fits]), so tags may be of all
    types. *)
Definition at_run_time (f : string -> string) (n : nat) (C : config) (q : program) (m : mmodule) : hvalue -> value -> Prop :=
  rep f n (program_env q) (program_records q) C (fun _ => True) m.
Definition state_at_run_time (f : string -> string) (n : nat) (C : config) (q : program) (m : mmodule) : hstate -> state -> Prop :=
  state_rep f n (program_env q) (program_records q) C (fun _ => True) m.

(** The world outside, as the module [m] compiled from the analyzed program [q]
    sees it: the prelude compares strings and makes no calls that the program
    can see, and other functions answer as [outer] says.  [outer] is given the
    calls before, the function and its arguments. *)
Record answers (f : string -> string) (n : nat) (C : config) (q : program) (m : mmodule) (w : world)
    (outer : list (string * list hvalue) -> string -> list hvalue -> hvalue -> Prop) : Prop := Answers {
  an_strings : forall s st a b, state_at_run_time f n C q m s st ->
    exists st', runs w m st (VGlobal (string_equal C)) [VBytes a; VBytes b] (VBool (String.eqb a b)) st' /\
      state_at_run_time f n C q m s st';
  an_outer : forall s st g us v vs, state_at_run_time f n C q m s st ->
    In g (map fst (p_declared q ++ p_foreign q)) -> outer (calls s) g us v -> Forall2 (at_run_time f n C q m) us vs ->
    exists v' st', runs w m st (VGlobal g) vs v' st' /\ at_run_time f n C q m v v' /\
      state_at_run_time f n C q m (add_call s g us) st'
}.

(** ** Plain data

    Booleans, numbers, strings, none and errors made from them have one
    representation. *)
Inductive plain : hvalue -> value -> Prop :=
| plain_boolean : forall b, plain (UBoolean b) (VBool b)
| plain_number : forall z, plain (UNumber z) (VNumber z)
| plain_string : forall s, plain (UString s) (VBytes s)
| plain_none : plain UNone VNone
| plain_error : forall u v, plain u v -> plain (UError u) (VRecord "hir:error" [v])
| plain_tagged : forall a t u v, plain u v ->
    In (a, t) [(TBoolean, Mir.TBoolean); (TNumber, Mir.TNumber); (TString, TByteString); (TNone, Mir.TNone); (TError, Mir.TRecord "hir:error")] ->
    plain (UTagged a u) (VVariant t v).
