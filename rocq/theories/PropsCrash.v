(** C67: the compiler does not crash.

    A crash of the compiler (a Rust panic) is [Panic] in the model; rejecting a
    program is not.  From [CrashSpec]: [shaped_program].  From
    [LowerProgramSpec]: [program_fits] and [raw_program]. *)
From Coq Require Import String List.
From Verif Require Import Base HirType HirTypeSpec Hir HirSpec HirValidate HirMir HirProgram LowerTypeSpec LowerProgramSpec CrashSpec CrashBase CrashAnalysis CrashProgram PropsHir PropsLower PropsLowerType PropsMeaning.
Import ListNotations.
Local Open Scope string_scope.
Local Open Scope list_scope.

(** The analysis of a program (inference, coercion, type check and validation)
    accepts the program or rejects it, however wrong its types are.
    Missing for the full statement: the rest of the compiler. *)
Theorem analysis_does_not_crash_partial : forall n p, shaped_program p -> analyze_program n p <> Panic.
Proof. exact calm_program. Qed.
Print Assumptions analysis_does_not_crash_partial.

(** A program that constructs, tests and updates, and one that is not typed at all *)
Definition ill_typed : program := with_prelude [] [] [("main", Lambda [("x", TNumber)] TString
  (HIfType "y" (HVariable "x") [(TList TBoolean, HVariable "z")] (Some (None, HField None (HVariable "y") "w"))))].

Ltac occurrences := repeat match goal with
  | H : In _ (parts _) |- _ => cbn in H
  | H : _ \/ _ |- _ => destruct H
  | H : False |- _ => destruct H
  | H : _ = ?p |- _ => is_var p; subst p
  | H : occurs _ _ |- _ => apply occurs_inv in H; destruct H as [->|(? & ? & H)]
  end.
Example analysis_does_not_crash_example : shaped_program calc /\ shaped_program ill_typed.
Proof.
  split; (split; [intros d H; cbn in H; repeat (destruct H as [<-|H]; [intros Q; first [reflexivity | discriminate Q]|]); destruct H|]); intros x l e H O; cbn in H; repeat (destruct H as [H|H]; [injection H as <- <-; cbn [l_body] in O; occurrences; try exact I; try (intros Q; discriminate Q)|]); destruct H.
Qed.

(** The compiler makes a MIR module of a program or rejects the program: no step
    of the analysis, of the generation of functions for comparison, hashing and
    maps, or of the translation to MIR crashes.
    Missing for the full statement: programs that [program_fits] leaves out and
    the passes over MIR. *)
Theorem compilation_does_not_crash_partial : forall f n k C p,
  shaped_program p -> program_fits f C p -> raw_program p -> compile_program n k C p <> Panic.
Proof. exact calm_compilation. Qed.
Print Assumptions compilation_does_not_crash_partial.

Example compilation_does_not_crash_example :
  shaped_program calc /\ program_fits (fun x => x) word_config calc /\ raw_program calc.
Proof. split; [apply analysis_does_not_crash_example|]. destruct calc_meets as (M & _ & _ & _ & H1 & H2 & _). split; [exact H1|exact H2]. Qed.
