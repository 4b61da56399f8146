(** The middle end: the passes from the front end's code to reference counting. *)
From Coq Require Import String List.
From Verif Require Import Base Mir MirConcat MirAlpha MirNorm MirEnv MirLift.

(** lib/mir-fmm/src/lib.rs 34-37. *)
Definition closure_passes (m : mmodule) : mmodule :=
  infer_module (norm_module (alpha_module (concat_module m))).

(** lib/mir-fmm/src/lib.rs 34-38. *)
Definition middle_end (m : mmodule) : mmodule := lift_module (closure_passes m).
