(** From the modules that name resolution makes to the programs that analysis
    takes, for "the compiler does not crash". *)
From Coq Require Import String List ZArith.
From Verif Require Import Base HirType HirTypeModule Hir HirProgram Ast Resolve Desugar.
Import ListNotations.

(** [rmodule] and [program] both model lib/hir/src/ir/module.rs 5-14: the first
    has the flags of imports and exports, which analysis does not look at. *)
Definition module_program (m : rmodule) : program :=
  Program
    (map (fun d => TypeDef {| td_name := rt_name d; td_original := rt_original d; td_fields := rt_fields d |} (rt_open d) (rt_external d)) (rm_types m))
    (map (fun a => (ra_name a, ra_type a)) (rm_aliases m))
    (map (fun d => (rf_name d, rf_type d)) (rm_foreign m))
    (rm_declared m)
    (map (fun d => (rd_name d, rd_lambda d)) (rm_functions m)).

(** An interface says of records without fields that they have no private ones. *)
Definition open_interface (i : interface) : Prop := forall d, In d (i_types i) -> it_fields d = [] -> it_open d = true.

(** The interfaces of the modules that the compiler makes from texts: modules of the
    prelude, and other modules that import modules made before. *)
Inductive made_interface (read_float : string -> res Z) : interface -> Prop :=
| made_prelude : forall prefix s m, compile_prelude_text read_float prefix s = Ok m -> made_interface read_float (module_interface m)
| made_module : forall prefix interfaces prelude s m,
    (forall p i, interfaces p = Some i -> made_interface read_float i) -> (forall i, In i prelude -> made_interface read_float i) ->
    compile_text read_float prefix interfaces prelude s = Ok m -> made_interface read_float (module_interface m).
