(** Flattening of string concatenations. *)
From Coq Require Import String List.
From Verif Require Import Base Mir.
Import ListNotations.

(** lib/mir/src/analysis/optimization/string_concatenation.rs 8-14. *)
Definition concat_operand (e : expr) : list expr :=
  match e with
  | Op OConcat es => es
  | e => [e]
  end.

(** The conversion of one expression whose parts are converted already:
    lib/mir/src/analysis/optimization/string_concatenation.rs 4-19. *)
Definition concat_convert (e : expr) : expr :=
  match e with
  | Op OConcat es => Op OConcat (flat_map concat_operand es)
  | e => e
  end.

(** lib/mir/src/analysis/expression_conversion.rs 37-152 with this conversion;
    23-35 for the definitions of local functions. *)
Fixpoint concat_expr (e : expr) : expr :=
  concat_convert
    match e with
    | Lit l => Lit l
    | Var x => Var x
    | Op o es => Op o (map concat_expr es)
    | If c t e => If (concat_expr c) (concat_expr t) (concat_expr e)
    | Case a alts de =>
        Case (concat_expr a)
             (map (fun al => Alt (a_types al) (a_name al) (concat_expr (a_body al))) alts)
             (match de with
              | Some (x, e) => Some (x, concat_expr e)
              | None => None
              end)
    | Let x t b e => Let x t (concat_expr b) (concat_expr e)
    | LetRec d e =>
        LetRec (Fdef (f_name d) (f_env d) (f_args d) (f_result d) (concat_expr (f_body d)) (f_thunk d))
               (concat_expr e)
    | Try o x t e => Try (concat_expr o) x t (concat_expr e)
    | CloneVars xs e => CloneVars xs (concat_expr e)
    | DropVars xs e => DropVars xs (concat_expr e)
    end.

(** lib/mir/src/analysis/expression_conversion.rs 3-21. *)
Definition concat_module (m : mmodule) : mmodule :=
  set_defs m (map (fun d => set_body d (concat_expr (f_body d))) (m_defs m)).
