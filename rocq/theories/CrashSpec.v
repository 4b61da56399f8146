(** What the parser guarantees about a program, for "the compiler does not crash". *)
From Coq Require Import String List.
From Verif Require Import Base HirType HirTypeModule Hir HirSpec HirProgram.
Import ListNotations.

(** An if-type and a list comprehension have branches and an update has fields:
    the grammar asks for one or more (lib/parse/src/parser.rs 641-673 [if_type],
    855-873 [list_comprehension], 681-719 [record]). *)
Definition shaped (e : hexpr) : Prop :=
  match e with
  | HIfType _ _ bs _ => bs <> []
  | HComprehension _ _ bs => bs <> []
  | HUpdate _ _ fs => fs <> []
  | _ => True
  end.

(** A record definition without fields has no private fields
    (lib/ast/src/analysis.rs 10-15 [is_record_open]). *)
Definition shaped_program (p : program) : Prop :=
  (forall d, In d (p_types p) -> td_fields (t_def d) = [] -> t_open d = true) /\
  (forall x l e, In (x, l) (p_defs p) -> occurs e (l_body l) -> shaped e).
