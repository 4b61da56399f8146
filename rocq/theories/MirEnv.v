(** Free variables and environment inference. *)
From Coq Require Import String List Bool.
From Verif Require Import Base Mir.
Import ListNotations.

Definition except (x : string) (ys : list string) : list string :=
  List.filter (fun y => negb (String.eqb y x)) ys.

Definition except_all (xs ys : list string) : list string :=
  List.filter (fun y => negb (mem y xs)) ys.

(** lib/mir/src/analysis/free_variable.rs 4-125.  Simplification: the result is
    a list of occurrences from left to right instead of a hash set. *)
Fixpoint fv (e : expr) : list string :=
  match e with
  | Lit _ => []
  | Var x => [x]
  | Op _ es => flat_map fv es
  | If c t e => fv c ++ fv t ++ fv e
  | Case a alts de =>
      fv a ++ flat_map (fun al => except (a_name al) (fv (a_body al))) alts ++
      match de with
      | Some (x, e) => except x (fv e)
      | None => []
      end
  | Let x _ b e => fv b ++ except x (fv e)
  | LetRec d e =>
      except (f_name d)
        (List.filter (fun y => negb (String.eqb y (f_name d)) && negb (mem y (map fst (f_args d))))
                     (fv (f_body d)) ++ fv e)
  | Try o x _ e => fv o ++ except x (fv e)
  | CloneVars _ e => fv e
  | DropVars _ e => fv e
  end.

(** The elements of a list without repetitions, in the order of their first
    occurrences (the code iterates over a hash set). *)
Fixpoint distinct (xs : list string) : list string :=
  match xs with
  | [] => []
  | x :: xs' => x :: except x (distinct xs')
  end.

(** [variables.insert_iter(arguments)] *)
Definition add_args (args vars : arguments) : arguments := rev args ++ vars.

(** lib/mir/src/analysis/environment_inference.rs 62-70. *)
Definition infer_env (vars : arguments) (d : fdef) : arguments :=
  flat_map (fun x => match lookup vars x with
                     | Some t => [(x, t)]
                     | None => []
                     end)
    (List.filter (fun x => negb (mem x (f_name d :: map fst (f_args d)))) (distinct (fv (f_body d)))).

(** lib/mir/src/analysis/environment_inference.rs 46-215. *)
Fixpoint infer (vars : arguments) (e : expr) : expr :=
  match e with
  | Lit l => Lit l
  | Var x => Var x
  | Op o es => Op o (map (infer vars) es)
  | If c t e => If (infer vars c) (infer vars t) (infer vars e)
  | Case a alts de =>
      Case (infer vars a)
           (map (fun al => Alt (a_types al) (a_name al)
                               (infer ((a_name al, alt_type (a_types al)) :: vars) (a_body al))) alts)
           (match de with
            | Some (x, e) => Some (x, infer ((x, TVariant) :: vars) e)
            | None => None
            end)
  | Let x t b e => Let x t (infer vars b) (infer ((x, t) :: vars) e)
  | LetRec d e =>
      LetRec (Fdef (f_name d) (infer_env vars d) (f_args d) (f_result d)
                   (infer (add_args (f_args d) ((f_name d, f_type d) :: vars)) (f_body d)) (f_thunk d))
             (infer ((f_name d, f_type d) :: vars) e)
  | Try o x t e => Try (infer vars o) x t (infer ((x, t) :: vars) e)
  | CloneVars xs e => CloneVars xs (infer vars e)
  | DropVars xs e => DropVars xs (infer vars e)
  end.

(** lib/mir/src/analysis/environment_inference.rs 20-44. *)
Definition infer_global (d : fdef) : fdef :=
  Fdef (f_name d) [] (f_args d) (f_result d) (infer (add_args (f_args d) []) (f_body d)) (f_thunk d).

(** lib/mir/src/analysis/environment_inference.rs 5-18. *)
Definition infer_module (m : mmodule) : mmodule := set_defs m (map infer_global (m_defs m)).
