(** Alpha conversion. *)
From Coq Require Import String List Arith Bool.
From Verif Require Import Base Mir Names.
Import ListNotations.

(** The counts of lib/mir/src/analysis/alpha_conversion/context.rs 5-7. *)
Definition counts := list (string * nat).

Definition count (cs : counts) (x : string) : nat :=
  match lookup cs x with
  | Some n => n
  | None => O
  end.

(** The name a variable gets when it is bound for the [c]-th time:
    lib/mir/src/analysis/alpha_conversion/context.rs 26-30. *)
Definition versioned (x : string) (c : nat) : string :=
  match c with
  | O => x
  | S _ => numbered x c
  end.

(** lib/mir/src/analysis/alpha_conversion/context.rs 16-31. *)
Definition rename (x : string) (cs : counts) : string * counts :=
  (versioned x (count cs x), (x, S (count cs x)) :: cs).

Definition renaming := list (string * string).

Definition subst (vars : renaming) (x : string) : string :=
  match lookup vars x with
  | Some y => y
  | None => x
  end.

(** lib/mir/src/analysis/alpha_conversion.rs 153-158. *)
Fixpoint rename_args (xs : list string) (vars : renaming) (cs : counts) : renaming * counts :=
  match xs with
  | [] => (vars, cs)
  | x :: xs' =>
      let '(y, cs) := rename x cs in
      rename_args xs' ((x, y) :: vars) cs
  end.

Definition subst_args (vars : renaming) (args : arguments) : arguments :=
  map (fun a => (subst vars (fst a), snd a)) args.

Section MapState.
  Context {A B S : Type}.
  Variable f : A -> S -> B * S.
  Fixpoint map_state (l : list A) (s : S) : list B * S :=
    match l with
    | [] => ([], s)
    | a :: l' =>
        let '(b, s) := f a s in
        let '(bs, s) := map_state l' s in
        (b :: bs, s)
    end.
End MapState.

(** lib/mir/src/analysis/alpha_conversion.rs 61-259. *)
Fixpoint alpha (vars : renaming) (e : expr) (cs : counts) : expr * counts :=
  match e with
  | Lit l => (Lit l, cs)
  | Var x => (Var (subst vars x), cs)
  | Op o es =>
      let '(es, cs) := map_state (alpha vars) es cs in
      (Op o es, cs)
  | If c t e =>
      let '(c, cs) := alpha vars c cs in
      let '(t, cs) := alpha vars t cs in
      let '(e, cs) := alpha vars e cs in
      (If c t e, cs)
  | Case a alts de =>
      let '(a, cs) := alpha vars a cs in
      let '(alts, cs) :=
        map_state (fun al cs =>
          let '(y, cs) := rename (a_name al) cs in
          let '(b, cs) := alpha ((a_name al, y) :: vars) (a_body al) cs in
          (Alt (a_types al) y b, cs)) alts cs in
      match de with
      | Some (x, e) =>
          let '(y, cs) := rename x cs in
          let '(e, cs) := alpha ((x, y) :: vars) e cs in
          (Case a alts (Some (y, e)), cs)
      | None => (Case a alts None, cs)
      end
  | Let x t b e =>
      let '(y, cs) := rename x cs in
      let '(b, cs) := alpha vars b cs in
      let '(e, cs) := alpha ((x, y) :: vars) e cs in
      (Let y t b e, cs)
  | LetRec d e =>
      let '(f, cs) := rename (f_name d) cs in
      let vars := (f_name d, f) :: vars in
      let '(inner, cs) := rename_args (map fst (f_args d)) vars cs in
      let '(b, cs) := alpha inner (f_body d) cs in
      let '(e, cs) := alpha vars e cs in
      (LetRec (Fdef f (subst_args inner (f_env d)) (subst_args inner (f_args d)) (f_result d) b
                    (f_thunk d)) e, cs)
  | Try o x t e =>
      let '(y, cs) := rename x cs in
      let '(o, cs) := alpha vars o cs in
      let '(e, cs) := alpha ((x, y) :: vars) e cs in
      (Try o y t e, cs)
  | CloneVars xs e =>
      let '(e, cs) := alpha vars e cs in
      (CloneVars xs e, cs)
  | DropVars xs e =>
      let '(e, cs) := alpha vars e cs in
      (DropVars xs e, cs)
  end.

(** lib/mir/src/analysis/alpha_conversion.rs 8-25. *)
Definition global_counts (m : mmodule) : counts :=
  map (fun g => (g, 1)) (map fst (m_declared m) ++ map f_name (m_defs m)).

(** lib/mir/src/analysis/alpha_conversion.rs 27-59. *)
Definition alpha_module (m : mmodule) : mmodule :=
  set_defs m (map (fun d => set_body d (fst (alpha [] (f_body d) (global_counts m)))) (m_defs m)).
