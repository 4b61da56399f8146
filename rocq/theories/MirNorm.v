(** Normalization and alias removal. *)
From Coq Require Import String List Arith Bool.
From Verif Require Import Base Mir Names MirAlpha.
Import ListNotations.
Local Open Scope string_scope.

(** ** Alias removal *)

(** [variables.remove(name)] *)
Definition forget (x : string) (vars : renaming) : renaming :=
  List.filter (fun p => negb (String.eqb (fst p) x)) vars.

Definition forget_all (xs : list string) (vars : renaming) : renaming :=
  fold_left (fun vars x => forget x vars) xs vars.

(** lib/mir/src/analysis/normalization/alias_removal.rs 3-176. *)
Fixpoint alias (vars : renaming) (e : expr) : expr :=
  match e with
  | Lit l => Lit l
  | Var x => Var (subst vars x)
  | Op o es => Op o (map (alias vars) es)
  | If c t e => If (alias vars c) (alias vars t) (alias vars e)
  | Case a alts de =>
      Case (alias vars a)
           (map (fun al => Alt (a_types al) (a_name al) (alias (forget (a_name al) vars) (a_body al))) alts)
           (match de with
            | Some (x, e) => Some (x, alias (forget x vars) e)
            | None => None
            end)
  | Let x t b e =>
      match alias vars b with
      | Var y => alias ((x, y) :: vars) e
      | b => Let x t b (alias (forget x vars) e)
      end
  | LetRec d e =>
      LetRec (Fdef (f_name d) (subst_args vars (f_env d)) (f_args d) (f_result d)
                   (alias (forget_all (map fst (f_args d)) (forget (f_name d) vars)) (f_body d))
                   (f_thunk d))
             (alias (forget (f_name d) vars) e)
  | Try o x t e => Try (alias vars o) x t (alias (forget x vars) e)
  | CloneVars xs e => CloneVars xs (alias vars e)
  | DropVars xs e => DropVars xs (alias vars e)
  end.

(** ** Normalization

    The transformation is written with continuations, as in the code; the
    second component of the state is the index of
    lib/mir/src/analysis/normalization/context.rs 5-29. *)
Definition cont := expr -> nat -> expr * nat.

Definition ret : cont := fun e n => (e, n).

(** lib/mir/src/analysis/normalization/context.rs 22-28. *)
Definition anf (n : nat) : string := numbered "anf:v" n.

(** lib/mir/src/analysis/normalization.rs 258-263. *)
Definition is_atom (e : expr) : bool :=
  match e with
  | Lit _ | Var _ => true
  | _ => false
  end.

Section Operands.
  Variable norm : expr -> cont -> nat -> expr * nat.

  (** lib/mir/src/analysis/normalization.rs 249-277. *)
  Definition norm_bound (e : expr) (t : mtype) (k : cont) (n : nat) : expr * nat :=
    norm e (fun e n =>
      if is_atom e then k e n
      else
        let '(e', n') := k (Var (anf n)) (S n) in
        (Let (anf n) t e e', n')) n.

  (** An operand is bound to a variable of the given type, or kept in place. *)
  Definition norm_operand (e : expr) (t : option mtype) (k : cont) (n : nat) : expr * nat :=
    match t with
    | Some t => norm_bound e t k n
    | None => norm e k n
    end.

  (** lib/mir/src/analysis/normalization.rs 279-311 ([zip] stops at the end of
      the shorter list). *)
  Fixpoint norm_operands (es : list expr) (ts : list (option mtype)) (acc : list expr)
           (k : list expr -> nat -> expr * nat) (n : nat) : expr * nat :=
    match es, ts with
    | e :: es', t :: ts' =>
        norm_operand e t (fun e n => norm_operands es' ts' (acc ++ [e]) k n) n
    | _, _ => k acc n
    end.
End Operands.

Definition record_types (m : mmodule) (name : string) : list mtype :=
  match lookup (m_types m) name with
  | Some ts => ts
  | None => []          (* the code panics *)
  end.

(** Which operands are bound to variables, and their types:
    lib/mir/src/analysis/normalization.rs 63-91, 121-129, 159-219, 233-240. *)
Definition operand_types (m : mmodule) (o : operation) (k : nat) : list (option mtype) :=
  match o with
  | OArith _ | OCompare _ => [Some TNumber; None]
  | OConcat => repeat (Some TByteString) k
  | ORecord name => map Some (record_types m name)
  | OField _ _ | OVariant _ | OTypeInfo | OSync _ => [None]
  | OUpdate name is_ =>
      Some (TRecord name) :: map (fun i => Some (nth i (record_types m name) TNone)) is_
  | OCall ts t => Some (TFunction ts t) :: map Some ts
  end.

Section Norm.
  Variable m : mmodule.
  (** What happens to the bodies of definitions after normalization. *)
  Variable clean : expr -> expr.

  (** lib/mir/src/analysis/normalization.rs 39-247.  Line 131 turns
      DropVariables into CloneVariables. *)
  Fixpoint norm (e : expr) (k : cont) (n : nat) {struct e} : expr * nat :=
    match e with
    | Lit _ | Var _ => k e n
    | Op o es =>
        norm_operands norm es (operand_types m o (length es)) [] (fun es n => k (Op o es) n) n
    | If c t e =>
        norm c (fun c n =>
          let '(t, n) := norm t ret n in
          let '(e, n) := norm e ret n in
          k (If c t e) n) n
    | Case a alts de =>
        norm a (fun a n =>
          let '(alts, n) :=
            map_state (fun al n =>
              let '(b, n) := norm (a_body al) ret n in
              (Alt (a_types al) (a_name al) b, n)) alts n in
          match de with
          | Some (x, e) =>
              let '(e, n) := norm e ret n in
              k (Case a alts (Some (x, e))) n
          | None => k (Case a alts None) n
          end) n
    | Let x t b e =>
        norm b (fun b n =>
          let '(e, n) := norm e k n in
          (Let x t b e, n)) n
    | LetRec d e =>
        let '(b, n) := norm (f_body d) ret n in
        let '(e, n) := norm e k n in
        (LetRec (Fdef (f_name d) (f_env d) (f_args d) (f_result d) (clean b) (f_thunk d)) e, n)
    | Try o x t e =>
        norm o (fun o n =>
          let '(e, n) := norm e ret n in
          k (Try o x t e) n) n
    | CloneVars xs e => norm e (fun e n => k (CloneVars xs e) n) n
    | DropVars xs e => norm e (fun e n => k (CloneVars xs e) n) n
    end.

  (** lib/mir/src/analysis/normalization.rs 39-51 on a global definition. *)
  Definition norm_def (d : fdef) (n : nat) : fdef * nat :=
    let '(b, n) := norm (f_body d) ret n in
    (set_body d (clean b), n).
End Norm.

(** lib/mir/src/analysis/normalization.rs 17-37. *)
Definition norm_module (m : mmodule) : mmodule :=
  set_defs m (fst (map_state (norm_def m (alias [])) (m_defs m) 0)).
