(** Ownership of references along the paths of a function. *)
From Coq Require Import String List.
From Verif Require Import Base Mir MirScopeSpec MirNormSpec.
Import ListNotations.

(** How many references each local variable in scope owns, innermost first.
    Variables that are not listed are global functions, which are not
    counted. *)
Definition ownership := list (string * nat).

Fixpoint own_set (x : string) (n : nat) (o : ownership) : ownership :=
  match o with
  | [] => []
  | (y, k) :: o' => if String.eqb x y then (y, n) :: o' else (y, k) :: own_set x n o'
  end.

(** The operands that have been evaluated and wait for their operation:
    [Some x] is the reference that was in the variable [x], [None] another
    reference. *)
Definition waiting := list (option string).

(** The end of a path through an expression: its value is available; the
    function returned early; or a reference was misused (used, cloned or
    dropped when none was left) or lost. *)
Inductive ending : Type :=
| Value (o : ownership) (held : waiting)
| Early
| Fault.

(** Uses a reference of a variable. *)
Definition take (x : string) (o : ownership) : option ownership :=
  match lookup o x with
  | None => Some o
  | Some 0 => None
  | Some (S n) => Some (own_set x n o)
  end.

Fixpoint take_all (xs : list string) (o : ownership) : option ownership :=
  match xs with
  | [] => Some o
  | x :: xs' => match take x o with Some o => take_all xs' o | None => None end
  end.

(** Makes a reference from one that is still in the variable or in an operand
    that waits. *)
Definition duplicate (w : waiting) (x : string) (o : ownership) : option ownership :=
  match lookup o x with
  | None => Some o
  | Some 0 => if existsb (fun h => match h with Some y => String.eqb x y | None => false end) w
              then Some (own_set x 1 o) else None
  | Some n => Some (own_set x (S n) o)
  end.

Fixpoint duplicate_all (w : waiting) (xs : list string) (o : ownership) : option ownership :=
  match xs with
  | [] => Some o
  | x :: xs' => match duplicate w x o with Some o => duplicate_all w xs' o | None => None end
  end.

Definition nothing_owned (o : ownership) : bool := forallb (fun p => Nat.eqb (snd p) 0) o.

(** The end of the scope of the innermost variable. *)
Definition leave_scope (r : ending) : ending :=
  match r with
  | Value ((_, 0) :: o) _ => Value o [None]
  | Value _ _ => Fault
  | r => r
  end.

(** An early return must not lose references of variables or of operands that
    wait. *)
Definition return_early (w : waiting) (r : ending) : ending :=
  match r, w with
  | Value o _, [] => if nothing_owned o then Early else Fault
  | Value _ _, _ => Fault
  | Early, [] => Early
  | _, _ => Fault
  end.

Definition after (r : ending) (f : ownership -> waiting -> list ending) : list ending :=
  match r with
  | Value o h => f o h
  | r => [r]
  end.

(** Numbers are not counted, so the operands of arithmetic do not matter while
    they wait. *)
Definition counted (o : operation) : bool :=
  match o with
  | OArith _ | OCompare _ => false
  | _ => true
  end.

Section Operands.
  Variable paths : waiting -> expr -> ownership -> list ending.
  Variable keep : bool.

  Fixpoint operand_paths (w : waiting) (es : list expr) (o : ownership) : list ending :=
    match es with
    | [] => [Value o []]
    | e :: es' =>
        flat_map (fun r => after r (fun o h => operand_paths (if keep then h ++ w else w) es' o)) (paths w e o)
    end.
End Operands.

(** The ends of all paths through an expression.  Every operation uses the
    references of its operands; a local function uses a reference of each
    variable it captures; the value of a function is given to its caller. *)
Fixpoint paths (w : waiting) (e : expr) (o : ownership) {struct e} : list ending :=
  match e with
  | Lit _ => [Value o []]
  | Var x =>
      match take x o with
      | Some o' => [Value o' (match lookup o x with Some _ => [Some x] | None => [] end)]
      | None => [Fault]
      end
  | Op op es =>
      flat_map (fun r => after r (fun o _ => [Value o [None]])) (operand_paths paths (counted op) w es o)
  | If c t e =>
      flat_map (fun r => after r (fun o _ =>
        flat_map (fun r => after r (fun o _ => [Value o [None]])) (paths w t o ++ paths w e o))) (paths w c o)
  | Case a alts de =>
      flat_map (fun r => after r (fun o _ =>
        map leave_scope
          (flat_map (fun al => paths w (a_body al) ((a_name al, 1) :: o)) alts ++
           match de with
           | Some (x, e) => paths w e ((x, 1) :: o)
           | None => []
           end))) (paths w a o)
  | Let x _ b e =>
      flat_map (fun r => after r (fun o _ => map leave_scope (paths w e ((x, 1) :: o)))) (paths w b o)
  | LetRec d e =>
      match take_all (map fst (f_env d)) o with
      | Some o => map leave_scope (paths w e ((f_name d, 1) :: o))
      | None => [Fault]
      end
  | Try a x _ e =>
      flat_map (fun r => after r (fun o _ =>
        Value o [None] :: map (return_early w) (paths [] e ((x, 1) :: o)))) (paths w a o)
  | CloneVars xs e =>
      match duplicate_all w (map fst xs) o with
      | Some o => paths w e o
      | None => [Fault]
      end
  | DropVars xs e =>
      match take_all (map fst xs) o with
      | Some o => paths w e o
      | None => [Fault]
      end
  end.

(** What a function owns at its start: its arguments, and, if it is local, a
    reference to itself and to each captured variable
    (lib/mir-fmm/src/entry_function.rs clones them for the body). *)
Definition at_entry (local : bool) (d : fdef) : ownership :=
  map (fun x => (x, 1)) ((if local then [f_name d] else []) ++ map fst (f_env d) ++ map fst (f_args d)).

(** Every path through a function uses each reference exactly once. *)
Definition balanced (local : bool) (d : fdef) : Prop :=
  forall r, In r (paths [] (f_body d) (at_entry local d)) ->
    match r with
    | Value o _ => nothing_owned o = true
    | Early => True
    | Fault => False
    end.

(** Every function of the module, global or local, is balanced. *)
Definition references_balanced (m : mmodule) : Prop :=
  forall g, In g (m_defs m) ->
    balanced false g /\ forall d e, within (LetRec d e) (f_body g) -> balanced true d.

(** ** What reference counting may assume *)

(** The operands of an operation with several operands are variables or
    literals, except for arithmetic. *)
Definition simple (e : expr) : Prop :=
  match e with
  | Lit _ | Var _ => True
  | _ => False
  end.

Definition normal (m : mmodule) : Prop :=
  forall g o es, In g (m_defs m) -> within (Op o es) (f_body g) -> counted o = true -> 2 <= length es ->
    Forall simple es.

(** The front end makes try operations that return the error they bind. *)
Definition plain_tries (m : mmodule) : Prop :=
  forall g o x t e, In g (m_defs m) -> within (Try o x t e) (f_body g) -> exists t', e = Op (OVariant t') [Var x].

(** A global function captures nothing and has distinct arguments; the
    environment of a local function lists variables that its body uses. *)
Definition exact_scopes (m : mmodule) : Prop :=
  forall g, In g (m_defs m) ->
    f_env g = [] /\ NoDup (map fst (f_args g)) /\
    forall d e, within (LetRec d e) (f_body g) ->
      NoDup (f_name d :: map fst (f_args d) ++ map fst (f_env d)) /\
      forall x, In x (map fst (f_env d)) -> free x (f_body d).

(** No references are counted yet. *)
Definition not_counted (m : mmodule) : Prop :=
  forall g, In g (m_defs m) -> forall xs e,
    ~ within (CloneVars xs e) (f_body g) /\ ~ within (DropVars xs e) (f_body g).

(** [hides_none later e]: when the variables [later] are still used after [e],
    no part of [e] binds the name of a variable that is still to be used.  In
    the branches of a case expression, those are the variables that are used
    later or in any of the branches. *)
Section Hiding.
  Variable hides_none : (string -> Prop) -> expr -> Prop.

  Fixpoint operands_hide_none (later : string -> Prop) (es : list expr) : Prop :=
    match es with
    | [] => True
    | e :: es' =>
        hides_none (fun x => later x \/ exists e', In e' es' /\ free x e') e /\ operands_hide_none later es'
    end.

  Fixpoint branches_hide_none (later branch : string -> Prop) (alts : list alt) : Prop :=
    match alts with
    | [] => True
    | al :: alts' =>
        ~ later (a_name al) /\ ~ branch (a_name al) /\ hides_none later (a_body al) /\
        branches_hide_none later branch alts'
    end.
End Hiding.

Fixpoint hides_none (later : string -> Prop) (e : expr) {struct e} : Prop :=
  match e with
  | Lit _ | Var _ => True
  | Op _ es => operands_hide_none hides_none later es
  | If c t e =>
      hides_none (fun x => later x \/ free x t \/ free x e) c /\ hides_none later t /\ hides_none later e
  | Case a alts de =>
      let branch x :=
        (exists al, In al alts /\ x <> a_name al /\ free x (a_body al)) \/
        match de with
        | Some (y, e) => x <> y /\ free x e
        | None => False
        end in
      hides_none (fun x => later x \/ branch x) a /\
      branches_hide_none hides_none later branch alts /\
      match de with
      | Some (y, e) => ~ later y /\ ~ branch y /\ hides_none later e
      | None => True
      end
  | Let x _ b e => ~ later x /\ hides_none (fun y => later y \/ y <> x /\ free y e) b /\ hides_none later e
  | LetRec d e => ~ later (f_name d) /\ hides_none later e
  | Try o x _ e => ~ later x /\ hides_none later o
  | CloneVars _ e | DropVars _ e => hides_none later e
  end.

(** No function, global or local, binds the name of a variable that it still
    uses afterwards. *)
Definition hides_nothing (m : mmodule) : Prop :=
  forall g, In g (m_defs m) ->
    hides_none (fun _ => False) (f_body g) /\
    forall d e, within (LetRec d e) (f_body g) -> hides_none (fun _ => False) (f_body d).
