(** What the validator of reference counts checks. *)
From Coq Require Import String List ZArith.
From Verif Require Import Base Mir MirScopeSpec MirNormSpec MirRcSpec.
Import ListNotations.

(** The references made for each variable in scope minus those used up so far,
    innermost variable first.  Unlike [ownership] this may be negative: the
    order of the uses and the clones does not matter. *)
Definition balance := list (string * Z).

Fixpoint add_to (k : Z) (x : string) (o : balance) : balance :=
  match o with
  | [] => []
  | (y, n) :: o' => if String.eqb x y then (y, n + k)%Z :: o' else (y, n) :: add_to k x o'
  end.

Definition add_to_all (k : Z) (xs : list string) (o : balance) : balance :=
  fold_left (fun o x => add_to k x o) xs o.

(** The end of a path: the value is available; the function returned early
    with no reference left; or some references were not used up, or used up too
    often, at the end of a scope or at an early return. *)
Inductive net_ending : Type :=
| NetValue (o : balance)
| NetEarly
| NetFault.

Definition net_after (r : net_ending) (f : balance -> list net_ending) : list net_ending :=
  match r with
  | NetValue o => f o
  | r => [r]
  end.

Definition net_leave (r : net_ending) : net_ending :=
  match r with
  | NetValue ((_, 0%Z) :: o) => NetValue o
  | NetValue _ => NetFault
  | r => r
  end.

Definition settled (o : balance) : bool := forallb (fun p => Z.eqb (snd p) 0) o.

Definition net_return (r : net_ending) : net_ending :=
  match r with
  | NetValue o => if settled o then NetEarly else NetFault
  | r => r
  end.

Section Operands.
  Variable net : expr -> balance -> list net_ending.

  Fixpoint operand_net (es : list expr) (o : balance) : list net_ending :=
    match es with
    | [] => [NetValue o]
    | e :: es' => flat_map (fun r => net_after r (operand_net es')) (net e o)
    end.
End Operands.

Fixpoint net (e : expr) (o : balance) {struct e} : list net_ending :=
  match e with
  | Lit _ => [NetValue o]
  | Var x => [NetValue (add_to (-1) x o)]
  | Op _ es => operand_net net es o
  | If c t e => flat_map (fun r => net_after r (fun o => net t o ++ net e o)) (net c o)
  | Case a alts de =>
      flat_map (fun r => net_after r (fun o =>
        map net_leave
          (flat_map (fun al => net (a_body al) ((a_name al, 1%Z) :: o)) alts ++
           match de with
           | Some (x, e) => net e ((x, 1%Z) :: o)
           | None => []
           end))) (net a o)
  | Let x _ b e => flat_map (fun r => net_after r (fun o => map net_leave (net e ((x, 1%Z) :: o)))) (net b o)
  | LetRec d e => map net_leave (net e ((f_name d, 1%Z) :: add_to_all (-1) (map fst (f_env d)) o))
  | Try a x _ e =>
      flat_map (fun r => net_after r (fun o =>
        NetValue o :: map net_return (net e ((x, 1%Z) :: o)))) (net a o)
  | CloneVars xs e => net e (add_to_all 1 (map fst xs) o)
  | DropVars xs e => net e (add_to_all (-1) (map fst xs) o)
  end.

(** On every path through a function as many references are used up as are
    made, for every variable. *)
Definition net_balanced (local : bool) (d : fdef) : Prop :=
  forall r, In r (net (f_body d) (map (fun p => (fst p, Z.of_nat (snd p))) (at_entry local d))) ->
    match r with
    | NetValue o => settled o = true
    | NetEarly => True
    | NetFault => False
    end.

Definition references_net_balanced (m : mmodule) : Prop :=
  forall g, In g (m_defs m) ->
    net_balanced false g /\ forall d e, within (LetRec d e) (f_body g) -> net_balanced true d.

(** ** What the validator may assume *)

(** The variables that an expression mentions and does not bind. *)
Fixpoint mentioned (e : expr) (x : string) {struct e} : Prop :=
  match e with
  | Lit _ => False
  | Var y => x = y
  | Op _ es => (fix any (es : list expr) : Prop :=
                  match es with [] => False | e :: es' => mentioned e x \/ any es' end) es
  | If c t e => mentioned c x \/ mentioned t x \/ mentioned e x
  | Case a alts de =>
      mentioned a x \/
      (fix any (alts : list alt) : Prop :=
         match alts with
         | [] => False
         | al :: alts' => (mentioned (a_body al) x /\ x <> a_name al) \/ any alts'
         end) alts \/
      match de with
      | Some (y, e) => mentioned e x /\ x <> y
      | None => False
      end
  | Let y _ b e => mentioned b x \/ (mentioned e x /\ x <> y)
  | LetRec d e => In x (map fst (f_env d)) \/ (mentioned e x /\ x <> f_name d)
  | Try a y _ e => mentioned a x \/ (mentioned e x /\ x <> y)
  | CloneVars xs e | DropVars xs e => In x (map fst xs) \/ mentioned e x
  end.

(** The variables bound in the body of a function, without those of the
    functions inside it. *)
Fixpoint own_binders (e : expr) : list string :=
  match e with
  | Lit _ | Var _ => []
  | Op _ es => flat_map own_binders es
  | If c t e => own_binders c ++ own_binders t ++ own_binders e
  | Case a alts de =>
      own_binders a ++ flat_map (fun al => a_name al :: own_binders (a_body al)) alts ++
      match de with
      | Some (x, e) => x :: own_binders e
      | None => []
      end
  | Let x _ b e => x :: own_binders b ++ own_binders e
  | LetRec d e => f_name d :: own_binders e
  | Try o x _ e => x :: own_binders o ++ own_binders e
  | CloneVars _ e => own_binders e
  | DropVars _ e => own_binders e
  end.

(** The names of the references a function owns at its start. *)
Definition parameters (local : bool) (d : fdef) : list string := map fst (at_entry local d).

(** The functions of a module, global and local. *)
Definition function_of (m : mmodule) (local : bool) (d : fdef) : Prop :=
  if local then exists g e, In g (m_defs m) /\ within (LetRec d e) (f_body g) else In d (m_defs m).

(** In no function does a variable in scope hide another one. *)
Definition no_shadowing (m : mmodule) : Prop :=
  forall local d, function_of m local d -> NoDup (parameters local d ++ own_binders (f_body d)).

(** In no function does a local variable have the name of a global function
    the function mentions. *)
Definition globals_not_hidden (m : mmodule) : Prop :=
  forall local d x, function_of m local d ->
    mentioned (f_body d) x -> ~ In x (parameters local d) -> ~ In x (own_binders (f_body d)).

(** Every case expression has a branch. *)
Definition no_empty_case (m : mmodule) : Prop :=
  forall g a, In g (m_defs m) -> ~ within (Case a [] None) (f_body g).
