(** What it means that a Pen program never ends: its evaluation goes on for ever
    inside some expression that is still being evaluated. *)
From Coq Require Import String List ZArith Bool.
From Verif Require Import Base Mir HirType HirTypeSpec Hir HirSpec LowerSpec HirMeaning.
Import ListNotations.

Section Forever.
  Variable E : tenv.
  Variable own : renv.
  Variable p : hmodule.
  Variable w : world.
  Variable outer : list (string * list hvalue) -> string -> list hvalue -> hvalue -> Prop.
  Notation evs := (evs E own p w outer).
  Notation in_order := (in_order E own).
  Notation read := (read E own).

  (** An expression under evaluation: the state it started from, its variables and itself *)
  Definition pending : Type := (hstate * henv * hexpr)%type.

  (** [enters s g us q]: a call of [g] with [us] evaluates the body [q]. *)
  Inductive enters : hstate -> hvalue -> list hvalue -> pending -> Prop :=
  | en_closure : forall s xs body rho us, List.length us = List.length xs ->
      enters s (UClosure xs body rho) us (s, bound_to xs us rho, body)
  | en_function : forall s g l us, lookup (h_defs p) g = Some l -> l_arguments l <> [] ->
      List.length us = List.length (l_arguments l) ->
      enters s (UGlobal g) us (s, bound_to (map fst (l_arguments l)) us [], l_body l)
  | en_once : forall s g l, lookup (h_defs p) g = Some l -> l_arguments l = [] -> lookup (kept s) g = None ->
      enters s (UGlobal g) [] (s, [], l_body l).

  (** [goes_on q q']: the evaluation [q] contains the evaluation [q'], of an operand,
      a branch, the rest of a block or the body of a called function.  All that
      comes before [q'] has ended. *)
  Inductive goes_on : pending -> pending -> Prop :=
  | on_operand : forall s rho e before e1 after us s1, operands e = (before ++ e1 :: after)%list ->
      evs s rho before (inl us) s1 -> goes_on (s, rho, e) (s1, rho, e1)
  | on_call : forall s rho ft ts r f args g us s1 q, (forall b, f <> HBuiltIn b) ->
      teq E ft (TFunction ts r) -> List.length args = List.length ts ->
      evs s rho (f :: args) (inl (g :: us)) s1 -> enters s1 g us q -> goes_on (s, rho, HCall (Some ft) f args) q
  | on_if : forall s rho c a b x s1,
      evs s rho [c] (inl [UBoolean x]) s1 -> goes_on (s, rho, HIf c a b) (s1, rho, if x then a else b)
  | on_if_type : forall s rho x a bs els t u s1 bt body v,
      evs s rho [a] (inl [UTagged t u]) s1 -> first_taking E t (all_branches bs els) (bt, body) ->
      opened E bt t u v -> goes_on (s, rho, HIfType x a bs els) (s1, (x, v) :: rho, body)
  | on_let : forall s rho x t b e u s1,
      evs s rho [b] (inl [u]) s1 -> goes_on (s, rho, HLet (Some x) t b e) (s1, (x, u) :: rho, e)
  | on_statement : forall s rho t b e u s1,
      evs s rho [b] (inl [u]) s1 -> goes_on (s, rho, HLet None t b e) (s1, rho, e)
  | on_and : forall s rho l r s1,
      evs s rho [l] (inl [UBoolean true]) s1 -> goes_on (s, rho, HBinary (BinBoolean HAnd) l r) (s1, rho, r)
  | on_or : forall s rho l r s1,
      evs s rho [l] (inl [UBoolean false]) s1 -> goes_on (s, rho, HBinary (BinBoolean HOr) l r) (s1, rho, r)
  | on_equality_left : forall s rho t op l r,
      in_order t -> goes_on (s, rho, HBinary (BinEquality (Some t) op) l r) (s, rho, l)
  | on_equality_right : forall s rho t op l r a x s1,
      in_order t -> evs s rho [l] (inl [a]) s1 -> read t a x ->
      goes_on (s, rho, HBinary (BinEquality (Some t) op) l r) (s1, rho, r).

  (** A call that never ends, as the endless sequence of evaluations inside it *)
  Definition never_ends (s : hstate) (g : hvalue) (us : list hvalue) (q : nat -> pending) : Prop :=
    enters s g us (q 0) /\ forall i, goes_on (q i) (q (S i)).

  (** The state after what has ended before an evaluation began *)
  Definition reached (q : pending) : hstate := fst (fst q).
End Forever.
