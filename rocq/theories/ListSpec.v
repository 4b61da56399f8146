(** Specification of lists as sequences, in terms of what calls do.

    A list is a record with a function: its node.  A call of the node gives none at
    the end of the list, and otherwise an element and the node of the rest.  An
    element is a function, and calls of it give the element's value. *)
From Coq Require Import String List ZArith Bool.
From Verif Require Import Base HirType Hir HirMir Mir RunSpec.
Import ListNotations.
Local Open Scope string_scope.

Definition the_end : value := VVariant TNone VNone.
Definition the_node (f rest : value) : value :=
  VVariant (TRecord "prelude:node") (VRecord "prelude:node" [f; rest]).
Definition the_list (node : value) : value := VRecord "prelude:List" [node].

Section Lists.
  Variable w : world.
  Variable m : mmodule.
  Notation runs := (runs w m).

  (** [sequence st l fs st']: going through the list [l] from the state [st] gives
      the elements [fs] and leaves the state [st'].  No element is evaluated. *)
  Inductive nodes : state -> value -> list value -> state -> Prop :=
  | nodes_end : forall st n st', runs st n [] the_end st' -> nodes st n [] st'
  | nodes_more : forall st n f r st1 fs st',
      runs st n [] (the_node f r) st1 -> nodes st1 r fs st' -> nodes st n (f :: fs) st'.
  Definition sequence (st : state) (l : value) (fs : list value) (st' : state) : Prop :=
    exists n, l = the_list n /\ nodes st n fs st'.

  (** The same for lists that are gone through in several orders, or several times:
      in all states that satisfy [Inv], the list has the elements [xs], where [P x f]
      says that the function [f] gives the element [x]. *)
  Section Stable.
    Variable Inv : state -> Prop.
    Context {A : Type}.
    Variable P : A -> value -> Prop.

    Fixpoint stable_nodes (n : value) (xs : list A) : Prop :=
      forall st, Inv st ->
      match xs with
      | [] => exists st', runs st n [] the_end st' /\ Inv st'
      | x :: xs' => exists f r st', runs st n [] (the_node f r) st' /\ Inv st' /\ P x f /\ stable_nodes r xs'
      end.
    Definition stable (l : value) (xs : list A) : Prop := exists n, l = the_list n /\ stable_nodes n xs.
  End Stable.

  (** In all states that satisfy [Inv], calls of [f] give values that represent [x]. *)
  Definition gives (Inv : state -> Prop) {A} (Q : A -> value -> Prop) (x : A) (f : value) : Prop :=
    forall st, Inv st -> exists u st', runs st f [] u st' /\ Inv st' /\ Q x u.

  (** In all states that satisfy [Inv], calls of [f] compare [x] and [y] as [eq]. *)
  Definition compares (Inv : state -> Prop) {A R} (Q : A -> value -> Prop) (result : R -> value)
      (eq : A -> A -> R) (f : value) (x y : A) : Prop :=
    forall st u v, Inv st -> Q x u -> Q y v -> exists st', runs st f [u; v] (result (eq x y)) st' /\ Inv st'.
End Lists.

(** The empty list is a function without arguments, whose value is kept: if it has
    one, it is an empty list.  True of the initial state, and kept by every call. *)
Definition fair (w : world) (m : mmodule) (st : state) : Prop :=
  forall v, lookup (s_globals st) "prelude:EmptyList" = Some v ->
    exists n, v = the_list n /\ forall st1, nodes w m st1 n [] st1.

(** The comparison of two sequences with a comparison of elements that may give
    neither true nor false: the first pair that is not equal decides. *)
Fixpoint compare_with {A} (eq : A -> A -> option bool) (xs ys : list A) : option bool :=
  match xs, ys with
  | [], [] => Some true
  | x :: xs, y :: ys =>
      match eq x y with
      | Some true => compare_with eq xs ys
      | r => r
      end
  | _, _ => Some false
  end.

(** The same with a comparison that gives true or false *)
Fixpoint equal_with {A} (eq : A -> A -> bool) (xs ys : list A) : bool :=
  match xs, ys with
  | [], [] => true
  | x :: xs, y :: ys => eq x y && equal_with eq xs ys
  | _, _ => false
  end.

(** A value of the type [boolean | none] *)
Definition maybe (b : option bool) : value :=
  match b with
  | Some b => VVariant TBoolean (VBool b)
  | None => VVariant TNone VNone
  end.

(** ** List literals *)

(** The names of the list functions in the compiler's configuration:
    /repo/cmd/pen/src/compile_configuration.rs 22-70. *)
Record list_names (C : config) : Prop := ListNames {
  ln_empty : list_empty C = "prelude:EmptyList";
  ln_concatenate : list_concatenate C = "prelude:ConcatenateLists";
  ln_prepend : list_prepend C = "prelude:PrependToList";
  ln_lazy : list_lazy C = "prelude:LazyList";
  ln_deconstruct : list_deconstruct C = "prelude:FirstRest";
  ln_first : list_first C = "prelude:First";
  ln_rest : list_rest C = "prelude:Rest";
  ln_equal : list_equal C = "prelude:EqualLists";
  ln_size : list_size C = "prelude:ListSize";
  ln_hash : hash_list C = "prelude:HashList";
  ln_type : list_type C = "prelude:List";
  ln_first_rest : list_first_rest C = "prelude:FirstRest"
}.

(** The code of an element of a literal of the type [list t]: the code of a single
    element makes a value of type [any]. *)
Inductive code : Type :=
| OneElement (e : expr)
| ManyElements (e : expr).

Definition coded n E R C (t : ty) (el : element) (c : code) : Prop :=
  match el, c with
  | Single e, OneElement e' => exists k, compile n E R C k (HCoerce t TAny e) = Ok e'
  | Multiple e, ManyElements e' => exists k, compile n E R C k e = Ok e'
  | _, _ => False
  end.

(** No local variable has the name of a function of the prelude. *)
Definition sees_globals (m : mmodule) (rho : env) : Prop :=
  forall g d, find_def (m_defs m) g = Some d -> lookup rho g = None.

(** The module imports the list type. *)
Definition imports_lists (E : tenv) : Prop :=
  lookup E "prelude:List" = Some (HirType.TRecord "prelude:List" "List").

(** [elements rho base cs st fs st']: the elements of a list literal with the code
    [cs], the variables [rho] and the cells [base], [base] + 1, ... for its thunks,
    for a walk through the list from [st] to [st'].  The thunk of an element is an
    element; the thunk of a spread list is called for the list, whose elements are
    elements. *)
Definition thunk (t : mtype) (e : expr) : fdef := Fdef "$thunk" [] [] t e true.

Section Literal.
  Variable w : world.
  Variable m : mmodule.

  Inductive elements (rho : env) : nat -> list code -> state -> list value -> state -> Prop :=
  | elements_nil : forall base st, elements rho base [] st [] st
  | elements_one : forall base e cs st fs st',
      elements rho (S base) cs st fs st' ->
      elements rho base (OneElement e :: cs) st (VThunk base (thunk TVariant e) rho :: fs) st'
  | elements_many : forall base e cs st n st1 fs st2 gs st3,
      runs w m st (VThunk base (thunk (TRecord "prelude:List") e) rho) [] (the_list n) st1 ->
      nodes w m st1 n fs st2 -> elements rho (S base) cs st2 gs st3 ->
      elements rho base (ManyElements e :: cs) st (fs ++ gs) st3.
End Literal.
