(** Topological sorting of a finite graph of named nodes.

    The code calls [petgraph::algo::toposort], which is not part of /repo.
    [toposort] is a stand-in with the same contract: an ordering of the nodes in
    which every edge goes forward, or nothing if there is a cycle.  Which of
    several such orderings petgraph picks is not modelled. *)
From Coq Require Import String List Arith Lia Bool Relations Permutation.
From Verif Require Import Base.
Import ListNotations.

Definition edge := (string * string)%type.

Definition has_incoming (edges : list edge) (x : string) : bool :=
  existsb (fun e => String.eqb (snd e) x) edges.

Definition remove_node (x : string) (nodes : list string) : list string :=
  filter (fun y => negb (String.eqb x y)) nodes.

Fixpoint toposort_n (n : nat) (nodes : list string) (edges : list edge) : option (list string) :=
  match nodes with
  | [] => Some []
  | _ :: _ =>
      match n with
      | O => None
      | S n =>
          match find (fun x => negb (has_incoming edges x)) nodes with
          | None => None
          | Some x =>
              option_map (cons x)
                (toposort_n n (remove_node x nodes) (filter (fun e => negb (String.eqb x (fst e))) edges))
          end
      end
  end.

Definition toposort (nodes : list string) (edges : list edge) : option (list string) :=
  toposort_n (length nodes) nodes edges.

(** Specification *)
Definition reaches (edges : list edge) : string -> string -> Prop :=
  clos_trans string (fun x y => In (x, y) edges).

Definition has_cycle (edges : list edge) : Prop := exists x, reaches edges x x.

(** [x] comes before [y] in [l]. *)
Definition before (l : list string) (x y : string) : Prop :=
  exists l1 l2 l3, l = l1 ++ x :: l2 ++ y :: l3.
