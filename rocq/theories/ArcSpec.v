(** What users of a reference-counted block rely on. *)
From Coq Require Import ZArith List Bool.
From Verif Require Import Arc.
Import ListNotations.

(** Handles that threads hold, including the one a call to [drop] has not given up
    yet and the one a call to [clone] has made but not returned yet. *)
Definition in_flight (t : thread) : nat :=
  match running t with
  | Some (Drop, (Load _ | Store _ _ | FetchAdd _ _ | FetchSub _ _)) => 1
  | Some (Clone, Return _) => 1
  | _ => 0
  end.
Definition total_handles (s : state) : nat := list_sum (map (fun t => handles t + in_flight t) (threads s)).

(** No thread is inside a method. *)
Definition quiet (s : state) : Prop := Forall (fun t => running t = None) (threads s).

(** One thread owns the only handle, the others nothing. *)
Definition fresh_threads (n i : nat) : list thread :=
  map (fun j => {| handles := if Nat.eqb i j then 1 else 0; running := None |}) (seq 0 n).
Definition initial (b : block) (n i : nat) : state := {| memory := b; threads := fresh_threads n i |}.

(** Executions in which there are never 2^63 handles or more. *)
Inductive execution (methods : operation -> code) : state -> state -> Prop :=
| execution_refl s : execution methods s s
| execution_step s s' s'' : execution methods s s' -> step methods s' s'' ->
    (Z.of_nat (total_handles s'') < 2 ^ 63)%Z -> execution methods s s''.

(** Two codes make the same actions whatever they read. *)
Inductive same_code : code -> code -> Prop :=
| same_load k l : (forall c, same_code (k c) (l c)) -> same_code (Load k) (Load l)
| same_store v k l : same_code k l -> same_code (Store v k) (Store v l)
| same_sub v k l : (forall c, same_code (k c) (l c)) -> same_code (FetchSub v k) (FetchSub v l)
| same_add v k l : (forall c, same_code (k c) (l c)) -> same_code (FetchAdd v k) (FetchAdd v l)
| same_drop k l : same_code k l -> same_code (DropPayload k) (DropPayload l)
| same_deallocate k l : same_code k l -> same_code (Deallocate k) (Deallocate l)
| same_read k l : same_code k l -> same_code (ReadPayload k) (ReadPayload l)
| same_return r : same_code (Return r) (Return r).
