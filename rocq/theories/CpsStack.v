(** The continuation stacks of the foreign-function library.
    Sources: /repo/lib/ffi/src/cps/stack.rs, /repo/lib/ffi/src/cps/async_stack.rs. *)
From Coq Require Import List Bool Arith.
From Verif Require Import Base.
Import ListNotations.

(** constants.rs:1, stack.rs:5 *)
Definition DEFAULT_MEMORY_ALIGNMENT : nat := 8.
Definition CAPACITY_MULTIPLIER : nat := 2.

Definition byte := nat.
(** A Rust type, as far as the stack sees it. *)
Record layout := { layout_size : nat; layout_align : nat }.
(** A value as its bytes. *)
Record value := { value_layout : layout; value_bytes : list byte }.

(** [Layout::pad_to_align]: the size rounded up to a multiple of the alignment. *)
Definition round_up (n a : nat) : nat := (n + a - 1) / a * a.

(** stack.rs:56-62 [get_type_size] *)
Definition type_size (l : layout) : nat := round_up (layout_size l) (Nat.max (layout_align l) DEFAULT_MEMORY_ALIGNMENT).

(** stack.rs:7-13.  The bytes that were never written are [None]; the base pointer
    is not modelled. *)
Record stack := { memory : list (option byte); size : nat; capacity : nat }.

(** [realloc]: the bytes that fit are kept. *)
Definition realloc (m : list (option byte)) (n : nat) : list (option byte) :=
  firstn n m ++ repeat None (n - length m).

Definition write (m : list (option byte)) (offset : nat) (v : list byte) : list (option byte) :=
  firstn offset m ++ map Some v ++ skipn (offset + length v) m.
Definition read (m : list (option byte)) (offset n : nat) : list (option byte) := firstn n (skipn offset m).

(** stack.rs:16-24 [new]; the limit on the size of a layout is not modelled. *)
Definition new (n : nat) : stack :=
  let c := round_up n DEFAULT_MEMORY_ALIGNMENT in
  {| memory := repeat None c; size := 0; capacity := c |}.

(** stack.rs:29-40: the loop that makes room. *)
Fixpoint grow (fuel needed : nat) (m : list (option byte)) (c : nat) : res (list (option byte) * nat) :=
  match fuel with
  | O => OutOfFuel
  | S fuel =>
      if needed <=? c then Ok (m, c)
      else let c' := CAPACITY_MULTIPLIER * c in grow fuel needed (realloc m c') c'
  end.

(** stack.rs:26-44 [push].  The fuel is enough when the capacity is not zero. *)
Definition push (s : stack) (v : value) : res stack :=
  let n := type_size (value_layout v) in
  bind (grow (S (size s + n)) (size s + n) (memory s) (capacity s)) (fun '(m, c) =>
    Ok {| memory := write m (size s) (value_bytes v); size := size s + n; capacity := c |}).

(** stack.rs:46-50 [pop]: the bytes read, which the caller takes for a value of the
    type. *)
Definition pop (s : stack) (l : layout) : res (list (option byte) * stack) :=
  let n := type_size l in
  if size s <? n then Panic
  else let s' := {| memory := memory s; size := size s - n; capacity := capacity s |} in
       Ok (read (memory s) (size s') (layout_size l), s').

(** *** Asynchronous stacks *)

(** async_stack_action.rs *)
Inductive action := Suspend | Resume | Restore.
Definition action_eqb (a b : action) : bool :=
  match a, b with Suspend, Suspend | Resume, Resume | Restore, Restore => true | _, _ => false end.

(** error.rs *)
Inductive cps_error := MissingContext | UnexpectedAsyncStackAction (next : option action).

(** async_stack.rs:22-31.  [next_actions] has its last element first; the context is
    only there or not. *)
Record async_stack := { raw : stack; context : bool; next_actions : list action }.

(** async_stack.rs:34-41 *)
Definition async_new (n : nat) : async_stack := {| raw := new n; context := false; next_actions := [Suspend] |}.

Definition pointer_layout : layout := {| layout_size := 8; layout_align := 8 |}.

(** What an operation gives: a result, an error, or (in the stack below) a panic or
    an endless loop.  The state is there in either of the first two cases. *)
Inductive outcome (A : Type) :=
| Done (a : A) (s : async_stack)
| Failed (e : cps_error) (s : async_stack)
| Crashed.
Arguments Done {A}. Arguments Failed {A}. Arguments Crashed {A}.

(** async_stack.rs:139-147 [validate_action] *)
Definition validate_action (s : async_stack) (a : action) : outcome unit :=
  match next_actions s with
  | [] => Failed (UnexpectedAsyncStackAction None) s
  | b :: next =>
      let s' := {| raw := raw s; context := context s; next_actions := next |} in
      if action_eqb b a then Done tt s' else Failed (UnexpectedAsyncStackAction (Some b)) s'
  end.

(** async_stack.rs:149-151 [push_next_actions] *)
Definition push_next_actions (s : async_stack) (l : list action) : async_stack :=
  {| raw := raw s; context := context s; next_actions := l ++ next_actions s |}.

Definition with_raw {A} (s : async_stack) (r : res stack) (k : async_stack -> outcome A) : outcome A :=
  match r with
  | Ok raw => k {| raw := raw; context := context s; next_actions := next_actions s |}
  | _ => Crashed
  end.
Definition with_pop {A} (s : async_stack) (l : layout) (k : list (option byte) -> async_stack -> outcome A) : outcome A :=
  match pop (raw s) l with
  | Ok (v, raw) => k v {| raw := raw; context := context s; next_actions := next_actions s |}
  | _ => Crashed
  end.

(** async_stack.rs:63-81 [suspend]; functions are their pointers. *)
Definition suspend (s : async_stack) (step continuation future : value) : outcome unit :=
  match validate_action s Suspend with
  | Done _ s =>
      let s := push_next_actions s [Resume; Restore; Suspend] in
      with_raw s (push (raw s) future) (fun s =>
      with_raw s (push (raw s) step) (fun s =>
      with_raw s (push (raw s) continuation) (fun s => Done tt s)))
  | Failed e s => Failed e s
  | Crashed => Crashed
  end.

(** async_stack.rs:88-114 [trampoline]; [step] is the pointer of the local function. *)
Definition trampoline (s : async_stack) (step continuation v : value) : outcome unit :=
  match validate_action s Suspend with
  | Done _ s =>
      let s := push_next_actions s [Resume; Suspend] in
      with_raw s (push (raw s) v) (fun s =>
      with_raw s (push (raw s) step) (fun s =>
      with_raw s (push (raw s) continuation) (fun s =>
        if context s then Done tt s else Failed MissingContext s)))
  | Failed e s => Failed e s
  | Crashed => Crashed
  end.

(** async_stack.rs:116-123 [resume] *)
Definition resume (s : async_stack) : outcome (list (option byte) * list (option byte)) :=
  match validate_action s Resume with
  | Done _ s =>
      with_pop s pointer_layout (fun continuation s =>
      with_pop s pointer_layout (fun step s => Done (step, continuation) s))
  | Failed e s => Failed e s
  | Crashed => Crashed
  end.

(** async_stack.rs:125-129 [restore] *)
Definition restore (s : async_stack) (l : layout) : outcome (list (option byte)) :=
  match validate_action s Restore with
  | Done _ s => with_pop s l (fun v s => Done v s)
  | Failed e s => Failed e s
  | Crashed => Crashed
  end.

(** async_stack.rs:49-61 [run_with_context]: entering and leaving. *)
Definition set_context (s : async_stack) (c : bool) : async_stack :=
  {| raw := raw s; context := c; next_actions := next_actions s |}.
