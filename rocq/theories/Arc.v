(** Reference-counted blocks of the foreign-function library, and threads that use
    one such block.  Source: /repo/lib/ffi/src/arc/arc_block.rs. *)
From Coq Require Import ZArith List Bool.
Import ListNotations.
Local Open Scope Z_scope.

(** arc_block.rs:8-11 *)
Definition UNIQUE_COUNT : Z := 0.
Definition SYNCHRONIZED_UNIQUE_COUNT : Z := -1.
Definition STATIC_COUNT : Z := - 2 ^ 63.

(** The body of a method as its sequence of memory actions: the atomic operations on
    the count, and what happens to the payload and the allocation.  Atomic
    operations are sequentially consistent here: memory orderings and fences are
    not modelled. *)
Inductive code :=
| Load (k : Z -> code)
| Store (value : Z) (k : code)
| FetchSub (value : Z) (k : Z -> code)
| FetchAdd (value : Z) (k : Z -> code)
| DropPayload (k : code)
| Deallocate (k : code)
| ReadPayload (k : code)
| Return (result : bool).

(** arc_block.rs:149-151 *)
Definition is_count_synchronized (count : Z) : bool := count <? 0.

(** arc_block.rs:82-97, for a block that is not null. *)
Definition clone : code :=
  Load (fun count =>
    if negb (is_count_synchronized count) then Store (count + 1) (Return true)
    else if negb (count =? STATIC_COUNT) then FetchSub 1 (fun _ => Return true)
    else Return true).

(** arc_block.rs:122-132 *)
Definition drop_inner : code := DropPayload (Deallocate (Return true)).

(** arc_block.rs:99-120, for a block that is not null. *)
Definition drop : code :=
  Load (fun count =>
    if is_count_synchronized count then
      if negb (count =? STATIC_COUNT) then
        FetchAdd 1 (fun previous =>
          if previous =? SYNCHRONIZED_UNIQUE_COUNT then drop_inner else Return true)
      else Return true
    else if count =? UNIQUE_COUNT then drop_inner
    else Store (count - 1) (Return true)).

(** arc_block.rs:134-147, for a block that is not null. *)
Definition synchronize : code :=
  Load (fun count =>
    if negb (is_count_synchronized count) then Store (SYNCHRONIZED_UNIQUE_COUNT - count) (Return true)
    else Return true).

(** arc_block.rs:153-168 [is_unique] and 51-57 [get_mut]: the result says whether
    the mutable pointer is given out. *)
Definition get_mut : code :=
  Load (fun count =>
    Return (count =? (if is_count_synchronized count then SYNCHRONIZED_UNIQUE_COUNT else UNIQUE_COUNT))).

(** arc_block.rs:39-45 and arc.rs:47-53 [deref], then an access. *)
Definition read : code := ReadPayload (Return true).

Inductive operation := Clone | Drop | Synchronize | GetMut | Read.
Definition code_of (o : operation) : code :=
  match o with Clone => clone | Drop => drop | Synchronize => synchronize | GetMut => get_mut | Read => read end.

(** The same methods for a null block, which stands for a payload of size zero:
    arc_block.rs:27-28, 83, 100-102, 135-137, 154-156. *)
Definition null_code_of (o : operation) : code := Return (match o with GetMut => false | _ => true end).

(** The code the compiler generates for the same methods:
    /repo/lib/mir-fmm/src/reference_count/pointer.rs, for pointers that are not
    null; count.rs:46-75 gives the tests on counts. *)
Definition count_is_synchronized (count : Z) : bool := count <? 0.
Definition count_is_unique (count : Z) : bool := count =? 0.
Definition count_is_synchronized_unique (count : Z) : bool := count =? -1.
Definition count_is_static (count : Z) : bool := count =? - 2 ^ 63.

(** pointer.rs:23-79 [compile_clone_function] *)
Definition generated_clone : code :=
  Load (fun count =>
    if count_is_synchronized count then
      if count_is_static count then Return true else FetchSub 1 (fun _ => Return true)
    else Store (count + 1) (Return true)).

(** pointer.rs:95-163 [drop] *)
Definition generated_drop : code :=
  let drop_inner := DropPayload (Deallocate (Return true)) in
  Load (fun count =>
    if count_is_synchronized count then
      if count_is_static count then Return true
      else FetchAdd 1 (fun previous => if count_is_synchronized_unique previous then drop_inner else Return true)
    else if count_is_unique count then drop_inner
    else Store (count - 1) (Return true)).

(** pointer.rs:165-195 [synchronize]; the synchronization of the contents, which
    does not touch this block, is left out. *)
Definition generated_synchronize : code :=
  Load (fun count => if count_is_synchronized count then Return true else Store (-1 - count) (Return true)).

(** pointer.rs:197-226 [is_unique] *)
Definition generated_is_unique : code :=
  Load (fun count => Return (if count_is_synchronized count then count_is_synchronized_unique count else count_is_unique count)).

(** The block: its count, how often its payload was dropped and its memory given
    back, and how many actions touched memory already given back or a payload
    already dropped. *)
Record block := { count : Z; payload_drops : nat; deallocations : nat; invalid : nat }.

(** arc_block.rs:26-37 [new]: a block that is not empty. *)
Definition new_block : block := {| count := UNIQUE_COUNT; payload_drops := 0; deallocations := 0; invalid := 0 |}.
(** lib/mir-fmm/src/reference_count/block.rs:4-8 and count.rs:77-90: blocks in
    static memory. *)
Definition static_block : block := {| count := STATIC_COUNT; payload_drops := 0; deallocations := 0; invalid := 0 |}.

Definition touch (b : block) (gone : nat) : nat := (match gone with O => 0 | S _ => 1 end + invalid b)%nat.
Definition set_count (b : block) (c : Z) : block :=
  {| count := c; payload_drops := payload_drops b; deallocations := deallocations b; invalid := touch b (deallocations b) |}.

(** One memory action. *)
Definition act (b : block) (c : code) : option (block * code) :=
  match c with
  | Load k => Some (set_count b (count b), k (count b))
  | Store v k => Some (set_count b v, k)
  | FetchSub v k => Some (set_count b (count b - v), k (count b))
  | FetchAdd v k => Some (set_count b (count b + v), k (count b))
  | DropPayload k =>
      Some ({| count := count b; payload_drops := S (payload_drops b); deallocations := deallocations b;
               invalid := touch b (payload_drops b + deallocations b) |}, k)
  | Deallocate k =>
      Some ({| count := count b; payload_drops := payload_drops b; deallocations := S (deallocations b);
               invalid := touch b (deallocations b) |}, k)
  | ReadPayload k =>
      Some ({| count := count b; payload_drops := payload_drops b; deallocations := deallocations b;
               invalid := touch b (payload_drops b + deallocations b) |}, k)
  | Return _ => None
  end.

(** A thread owns some handles to the block and may be inside a method. *)
Record thread := { handles : nat; running : option (operation * code) }.
Record state := { memory : block; threads : list thread }.

Fixpoint update {A} (l : list A) (i : nat) (x : A) : list A :=
  match l, i with
  | [], _ => []
  | _ :: l, O => x :: l
  | y :: l, S i => y :: update l i x
  end.

Inductive step (methods : operation -> code) : state -> state -> Prop :=
(** A thread calls a method on one of its handles; [drop] takes the handle. *)
| step_call s i t o :
    nth_error (threads s) i = Some t -> running t = None -> (0 < handles t)%nat ->
    step methods s {| memory := memory s;
              threads := update (threads s) i
                {| handles := match o with Drop => pred (handles t) | _ => handles t end; running := Some (o, methods o) |} |}
(** A thread makes its next memory action. *)
| step_act s i t o c b c' :
    nth_error (threads s) i = Some t -> running t = Some (o, c) -> act (memory s) c = Some (b, c') ->
    step methods s {| memory := b; threads := update (threads s) i {| handles := handles t; running := Some (o, c') |} |}
(** A method returns; [clone] returns a new handle. *)
| step_return s i t o r :
    nth_error (threads s) i = Some t -> running t = Some (o, Return r) ->
    step methods s {| memory := memory s;
              threads := update (threads s) i
                {| handles := match o with Clone => S (handles t) | _ => handles t end; running := None |} |}
(** A thread gives a handle to another thread; the block must be synchronized
    before (lib/mir-fmm compiles thread-crossing values with [Synchronize]). *)
| step_send s i j t u :
    i <> j -> nth_error (threads s) i = Some t -> nth_error (threads s) j = Some u ->
    running t = None -> (0 < handles t)%nat -> is_count_synchronized (count (memory s)) = true ->
    step methods s {| memory := memory s;
              threads := update (update (threads s) i {| handles := pred (handles t); running := None |}) j
                {| handles := S (handles u); running := running u |} |}.
