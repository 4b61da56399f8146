(** Properties of reference-counted blocks (C28, C29, C44) and of continuation
    stacks (C30, C31).

    [execution methods s s'] is any interleaving of the memory actions of any
    number of threads; [total_handles] counts the handles they hold.
    [list_run] and [protocol_run] say what stacks and protocols should do. *)
From Coq Require Import ZArith List Bool Arith.
From Verif Require Import Base Arc ArcSpec ArcProofs.
From Verif Require CpsStack CpsStackSpec CpsStackProofs.
Import ListNotations.

Ltac run_events m s es :=
  let r := eval vm_compute in (apply_events m s es) in
  match r with Some ?s' =>
    exists s'; assert (E : apply_events m s es = Some s') by (vm_compute; reflexivity);
    apply (apply_events_execution m _ _ _ _ (execution_refl m _)) in E
  end.

(** *** C28: a block that starts with one handle, in thread [i] of [n]. *)
Theorem arc_freed_once : forall n i s, i < n -> execution code_of (initial new_block n i) s ->
  invalid (memory s) = 0 /\ payload_drops (memory s) <= 1 /\ deallocations (memory s) <= 1 /\
  (0 < total_handles s -> payload_drops (memory s) = 0 /\ deallocations (memory s) = 0) /\
  (total_handles s = 0 -> quiet s -> payload_drops (memory s) = 1 /\ deallocations (memory s) = 1).
Proof. exact block_safe. Qed.

(** Blocks in static memory stay as they are. *)
Theorem arc_static_kept : forall n i s, execution code_of (initial static_block n i) s -> memory s = static_block /\
  forall j t r, nth_error (threads s) j = Some t -> running t = Some (GetMut, Return r) -> r = false.
Proof. exact static_safe. Qed.

(** Thread 0 clones and synchronizes, gives a handle to thread 1, and both drop
    theirs at the same time. *)
Definition two_threads : list event :=
  [ECall 0 Clone; EAct 0; EAct 0; EReturn 0; ECall 0 Synchronize; EAct 0; EAct 0; EReturn 0; ESend 0 1;
   ECall 1 Read; EAct 1; EReturn 1;
   ECall 0 Drop; ECall 1 Drop; EAct 0; EAct 1; EAct 1; EAct 0; EReturn 1; EAct 0; EAct 0; EReturn 0].
Example arc_freed_once_example : exists s, execution code_of (initial new_block 2 0) s /\ quiet s /\ total_handles s = 0 /\ payload_drops (memory s) = 1.
Proof.
  run_events code_of (initial new_block 2 0) two_threads. split; [exact E|]. repeat split. repeat constructor.
Qed.

(** The payload of a block of size zero is never dropped. *)
Theorem arc_empty_payload_refuted : exists s, execution null_code_of (initial new_block 1 0) s /\
  quiet s /\ total_handles s = 0 /\ payload_drops (memory s) = 0.
Proof.
  run_events null_code_of (initial new_block 1 0) [ECall 0 Drop; EReturn 0]. split; [exact E|]. repeat split. repeat constructor.
Qed.

(** *** C29 *)
Theorem arc_get_mut_unique : forall n i s j t, i < n -> execution code_of (initial new_block n i) s ->
  nth_error (threads s) j = Some t -> running t = Some (GetMut, Return true) -> total_handles s = 1 /\ handles t = 1.
Proof. exact get_mut_unique. Qed.

(** What [get_mut] answers is decided when it reads the count. *)
Theorem arc_get_mut_succeeds : forall n i s j t b c, i < n -> execution code_of (initial new_block n i) s ->
  nth_error (threads s) j = Some t -> running t = Some (GetMut, get_mut) -> act (memory s) get_mut = Some (b, c) ->
  c = Return (total_handles s =? 1).
Proof. exact get_mut_succeeds. Qed.

Example arc_get_mut_example : exists s t, execution code_of (initial new_block 2 0) s /\
  nth_error (threads s) 1 = Some t /\ running t = Some (GetMut, Return true).
Proof.
  run_events code_of (initial new_block 2 0) [ECall 0 Synchronize; EAct 0; EAct 0; EReturn 0; ESend 0 1; ECall 1 GetMut; EAct 1].
  eexists. split; [exact E|]. split; reflexivity.
Qed.

(** *** C44: compiled code and the library count in the same way. *)
Theorem generated_code_agrees :
  same_code generated_clone clone /\ same_code generated_drop drop /\ same_code generated_synchronize synchronize /\ same_code generated_is_unique get_mut.
Proof. exact generated_same. Qed.

(** *** C30 *)
Import CpsStack CpsStackSpec CpsStackProofs.

Theorem stack_lifo : forall n ops out l, 0 < n -> Forall pushed_well_formed ops -> list_run ops [] = Some (out, l) ->
  exists s, stack_run ops (new n) = Ok (map bytes_of out, s).
Proof.
  intros n ops out l Hn Hf Hr. destruct (run_good ops (new n) [] out l (new_good n Hn) Hf Hr) as (s & E & _). exists s. exact E.
Qed.

(** Sizes and capacities are multiples of eight if the alignments of all types divide
    eight. *)
Theorem stack_aligned_partial : forall n ops out l bytes s, 0 < n -> Forall pushed_well_formed ops -> Forall aligned_operation ops ->
  list_run ops [] = Some (out, l) -> stack_run ops (new n) = Ok (bytes, s) ->
  size s <= capacity s /\ Nat.divide 8 (size s) /\ Nat.divide 8 (capacity s).
Proof.
  intros n ops out l bytes s Hn Hf Ha Hr Hs. eapply (run_aligned ops (new n) []); eauto using new_good. apply round_up_divide.
Qed.

Definition small_value (l : layout) (b : nat) : value := {| value_layout := l; value_bytes := repeat b (layout_size l) |}.
Example stack_example :
  let a := small_value {| layout_size := 12; layout_align := 4 |} 1 in
  let b := small_value pointer_layout 2 in
  let ops := [Push a; Push b; Pop pointer_layout; Push b; Push a; Pop (value_layout a); Pop pointer_layout; Pop (value_layout a)] in
  Forall pushed_well_formed ops /\ Forall aligned_operation ops /\ list_run ops [] = Some ([b; a; b; a], []).
Proof. cbv zeta. repeat split; repeat constructor; (exists 2; reflexivity) || (exists 1; reflexivity). Qed.

(** A value of alignment 16 can be put at an offset that is not a multiple of 16. *)
Theorem stack_alignment_refuted : exists n s v, push (new n) (small_value pointer_layout 0) = Ok s /\
  layout_align (value_layout v) = 16 /\ ~ Nat.divide 16 (size s) /\ exists s', push s v = Ok s'.
Proof.
  exists 8. eexists. exists (small_value {| layout_size := 16; layout_align := 16 |} 0). split; [reflexivity|]. split; [reflexivity|]. split; [|eexists; reflexivity].
  intros [k H]. cbn in H. destruct k; discriminate.
Qed.

(** On a stack made with capacity zero the loop of a push never ends. *)
Theorem stack_zero_capacity_refuted : forall fuel v, 0 < type_size (value_layout v) ->
  grow fuel (size (new 0) + type_size (value_layout v)) (memory (new 0)) (capacity (new 0)) = OutOfFuel.
Proof. intros fuel v H. exact (grow_zero fuel _ _ H). Qed.

(** *** C31 *)

(** Up to the first rejected call. *)
Theorem async_protocol_partial : forall n calls out ok, 0 < n -> Forall call_ok calls ->
  protocol_run Running [] calls = Some (out, ok) ->
  perform_run (set_context (async_new n) true) calls = Some (map reply_bytes out, ok).
Proof. intros n calls out ok Hn. apply perform_run_ok. apply async_new_follows. exact Hn. Qed.

Example async_protocol_example :
  let f := small_value pointer_layout in
  let calls := [CPush (f 1); CSuspend (f 2) (f 3) (f 4); CResume; CRestore pointer_layout; CTrampoline (f 5) (f 6) (f 7); CResume; CPop pointer_layout; CPop pointer_layout; CRestore pointer_layout] in
  Forall call_ok calls /\
  protocol_run Running [] calls = Some ([RUnit; RUnit; RFunctions (f 2) (f 3); RValue (f 4); RUnit; RFunctions (f 5) (f 6); RValue (f 7); RValue (f 1)], false).
Proof. cbv zeta. split; [|reflexivity]. repeat constructor. Qed.

(** A rejected call changes what is expected next: after a second suspension is
    rejected, a restoration is accepted although nothing was resumed, and gives
    the continuation function instead of the future. *)
Theorem async_protocol_refuted : exists n f k st s1 e s2 s3,
  perform (set_context (async_new n) true) (CSuspend st k f) = Done RUnit s1 /\
  perform s1 (CSuspend st k f) = Failed e s2 /\
  perform s2 (CRestore (value_layout f)) = Done (RValue (bytes_of k)) s3 /\ bytes_of k <> bytes_of f.
Proof.
  exists 64, (small_value pointer_layout 1), (small_value pointer_layout 2), (small_value pointer_layout 3). do 4 eexists.
  split; [reflexivity|]. split; [reflexivity|]. split; [reflexivity|]. discriminate.
Qed.

Print Assumptions arc_freed_once.
Print Assumptions arc_static_kept.
Print Assumptions arc_empty_payload_refuted.
Print Assumptions arc_get_mut_unique.
Print Assumptions arc_get_mut_succeeds.
Print Assumptions generated_code_agrees.
Print Assumptions stack_lifo.
Print Assumptions stack_aligned_partial.
Print Assumptions stack_alignment_refuted.
Print Assumptions stack_zero_capacity_refuted.
Print Assumptions async_protocol_partial.
Print Assumptions async_protocol_refuted.
