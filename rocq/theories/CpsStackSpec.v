(** Stacks of values, and the protocol of asynchronous stacks. *)
From Coq Require Import List Bool Arith.
From Verif Require Import Base CpsStack.
Import ListNotations.

Definition well_formed (v : value) : Prop :=
  length (value_bytes v) = layout_size (value_layout v).

(** *** Sequences of pushes and pops *)
Inductive stack_operation := Push (v : value) | Pop (l : layout).

(** On a list of values, last pushed first: what the pops return and the list in the
    end, if every pop finds a value of its type. *)
Fixpoint list_run (ops : list stack_operation) (l : list value) : option (list value * list value) :=
  match ops with
  | [] => Some ([], l)
  | Push v :: ops => list_run ops (v :: l)
  | Pop y :: ops =>
      match l with
      | v :: l =>
          if Nat.eqb (layout_size y) (layout_size (value_layout v)) && Nat.eqb (layout_align y) (layout_align (value_layout v))
          then match list_run ops l with Some (out, l') => Some (v :: out, l') | None => None end
          else None
      | [] => None
      end
  end.

(** On the stack in memory. *)
Fixpoint stack_run (ops : list stack_operation) (s : stack) : res (list (list (option byte)) * stack) :=
  match ops with
  | [] => Ok ([], s)
  | Push v :: ops => bind (push s v) (stack_run ops)
  | Pop l :: ops => bind (pop s l) (fun '(v, s) => bind (stack_run ops s) (fun '(out, s) => Ok (v :: out, s)))
  end.

Definition pushed_well_formed (op : stack_operation) : Prop := match op with Push v => well_formed v | Pop _ => True end.

(** *** The protocol *)
Inductive call :=
| CSuspend (step continuation future : value)
| CTrampoline (step continuation v : value)
| CResume
| CRestore (l : layout)
| CPush (v : value)        (* a push or pop of compiled code *)
| CPop (l : layout).

(** Where a computation stands, with the values that later calls return. *)
Inductive phase :=
| Running
| Suspended (step continuation future : value)
| Resumed (future : value)
| Bounced (step continuation v : value).

(** Results of calls; ['a] is the type of values. *)
Inductive reply (A : Type) := RUnit | RFunctions (step continuation : A) | RValue (v : A).
Arguments RUnit {A}. Arguments RFunctions {A}. Arguments RValue {A}.

Inductive verdict :=
| Accepted (p : phase) (l : list value) (r : reply value)
| Rejected
| Undefined.   (* a value is read at the wrong type, or the stack is used behind the protocol's back *)

Definition same_layout (x y : layout) : bool :=
  Nat.eqb (layout_size x) (layout_size y) && Nat.eqb (layout_align x) (layout_align y).

(** The protocol.  [l] is what compiled code has on the stack.  After a trampoline
    the value is left there for the step function, which pops it. *)
Definition protocol (p : phase) (l : list value) (c : call) : verdict :=
  match p, c with
  | Running, CSuspend s k f => Accepted (Suspended s k f) l RUnit
  | Running, CTrampoline s k v => Accepted (Bounced s k v) l RUnit
  | Running, CPush v => Accepted Running (v :: l) RUnit
  | Running, CPop y => match l with
                       | v :: l => if same_layout y (value_layout v) then Accepted Running l (RValue v) else Undefined
                       | [] => Undefined
                       end
  | Suspended s k f, CResume => Accepted (Resumed f) l (RFunctions s k)
  | Bounced s k v, CResume => Accepted Running (v :: l) (RFunctions s k)
  | Resumed f, CRestore y => if same_layout y (value_layout f) then Accepted Running l (RValue f) else Undefined
  | _, (CPush _ | CPop _) => Undefined
  | _, _ => Rejected
  end.

(** What a sequence of calls should do: the replies up to the first call that is
    rejected, and whether one is; nothing if a call is undefined. *)
Fixpoint protocol_run (p : phase) (l : list value) (calls : list call) : option (list (reply value) * bool) :=
  match calls with
  | [] => Some ([], true)
  | c :: calls =>
      match protocol p l c with
      | Accepted p' l' r => match protocol_run p' l' calls with Some (rs, ok) => Some (r :: rs, ok) | None => None end
      | Rejected => Some ([], false)
      | Undefined => None
      end
  end.

Definition bytes_of (v : value) : list (option byte) := map Some (value_bytes v).
Definition reply_bytes (r : reply value) : reply (list (option byte)) :=
  match r with RUnit => RUnit | RFunctions s k => RFunctions (bytes_of s) (bytes_of k) | RValue v => RValue (bytes_of v) end.

(** The same on the stack in memory. *)
Definition perform (s : async_stack) (c : call) : outcome (reply (list (option byte))) :=
  match c with
  | CSuspend st k f => match suspend s st k f with Done _ s => Done RUnit s | Failed e s => Failed e s | Crashed => Crashed end
  | CTrampoline st k v => match trampoline s st k v with Done _ s => Done RUnit s | Failed e s => Failed e s | Crashed => Crashed end
  | CResume => match resume s with Done (st, k) s => Done (RFunctions st k) s | Failed e s => Failed e s | Crashed => Crashed end
  | CRestore y => match restore s y with Done v s => Done (RValue v) s | Failed e s => Failed e s | Crashed => Crashed end
  | CPush v => with_raw s (push (raw s) v) (fun s => Done RUnit s)
  | CPop y => with_pop s y (fun v s => Done (RValue v) s)
  end.
Fixpoint perform_run (s : async_stack) (calls : list call) : option (list (reply (list (option byte))) * bool) :=
  match calls with
  | [] => Some ([], true)
  | c :: calls =>
      match perform s c with
      | Done r s' => match perform_run s' calls with Some (rs, ok) => Some (r :: rs, ok) | None => None end
      | Failed _ _ => Some ([], false)
      | Crashed => None
      end
  end.

Definition function_pointer (v : value) : Prop := value_layout v = pointer_layout /\ well_formed v.
Definition call_ok (c : call) : Prop :=
  match c with
  | CSuspend s k v | CTrampoline s k v => function_pointer s /\ function_pointer k /\ well_formed v
  | CPush v => well_formed v
  | _ => True
  end.
