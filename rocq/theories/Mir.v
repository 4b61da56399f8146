(** The middle-level intermediate representation (MIR) of the compiler and its
    meaning.  Expressions follow lib/mir/src/ir/*.rs; the meaning follows the
    code generator lib/mir-fmm/src/expression.rs (order of evaluation, tag
    comparison, early return of the try operation, closures and thunks).

    The world outside a module (foreign functions, imported modules and the
    callers of its public functions) is an adversary that receives values,
    calls functions it has received or that the module defines, and answers
    calls; see [term], [script] and [outside] below. *)
From Coq Require Import String List ZArith Bool Lia.
From Verif Require Import Base.
Import ListNotations.

(** ** Types (lib/mir/src/types/type_.rs) *)
Inductive mtype : Type :=
| TBoolean
| TByteString
| TFunction (arguments : list mtype) (result : mtype)
| TNone
| TNumber
| TRecord (name : string)
| TVariant.

(** [PartialEq for Type] (derived). *)
Fixpoint mtype_eqb (a b : mtype) {struct a} : bool :=
  match a, b with
  | TBoolean, TBoolean => true
  | TByteString, TByteString => true
  | TFunction xs x, TFunction ys y =>
      (fix go (xs ys : list mtype) : bool :=
         match xs, ys with
         | [], [] => true
         | x :: xs', y :: ys' => mtype_eqb x y && go xs' ys'
         | _, _ => false
         end) xs ys && mtype_eqb x y
  | TNone, TNone => true
  | TNumber, TNumber => true
  | TRecord m, TRecord n => String.eqb m n
  | TVariant, TVariant => true
  | _, _ => false
  end.

(** ** Expressions *)
Inductive arith : Type := Add | Subtract | Multiply | Divide.
Inductive compare_op : Type :=
  Equal | NotEqual | GreaterThan | GreaterThanOrEqual | LessThan | LessThanOrEqual.

(** Expressions that evaluate all their operands from left to right and then
    combine the values are one constructor [Op] with one of these operations:
    ArithmeticOperation [lhs; rhs], ComparisonOperation [lhs; rhs],
    StringConcatenation operands, Record fields, RecordField [record],
    RecordUpdate (record :: fields), Variant [payload],
    TypeInformationFunction [variant], Synchronize [expression] and
    Call (function :: arguments)
    (lib/mir/src/ir/{arithmetic_operation,comparison_operation,
    string_concatenation,record,record_field,record_update,variant,
    type_information_function,synchronize,call}.rs). *)
Inductive operation : Type :=
| OArith (o : arith)
| OCompare (o : compare_op)
| OConcat
| ORecord (name : string)
| OField (name : string) (index : nat)
| OUpdate (name : string) (indices : list nat)
| OVariant (type : mtype)
| OTypeInfo
| OSync (type : mtype)
| OCall (arguments : list mtype) (result : mtype).

(** Numbers are bit patterns of [f64]; their arithmetic is a parameter of the
    semantics. *)
Inductive literal : Type :=
| LBool (b : bool)
| LBytes (s : string)
| LNone
| LNumber (n : Z).

Definition arguments := list (string * mtype).

(** lib/mir/src/ir/function_definition.rs 5-17 ([type_] is recomputed). *)
Record fdef_ (E : Type) : Type := Fdef {
  f_name : string;
  f_env : arguments;
  f_args : arguments;
  f_result : mtype;
  f_body : E;
  f_thunk : bool
}.
Arguments Fdef {E}.
Arguments f_name {E}.
Arguments f_env {E}.
Arguments f_args {E}.
Arguments f_result {E}.
Arguments f_body {E}.
Arguments f_thunk {E}.

(** lib/mir/src/ir/alternative.rs 4-9. *)
Record alt_ (E : Type) : Type := Alt {
  a_types : list mtype;
  a_name : string;
  a_body : E
}.
Arguments Alt {E}.
Arguments a_types {E}.
Arguments a_name {E}.
Arguments a_body {E}.

(** lib/mir/src/ir/expression.rs.  The sets of variables of CloneVariables and
    DropVariables (hash maps) are lists. *)
Inductive expr : Type :=
| Lit (l : literal)
| Var (x : string)
| Op (o : operation) (es : list expr)
| If (c t e : expr)
| Case (a : expr) (alts : list (alt_ expr)) (default : option (string * expr))
| Let (x : string) (type : mtype) (b e : expr)
| LetRec (d : fdef_ expr) (e : expr)
| Try (operand : expr) (x : string) (type : mtype) (t : expr)
| CloneVars (xs : list (string * mtype)) (e : expr)
| DropVars (xs : list (string * mtype)) (e : expr).

Definition fdef := fdef_ expr.
Definition alt := alt_ expr.

Definition set_body (d : fdef) (e : expr) : fdef :=
  Fdef (f_name d) (f_env d) (f_args d) (f_result d) e (f_thunk d).

Definition f_type (d : fdef) : mtype := TFunction (map snd (f_args d)) (f_result d).

(** lib/mir/src/ir/alternative.rs 28-34 ([Alternative::type_]). *)
Definition alt_type (types : list mtype) : mtype :=
  match types with
  | [t] => t
  | _ => TVariant
  end.

(** ** Modules (lib/mir/src/ir/module.rs) *)
Record mmodule : Type := MModule {
  m_types : list (string * list mtype);        (* type definitions *)
  m_declared : list (string * mtype);          (* foreign and function declarations *)
  m_defs : list fdef;                          (* function definitions *)
  m_infos : list (mtype * string);             (* type information *)
  m_fallback : string
}.

Definition set_defs (m : mmodule) (defs : list fdef) : mmodule :=
  MModule (m_types m) (m_declared m) defs (m_infos m) (m_fallback m).

Definition find_def (defs : list fdef) (g : string) : option fdef :=
  List.find (fun d => String.eqb g (f_name d)) defs.

(** The type of a global function: mir-fmm/src/lib.rs 109-160
    ([compile_global_variables]). *)
Definition global_type (m : mmodule) (g : string) : option mtype :=
  match find_def (m_defs m) g with
  | Some d => Some (f_type d)
  | None => lookup (m_declared m) g
  end.

(** ** Values

    A closure keeps its definition and its captured variables.  A thunk also
    keeps the cell that holds its value once it has been evaluated.  [VGlobal]
    is a function defined or declared by the module, [VOutside] a function
    made outside. *)
Inductive value : Type :=
| VBool (b : bool)
| VBytes (s : string)
| VNone
| VNumber (n : Z)
| VRecord (name : string) (fields : list value)
| VVariant (type : mtype) (payload : value)
| VClosure (d : fdef) (captured : list (string * value))
| VThunk (cell : nat) (d : fdef) (captured : list (string * value))
| VGlobal (g : string)
| VOutside (id : nat) (type : mtype).

Definition env := list (string * value).

Definition lit_value (l : literal) : value :=
  match l with
  | LBool b => VBool b
  | LBytes s => VBytes s
  | LNone => VNone
  | LNumber n => VNumber n
  end.

(** The type a value carries. *)
Definition type_of (m : mmodule) (v : value) : option mtype :=
  match v with
  | VBool _ => Some TBoolean
  | VBytes _ => Some TByteString
  | VNone => Some TNone
  | VNumber _ => Some TNumber
  | VRecord n _ => Some (TRecord n)
  | VVariant _ _ => Some TVariant
  | VClosure d _ => Some (f_type d)
  | VThunk _ d _ => Some (f_type d)
  | VGlobal g => global_type m g
  | VOutside _ t => Some t
  end.

(** ** The outside world *)
Inductive foreign : Type :=
| FName (g : string)        (* a declared function *)
| FHandle (id : nat).       (* a function made outside *)

(** What crosses the border of the module: a call to the outside, or the
    result of a call from the outside. *)
Inductive event : Type :=
| EvCall (f : foreign) (arguments : list value)
| EvResult (v : value).

Record state : Type := State {
  s_log : list event;
  s_cells : list (option value);          (* cells of local thunks *)
  s_globals : list (string * value)       (* evaluated global thunks *)
}.

Definition log_event (st : state) (ev : event) : state :=
  State (s_log st ++ [ev]) (s_cells st) (s_globals st).

Definition event_values (ev : event) : list value :=
  match ev with
  | EvCall _ vs => vs
  | EvResult v => [v]
  end.

(** All values the outside has received. *)
Definition known (st : state) : list value := flat_map event_values (s_log st).

(** Values the outside builds. *)
Inductive term : Type :=
| TmBool (b : bool)
| TmBytes (s : string)
| TmNone
| TmNumber (n : Z)
| TmRecord (name : string) (fields : list term)
| TmVariant (type : mtype) (payload : term)
| TmKnown (i : nat)                     (* the i-th value received so far *)
| TmOutside (id : nat) (type : mtype).

Inductive callee : Type :=
| ByName (g : string)                   (* a function the module defines *)
| ByKnown (i : nat).                    (* a function value received *)

Definition script := list (callee * list term).

(** What the outside sees of the values it receives: all data, but a function
    inside a value cannot be looked into. *)
Inductive observation : Type :=
| ObBool (b : bool)
| ObBytes (s : string)
| ObNone
| ObNumber (n : Z)
| ObRecord (name : string) (fields : list observation)
| ObVariant (type : mtype) (payload : observation)
| ObFunction.

Fixpoint observe (v : value) : observation :=
  match v with
  | VBool b => ObBool b
  | VBytes s => ObBytes s
  | VNone => ObNone
  | VNumber n => ObNumber n
  | VRecord n vs => ObRecord n (map observe vs)
  | VVariant t p => ObVariant t (observe p)
  | VClosure _ _ | VThunk _ _ _ | VGlobal _ | VOutside _ _ => ObFunction
  end.

Inductive observed_event : Type :=
| ObCall (f : foreign) (arguments : list observation)
| ObResult (v : observation).

Definition observe_event (ev : event) : observed_event :=
  match ev with
  | EvCall f vs => ObCall f (map observe vs)
  | EvResult v => ObResult (observe v)
  end.

(** The arithmetic, and what the outside does when it is called, as a function
    of all it has seen so far, oldest first, the latest call included: first the
    calls of the script, then the answer. *)
Record world : Type := World {
  w_arith : arith -> Z -> Z -> Z;
  w_compare : compare_op -> Z -> Z -> bool;
  w_script : list observed_event -> script;
  w_answer : list observed_event -> term
}.

(** ** Outcomes

    [Return] is an early return, [Timeout] says that the bound on the depth of
    calls was reached, [Bad] that the outside broke the rules (for example, an
    answer of the wrong type), [Wrong] that the program did something with no
    meaning. *)
Inductive out (A : Type) : Type :=
| Done (a : A) (st : state)
| Return (v : value) (st : state)
| Timeout (st : state)
| Bad (st : state)
| Wrong.
Arguments Done {A}.
Arguments Return {A}.
Arguments Timeout {A}.
Arguments Bad {A}.
Arguments Wrong {A}.

Definition obind {A B} (r : out A) (f : A -> state -> out B) : out B :=
  match r with
  | Done a st => f a st
  | Return v st => Return v st
  | Timeout st => Timeout st
  | Bad st => Bad st
  | Wrong => Wrong
  end.

(** The end of a function body: an early return becomes its result. *)
Definition finish (r : out value) : out value :=
  match r with
  | Return v st => Done v st
  | r => r
  end.

(** The end of the branch of a try operation: its result is returned. *)
Definition escape (r : out value) : out value :=
  match r with
  | Done v st => Return v st
  | r => r
  end.

(** [variables.insert_iter(arguments)] : later arguments shadow earlier ones
    (lib/mir-fmm/src/entry_function.rs 112-120). *)
Fixpoint bind_args (xs : list string) (vs : list value) (rho : env) : env :=
  match xs, vs with
  | x :: xs', v :: vs' => bind_args xs' vs' ((x, v) :: rho)
  | _, _ => rho
  end.

Fixpoint nth_set {A} (i : nat) (a : A) (l : list A) : list A :=
  match l, i with
  | [], _ => []
  | _ :: l', O => a :: l'
  | x :: l', S i' => x :: nth_set i' a l'
  end.

(** The fields of a RecordUpdate are stored one after another in the record:
    lib/mir-fmm/src/expression.rs 84-189. *)
Fixpoint update_fields (indices : list nat) (vs fields : list value) : option (list value) :=
  match indices, vs with
  | [], [] => Some fields
  | i :: indices', v :: vs' =>
      match nth_error fields i with
      | Some _ => update_fields indices' vs' (nth_set i v fields)
      | None => None
      end
  | _, _ => None
  end.

Fixpoint concat_bytes (vs : list value) : option string :=
  match vs with
  | [] => Some EmptyString
  | VBytes s :: vs' => option_map (String.append s) (concat_bytes vs')
  | _ => None
  end.

Fixpoint lookup_type {A} (l : list (mtype * A)) (t : mtype) : option A :=
  match l with
  | [] => None
  | (t', a) :: l' => if mtype_eqb t t' then Some a else lookup_type l' t
  end.

(** Whether closures capture every variable in scope (before environment
    inference, where environments are not filled in yet) or the variables
    their definitions declare (lib/mir-fmm/src/expression.rs 451-457). *)
Inductive mode : Type := Lexical | Declared.

Fixpoint capture_vars (xs : list string) (rho : env) : option env :=
  match xs with
  | [] => Some []
  | x :: xs' =>
      match lookup rho x, capture_vars xs' rho with
      | Some v, Some c => Some ((x, v) :: c)
      | _, _ => None
      end
  end.

Definition capture (md : mode) (d : fdef) (rho : env) : option env :=
  match md with
  | Lexical => Some rho
  | Declared => capture_vars (map fst (f_env d)) rho
  end.

(** A variant's value as the variable of an alternative of type [t]:
    lib/mir-fmm/src/variant.rs 75-96 ([downcast]). *)
Definition downcast (t tag : mtype) (payload : value) : value :=
  match t with
  | TVariant => VVariant tag payload
  | _ => payload
  end.

Section Eval.
  Variable md : mode.
  Variable w : world.
  Variable m : mmodule.
  (** [call st f vs] calls the function value [f]. *)
  Variable call : state -> value -> list value -> out value.

  (** What an operation does with the values of its operands:
      lib/mir-fmm/src/expression.rs 17-321. *)
  Definition apply_op (o : operation) (vs : list value) (st : state) : out value :=
    match o, vs with
    | OArith o, [VNumber a; VNumber b] => Done (VNumber (w_arith w o a b)) st
    | OCompare o, [VNumber a; VNumber b] => Done (VBool (w_compare w o a b)) st
    | OConcat, vs =>
        match concat_bytes vs with
        | Some s => Done (VBytes s) st
        | None => Wrong
        end
    | ORecord n, vs =>
        match lookup (m_types m) n with
        | Some ts => if Nat.eqb (length vs) (length ts) then Done (VRecord n vs) st else Wrong
        | None => Wrong
        end
    | OField n i, [VRecord n' fs] =>
        if String.eqb n n' then
          match nth_error fs i with
          | Some v => Done v st
          | None => Wrong
          end
        else Wrong
    | OUpdate n is_, VRecord n' fs :: vs =>
        if String.eqb n n' then
          match update_fields is_ vs fs with
          | Some fs' => Done (VRecord n fs') st
          | None => Wrong
          end
        else Wrong
    | OVariant t, [v] => Done (VVariant t v) st
    | OTypeInfo, [VVariant t _] =>
        Done (VGlobal (match lookup_type (m_infos m) t with
                       | Some g => g
                       | None => m_fallback m
                       end)) st
    | OSync _, [v] => Done v st
    | OCall ts _, f :: vs =>
        if Nat.eqb (length vs) (length ts) then call st f vs else Wrong
    | _, _ => Wrong
    end.

  Section List.
    Variable eval : env -> state -> expr -> out value.
    Variable rho : env.
    Fixpoint eval_list (st : state) (es : list expr) : out (list value) :=
      match es with
      | [] => Done [] st
      | e :: es' =>
          obind (eval rho st e) (fun v st => obind (eval_list st es') (fun vs st => Done (v :: vs) st))
      end.

    (** Selection of an alternative by the tag of the argument (first match):
        lib/mir-fmm/src/expression.rs 356-416. *)
    Fixpoint eval_alts (st : state) (tag : mtype) (p : value) (alts : list alt)
             (otherwise : out value) : out value :=
      match alts with
      | [] => otherwise
      | a :: alts' =>
          if List.existsb (mtype_eqb tag) (a_types a)
          then eval ((a_name a, downcast (alt_type (a_types a)) tag p) :: rho) st (a_body a)
          else eval_alts st tag p alts' otherwise
      end.
  End List.

  Definition eval_var (rho : env) (st : state) (x : string) : out value :=
    match lookup rho x with
    | Some v => Done v st
    | None =>
        match global_type m x with
        | Some _ => Done (VGlobal x) st
        | None => Wrong
        end
    end.

  (** Evaluation of an expression: lib/mir-fmm/src/expression.rs 8-644. *)
  Fixpoint eval (rho : env) (st : state) (e : expr) {struct e} : out value :=
    match e with
    | Lit l => Done (lit_value l) st
    | Var x => eval_var rho st x
    | Op o es => obind (eval_list eval rho st es) (fun vs st => apply_op o vs st)
    | If c t e =>
        obind (eval rho st c) (fun v st =>
          match v with
          | VBool true => eval rho st t
          | VBool false => eval rho st e
          | _ => Wrong
          end)
    | Case a alts default =>
        obind (eval rho st a) (fun v st =>
          match v with
          | VVariant tag p =>
              eval_alts eval rho st tag p alts
                match default with
                | Some (x, e) => eval ((x, v) :: rho) st e
                | None => Wrong
                end
          | _ => Wrong
          end)
    | Let x _ b e => obind (eval rho st b) (fun v st => eval ((x, v) :: rho) st e)
    | LetRec d e =>
        match capture md d rho with
        | None => Wrong
        | Some c =>
            if f_thunk d then
              eval ((f_name d, VThunk (length (s_cells st)) d c) :: rho)
                   (State (s_log st) (s_cells st ++ [None]) (s_globals st)) e
            else eval ((f_name d, VClosure d c) :: rho) st e
        end
    | Try o x t e =>
        obind (eval rho st o) (fun v st =>
          match v with
          | VVariant tag p =>
              if mtype_eqb tag t then escape (eval ((x, downcast t tag p) :: rho) st e)
              else Done v st
          | _ => Wrong
          end)
    | CloneVars _ e => eval rho st e
    | DropVars _ e => eval rho st e
    end.

  (** *** The outside *)
  Fixpoint resolve (kn : list value) (t : term) {struct t} : option value :=
    match t with
    | TmBool b => Some (VBool b)
    | TmBytes s => Some (VBytes s)
    | TmNone => Some VNone
    | TmNumber n => Some (VNumber n)
    | TmRecord n ts =>
        match (fix go (ts : list term) : option (list value) :=
                 match ts with
                 | [] => Some []
                 | t :: ts' =>
                     match resolve kn t, go ts' with
                     | Some v, Some vs => Some (v :: vs)
                     | _, _ => None
                     end
                 end) ts, lookup (m_types m) n with
        | Some vs, Some types =>
            if (fix same (vs : list value) (types : list mtype) : bool :=
                  match vs, types with
                  | [], [] => true
                  | v :: vs', t :: types' =>
                      match type_of m v with
                      | Some t' => mtype_eqb t' t && same vs' types'
                      | None => false
                      end
                  | _, _ => false
                  end) vs types
            then Some (VRecord n vs) else None
        | _, _ => None
        end
    | TmVariant t p =>
        match resolve kn p with
        | Some v =>
            match type_of m v with
            | Some TVariant => None
            | Some t' => if mtype_eqb t' t then Some (VVariant t v) else None
            | None => None
            end
        | None => None
        end
    | TmKnown i => nth_error kn i
    | TmOutside id (TFunction ts t) => Some (VOutside id (TFunction ts t))
    | TmOutside _ _ => None
    end.

  Fixpoint resolve_args (kn : list value) (ts : list term) (types : list mtype) : option (list value) :=
    match ts, types with
    | [], [] => Some []
    | t :: ts', ty :: types' =>
        match resolve kn t with
        | Some v =>
            match type_of m v with
            | Some ty' =>
                if mtype_eqb ty' ty then option_map (cons v) (resolve_args kn ts' types') else None
            | None => None
            end
        | None => None
        end
    | _, _ => None
    end.

  Definition resolve_callee (kn : list value) (c : callee) : option value :=
    match c with
    | ByName g =>
        match find_def (m_defs m) g with
        | Some _ => Some (VGlobal g)
        | None => None
        end
    | ByKnown i => nth_error kn i
    end.

  Fixpoint run_script (sc : script) (st : state) : out unit :=
    match sc with
    | [] => Done tt st
    | (c, ts) :: sc' =>
        match resolve_callee (known st) c with
        | None => Bad st
        | Some f =>
            match type_of m f with
            | Some (TFunction types _) =>
                match resolve_args (known st) ts types with
                | None => Bad st
                | Some vs =>
                    obind (call st f vs) (fun v st => run_script sc' (log_event st (EvResult v)))
                end
            | _ => Bad st
            end
        end
    end.

  (** A call to the outside. *)
  Definition outside (st : state) (f : foreign) (vs : list value) (result : mtype) : out value :=
    let st := log_event st (EvCall f vs) in
    let seen := map observe_event (s_log st) in
    obind (run_script (w_script w seen) st) (fun _ st =>
      match resolve (known st) (w_answer w seen) with
      | Some v =>
          match type_of m v with
          | Some t => if mtype_eqb t result then Done v st else Bad st
          | None => Bad st
          end
      | None => Bad st
      end).
End Eval.

Definition set_cell (st : state) (i : nat) (v : value) : state :=
  State (s_log st) (nth_set i (Some v) (s_cells st)) (s_globals st).

Definition set_global (st : state) (g : string) (v : value) : state :=
  State (s_log st) (s_cells st) ((g, v) :: s_globals st).

(** The value of a thunk is kept unless its body returned early: the entry
    function of an unevaluated thunk stores the value after the body
    (lib/mir-fmm/src/entry_function.rs 187-244), and an early return leaves the
    entry function before that. *)
Definition keep (store : value -> state -> state) (r : out value) : out value :=
  match r with
  | Done v st => Done v (store v st)
  | r => finish r
  end.

(** Calls: lib/mir-fmm/src/call.rs 3-26 and
    lib/mir-fmm/src/entry_function.rs 17-325.  Simplification: programs run on
    one thread, so the locking of synchronized thunks does not show. *)
Fixpoint call (md : mode) (w : world) (m : mmodule) (n : nat)
         (st : state) (f : value) (vs : list value) {struct n} : out value :=
  match n with
  | O => Timeout st
  | S n =>
      let run := eval md w m (call md w m n) in
      match f with
      | VClosure d c =>
          if Nat.eqb (length vs) (length (f_args d)) then
            finish (run (bind_args (map fst (f_args d)) vs ((f_name d, f) :: c)) st (f_body d))
          else Wrong
      | VThunk i d c =>
          match vs, f_args d with
          | [], [] =>
              match nth_error (s_cells st) i with
              | Some (Some v) => Done v st
              | Some None =>
                  keep (fun v st => set_cell st i v) (run ((f_name d, f) :: c) st (f_body d))
              | None => Wrong
              end
          | _, _ => Wrong
          end
      | VGlobal g =>
          match find_def (m_defs m) g with
          | Some d =>
              if f_thunk d then
                match vs, f_args d with
                | [], [] =>
                    match lookup (s_globals st) g with
                    | Some v => Done v st
                    | None => keep (fun v st => set_global st g v) (run [] st (f_body d))
                    end
                | _, _ => Wrong
                end
              else if Nat.eqb (length vs) (length (f_args d)) then
                finish (run (bind_args (map fst (f_args d)) vs []) st (f_body d))
              else Wrong
          | None =>
              match lookup (m_declared m) g with
              | Some (TFunction ts t) =>
                  if Nat.eqb (length vs) (length ts) then
                    outside w m (call md w m n) st (FName g) vs t
                  else Wrong
              | _ => Wrong
              end
          end
      | VOutside id (TFunction ts t) =>
          if Nat.eqb (length vs) (length ts) then
            outside w m (call md w m n) st (FHandle id) vs t
          else Wrong
      | _ => Wrong
      end
  end.

Definition initial : state := State [] [] [].

(** A run of a module: the outside executes a script of calls. *)
Definition run (md : mode) (w : world) (m : mmodule) (n : nat) (sc : script) : out unit :=
  run_script m (call md w m n) sc initial.
