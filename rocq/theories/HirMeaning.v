(** What Pen programs mean: a semantics of analyzed HIR, independent of the
    lowering to MIR and of the representation of values.

    Left out: lists, maps, comprehensions, [if] on lists and maps, thunks,
    [debug], [delete], [keys], [race], reflection, [size], [spawn], [values],
    and [==] on [none], on lists and maps and on records of other modules (C09 is
    about those).  An expression with no rule has no meaning here; it may occur
    where it is not evaluated. *)
From Coq Require Import String List ZArith Bool.
From Verif Require Import Base Mir HirType HirTypeSpec Hir HirSpec LowerSpec DataSpec.
Import ListNotations.
Local Open Scope string_scope.

(** ** Values.  A value of a union type or of [any] remembers its type.  A
    function written in an expression keeps the variables of its scope. *)
Inductive hvalue : Type :=
| UBoolean (b : bool)
| UNumber (z : Z)
| UString (s : string)
| UNone
| URecord (name : string) (fields : list (string * hvalue))
| UError (source : hvalue)
| UTagged (type : ty) (v : hvalue)
| UClosure (arguments : list string) (body : hexpr) (variables : list (string * hvalue))
| UGlobal (g : string).

Definition henv := list (string * hvalue).

(** The variables of a function's body *)
Definition bound_to (xs : list string) (us : list hvalue) (rho : henv) : henv := (rev (combine xs us) ++ rho)%list.

(** The result of an expression, or of the function it is in, by a [?] that met an error *)
Inductive outcome : Type :=
| Gives (u : hvalue)
| Returns (u : hvalue).

Definition result (o : outcome) : hvalue := match o with Gives u | Returns u => u end.

(** The calls of functions of other modules and of foreign functions so far, oldest
    first, and the values of the module's functions without arguments that were
    computed so far: they are evaluated once. *)
Record hstate : Type := HState {
  calls : list (string * list hvalue);
  kept : list (string * hvalue)
}.
Definition add_call (s : hstate) (g : string) (us : list hvalue) : hstate := HState (calls s ++ [(g, us)])%list (kept s).
Definition add_kept (s : hstate) (g : string) (u : hvalue) : hstate := HState (calls s) ((g, u) :: kept s).

(** The operands that an expression evaluates first, from left to right *)
Definition operands (e : hexpr) : list hexpr :=
  match e with
  | HCall _ (HBuiltIn BError) [a] | HCall _ (HBuiltIn BSource) [a] => [a]
  | HCall _ (HBuiltIn _) _ => []
  | HCall _ f args => f :: args
  | HIf c _ _ => [c]
  | HIfType _ a _ _ => [a]
  | HLet _ _ b _ => [b]
  | HBinary (BinBoolean _) l _ => [l]
  | HBinary (BinEquality _ _) _ _ => []
  | HBinary _ l r => [l; r]
  | HNot a | HTry _ a | HField _ a _ | HCoerce _ _ a => [a]
  | HRecord _ fs => map snd fs
  | HUpdate _ r fs => r :: map snd fs
  | _ => []
  end.

Definition is_equal (o : hequality) (b : bool) : bool := match o with HEqual => b | HNotEqual => negb b end.

(** A value [v] of the type [a], as a value of the type [t] that has the alternative [a] *)
Definition opened (E : tenv) (t a : ty) (v u : hvalue) : Prop :=
  teq E t a /\ u = v \/ ~ teq E t a /\ u = UTagged a v.

Section Meaning.
  (** the types, the fields of the module's records, the module, the machine's
      arithmetic, and the answers of functions of the outside, which may depend on
      all calls before *)
  Variable E : tenv.
  Variable own : renv.
  Variable p : hmodule.
  Variable w : world.
  Variable outer : list (string * list hvalue) -> string -> list hvalue -> hvalue -> Prop.

  (** [read t u x]: as a value of the type [t], [u] is the datum [x]. *)
  Inductive read : ty -> hvalue -> data -> Prop :=
  | read_boolean : forall t b, teq E t TBoolean -> read t (UBoolean b) (DBool b)
  | read_number : forall t z, teq E t TNumber -> read t (UNumber z) (DNumber z)
  | read_string : forall t s, teq E t TString -> read t (UString s) (DString s)
  | read_none : forall t, teq E t TNone -> read t UNone DNone
  | read_record : forall t r o fts fs xs, teq E t (TRecord r o) -> lookup own r = Some fts -> read_fields fts fs xs ->
      read t (URecord r fs) (DRecord r o xs)
  | read_tagged : forall t a u x, ~ teq E t a -> has_alt E t a -> read a u x -> read t (UTagged a u) x
  with read_fields : list (string * ty) -> list (string * hvalue) -> list data -> Prop :=
  | read_nil : forall fs, read_fields [] fs []
  | read_cons : forall y t fts fs u x xs, lookup fs y = Some u -> read t u x -> read_fields fts fs xs ->
      read_fields ((y, t) :: fts) fs (x :: xs).

  (** Values of the type [t] are compared after both operands are evaluated, from
      left to right. *)
  Definition in_order (t : ty) : Prop :=
    teq E t TBoolean \/ teq E t TNumber \/ teq E t TString \/
    (exists r o, teq E t (TRecord r o) /\ lookup own r <> None) \/ varies E t.

  Inductive binary : binop -> hvalue -> hvalue -> hvalue -> Prop :=
  | b_add : forall a b, binary (BinAddition (Some TNumber)) (UNumber a) (UNumber b) (UNumber (w_arith w Add a b))
  | b_concatenate : forall a b, binary (BinAddition (Some TString)) (UString a) (UString b) (UString (a ++ b))
  | b_subtract : forall a b, binary (BinArithmetic HSubtract) (UNumber a) (UNumber b) (UNumber (w_arith w Subtract a b))
  | b_multiply : forall a b, binary (BinArithmetic HMultiply) (UNumber a) (UNumber b) (UNumber (w_arith w Multiply a b))
  | b_divide : forall a b, binary (BinArithmetic HDivide) (UNumber a) (UNumber b) (UNumber (w_arith w Divide a b))
  | b_less : forall a b, binary (BinOrder HLess) (UNumber a) (UNumber b) (UBoolean (w_compare w LessThan a b))
  | b_less_equal : forall a b, binary (BinOrder HLessEqual) (UNumber a) (UNumber b) (UBoolean (w_compare w LessThanOrEqual a b))
  | b_greater : forall a b, binary (BinOrder HGreater) (UNumber a) (UNumber b) (UBoolean (w_compare w GreaterThan a b))
  | b_greater_equal : forall a b, binary (BinOrder HGreaterEqual) (UNumber a) (UNumber b) (UBoolean (w_compare w GreaterThanOrEqual a b)).

  (** [ev s rho e o s']: from the state [s], the expression [e] with the variables
      [rho] ends with [o] and leaves the state [s']. *)
  Inductive ev : hstate -> henv -> hexpr -> outcome -> hstate -> Prop :=
  | ev_boolean : forall s rho b, ev s rho (HBoolean b) (Gives (UBoolean b)) s
  | ev_none : forall s rho, ev s rho HNone (Gives UNone) s
  | ev_number : forall s rho z, ev s rho (HNumber z) (Gives (UNumber z)) s
  | ev_string : forall s rho t, ev s rho (HString t) (Gives (UString t)) s
  | ev_variable : forall s rho x u, lookup rho x = Some u -> ev s rho (HVariable x) (Gives u) s
  | ev_function : forall s rho x, lookup rho x = None ->
      lookup (h_defs p) x <> None \/ lookup (h_declared p) x <> None -> ev s rho (HVariable x) (Gives (UGlobal x)) s
  | ev_lambda : forall s rho args r body,
      ev s rho (HLambda args r body) (Gives (UClosure (map fst args) body rho)) s
  (** an operand that returns early *)
  | ev_early : forall s rho e u s', evs s rho (operands e) (inr u) s' -> ev s rho e (Returns u) s'
  | ev_call : forall s rho ft ts r f args g us s1 v s2, (forall b, f <> HBuiltIn b) ->
      teq E ft (TFunction ts r) -> List.length args = List.length ts ->
      evs s rho (f :: args) (inl (g :: us)) s1 -> applies s1 g us v s2 ->
      ev s rho (HCall (Some ft) f args) (Gives v) s2
  | ev_error_of_error : forall s rho ft a t u s1,
      evs s rho [a] (inl [UTagged t u]) s1 -> teq E t TError ->
      ev s rho (HCall ft (HBuiltIn BError) [a]) (Gives u) s1
  | ev_error : forall s rho ft a t u s1,
      evs s rho [a] (inl [UTagged t u]) s1 -> ~ teq E t TError ->
      ev s rho (HCall ft (HBuiltIn BError) [a]) (Gives (UError (UTagged t u))) s1
  | ev_source : forall s rho ft a u s1,
      evs s rho [a] (inl [UError u]) s1 -> ev s rho (HCall ft (HBuiltIn BSource) [a]) (Gives u) s1
  | ev_if : forall s rho c a b x s1 o s2,
      evs s rho [c] (inl [UBoolean x]) s1 -> ev s1 rho (if x then a else b) o s2 -> ev s rho (HIf c a b) o s2
  | ev_if_type : forall s rho x a bs els t u s1 bt body v o s2,
      evs s rho [a] (inl [UTagged t u]) s1 -> first_taking E t (all_branches bs els) (bt, body) ->
      opened E bt t u v -> ev s1 ((x, v) :: rho) body o s2 -> ev s rho (HIfType x a bs els) o s2
  | ev_let : forall s rho x t b e u s1 o s2,
      evs s rho [b] (inl [u]) s1 -> ev s1 ((x, u) :: rho) e o s2 -> ev s rho (HLet (Some x) t b e) o s2
  | ev_statement : forall s rho t b e u s1 o s2,
      evs s rho [b] (inl [u]) s1 -> ev s1 rho e o s2 -> ev s rho (HLet None t b e) o s2
  | ev_and : forall s rho l r x s1 o s2,
      evs s rho [l] (inl [UBoolean x]) s1 -> ev s1 rho (if x then r else HBoolean false) o s2 ->
      ev s rho (HBinary (BinBoolean HAnd) l r) o s2
  | ev_or : forall s rho l r x s1 o s2,
      evs s rho [l] (inl [UBoolean x]) s1 -> ev s1 rho (if x then HBoolean true else r) o s2 ->
      ev s rho (HBinary (BinBoolean HOr) l r) o s2
  | ev_binary : forall s rho op l r a b u s1,
      evs s rho [l; r] (inl [a; b]) s1 -> binary op a b u -> ev s rho (HBinary op l r) (Gives u) s1
  | ev_equality : forall s rho t op l r a b x y s1,
      evs s rho [l; r] (inl [a; b]) s1 -> in_order t -> read t a x -> read t b y ->
      ev s rho (HBinary (BinEquality (Some t) op) l r) (Gives (UBoolean (is_equal op (same w x y)))) s1
  | ev_equality_left : forall s rho t op l r u s1,
      in_order t -> evs s rho [l] (inr u) s1 ->
      ev s rho (HBinary (BinEquality (Some t) op) l r) (Returns u) s1
  | ev_equality_right : forall s rho t op l r a x u s1 s2,
      in_order t -> evs s rho [l] (inl [a]) s1 -> read t a x -> evs s1 rho [r] (inr u) s2 ->
      ev s rho (HBinary (BinEquality (Some t) op) l r) (Returns u) s2
  | ev_not : forall s rho a x s1,
      evs s rho [a] (inl [UBoolean x]) s1 -> ev s rho (HNot a) (Gives (UBoolean (negb x))) s1
  | ev_try_error : forall s rho t a t' u s1,
      evs s rho [a] (inl [UTagged t' u]) s1 -> teq E t' TError -> ev s rho (HTry (Some t) a) (Returns (UTagged t' u)) s1
  | ev_try : forall s rho t a t' u v s1,
      evs s rho [a] (inl [UTagged t' u]) s1 -> ~ teq E t' TError -> has_alt E t t' -> opened E t t' u v ->
      ev s rho (HTry (Some t) a) (Gives v) s1
  | ev_record : forall s rho t r o fs us s1,
      teq E t (TRecord r o) -> evs s rho (map snd fs) (inl us) s1 ->
      ev s rho (HRecord t fs) (Gives (URecord r (combine (map fst fs) us))) s1
  | ev_field : forall s rho t r o a fs x u s1,
      teq E t (TRecord r o) -> evs s rho [a] (inl [URecord r fs]) s1 -> lookup fs x = Some u ->
      ev s rho (HField (Some t) a x) (Gives u) s1
  | ev_update : forall s rho t r o a old fs us s1,
      teq E t (TRecord r o) -> evs s rho (a :: map snd fs) (inl (URecord r old :: us)) s1 ->
      ev s rho (HUpdate t a fs) (Gives (URecord r (combine (map fst fs) us ++ old)%list)) s1
  (** conversions *)
  | ev_box : forall s rho t t' a b u s1,
      sub E t t' -> single b -> teq E t b -> evs s rho [a] (inl [u]) s1 ->
      ev s rho (HCoerce t t' a) (Gives (UTagged b u)) s1
  | ev_boxed : forall s rho t t' a u s1,
      varies E t \/ widens E t t' /\ ~ sub E t t' -> evs s rho [a] (inl [u]) s1 -> ev s rho (HCoerce t t' a) (Gives u) s1
  (** [evs s rho es r s']: the expressions are evaluated from left to right and give
      the values [inl us], or one of them returns early with [inr u]. *)
  with evs : hstate -> henv -> list hexpr -> (list hvalue + hvalue) -> hstate -> Prop :=
  | evs_nil : forall s rho, evs s rho [] (inl []) s
  | evs_cons : forall s rho e es u us s1 s2,
      ev s rho e (Gives u) s1 -> evs s1 rho es (inl us) s2 -> evs s rho (e :: es) (inl (u :: us)) s2
  | evs_returns : forall s rho e es u s1, ev s rho e (Returns u) s1 -> evs s rho (e :: es) (inr u) s1
  | evs_later : forall s rho e es u v s1 s2,
      ev s rho e (Gives u) s1 -> evs s1 rho es (inr v) s2 -> evs s rho (e :: es) (inr v) s2
  (** [applies s g us v s']: a call of the function [g] with the arguments [us] *)
  with applies : hstate -> hvalue -> list hvalue -> hvalue -> hstate -> Prop :=
  | ap_closure : forall s xs body rho us o s',
      List.length us = List.length xs -> ev s (bound_to xs us rho) body o s' ->
      applies s (UClosure xs body rho) us (result o) s'
  | ap_function : forall s g l us o s',
      lookup (h_defs p) g = Some l -> l_arguments l <> [] -> List.length us = List.length (l_arguments l) ->
      ev s (bound_to (map fst (l_arguments l)) us []) (l_body l) o s' ->
      applies s (UGlobal g) us (result o) s'
  | ap_kept : forall s g l u,
      lookup (h_defs p) g = Some l -> l_arguments l = [] -> lookup (kept s) g = Some u -> applies s (UGlobal g) [] u s
  | ap_once : forall s g l u s',
      lookup (h_defs p) g = Some l -> l_arguments l = [] -> lookup (kept s) g = None ->
      ev s [] (l_body l) (Gives u) s' -> applies s (UGlobal g) [] u (add_kept s' g u)
  (** a body that returns early is not kept (C48) *)
  | ap_again : forall s g l u s',
      lookup (h_defs p) g = Some l -> l_arguments l = [] -> lookup (kept s) g = None ->
      ev s [] (l_body l) (Returns u) s' -> applies s (UGlobal g) [] u s'
  | ap_outer : forall s g us v,
      lookup (h_defs p) g = None -> lookup (h_declared p) g <> None -> outer (calls s) g us v ->
      applies s (UGlobal g) us v (add_call s g us).
End Meaning.
