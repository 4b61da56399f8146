(** What names refer to. *)
From Coq Require Import String Ascii List Bool.
From Verif Require Import Base HirType HirTypeSpec Hir HirSpec LowerTypeSpec Resolve.
Import ListNotations.
Local Open Scope string_scope.
Local Open Scope list_scope.

(** ** Scopes *)

(** The branches of a list comprehension are in the scopes of the ones before
    them, the lists of a branch outside that of the branch itself. *)
Fixpoint branch_scopes (xs : list string) (el : hexpr) (bs : list comp_branch) : list (list string * hexpr) :=
  match bs with
  | [] => [(xs, el)]
  | b :: bs' =>
      map (fun it => (xs, snd it)) (b_iteratees b) ++
      match b_condition b with Some c => [(b_names b ++ xs, c)] | None => [] end ++
      branch_scopes (b_names b ++ xs) el bs'
  end.

(** The parts of an expression, each with the names it is in the scope of *)
Definition scoped (e : hexpr) : list (list string * hexpr) :=
  match e with
  | HBoolean _ | HBuiltIn _ | HNone | HNumber _ | HString _ | HVariable _ => []
  | HCall _ g args => ([], g) :: map (pair []) args
  | HIf c a b => [([], c); ([], a); ([], b)]
  | HIfList _ l x y a b => [([], l); ([x; y], a); ([], b)]
  | HIfMap _ _ x m k a b => [([], m); ([], k); ([x], a); ([], b)]
  | HIfType x a bs els => ([], a) :: map (fun b => ([x], snd b)) bs ++ match els with Some (_, b) => [([x], b)] | None => [] end
  | HLambda args _ b => [(map fst args, b)]
  | HLet x _ b e' => [([], b); (match x with Some x => [x] | None => [] end, e')]
  | HList _ es => map (fun el => match el with Single a | Multiple a => ([], a) end) es
  | HComprehension _ el bs => branch_scopes [] el bs
  | HMap _ _ es => flat_map (fun el => match el with Entry a b => [([], a); ([], b)] | Spread m => [([], m)] end) es
  | HBinary _ l r => [([], l); ([], r)]
  | HNot a | HTry _ a | HField _ a _ | HThunk _ a | HCoerce _ _ a => [([], a)]
  | HRecord _ fs => map (fun x => ([], snd x)) fs
  | HUpdate _ r fs => ([], r) :: map (fun x => ([], snd x)) fs
  end.

(** An expression without its parts and types *)
Definition blank (t : option ty) : option ty := match t with Some _ => Some TNone | None => None end.
Definition shape (e : hexpr) : hexpr :=
  match e with
  | HBoolean _ | HBuiltIn _ | HNone | HNumber _ | HString _ | HVariable _ => e
  | HCall t _ args => HCall (blank t) HNone (map (fun _ => HNone) args)
  | HIf _ _ _ => HIf HNone HNone HNone
  | HIfList t _ x y _ _ => HIfList (blank t) HNone x y HNone HNone
  | HIfMap k v x _ _ _ _ => HIfMap (blank k) (blank v) x HNone HNone HNone HNone
  | HIfType x _ bs els =>
      HIfType x HNone (map (fun _ => (TNone, HNone)) bs) match els with Some (t, _) => Some (blank t, HNone) | None => None end
  | HLambda args _ _ => HLambda (map (fun a => (fst a, TNone)) args) TNone HNone
  | HLet x t _ _ => HLet x (blank t) HNone HNone
  | HList _ es => HList TNone (map (fun el => match el with Single _ => Single HNone | Multiple _ => Multiple HNone end) es)
  | HComprehension _ _ bs =>
      HComprehension TNone HNone
        (map (fun b => CompBranch (b_names b) (map (fun it => (blank (fst it), HNone)) (b_iteratees b))
                         match b_condition b with Some _ => Some HNone | None => None end) bs)
  | HMap _ _ es => HMap TNone TNone (map (fun el => match el with Entry _ _ => Entry HNone HNone | Spread _ => Spread HNone end) es)
  | HBinary o _ _ =>
      HBinary match o with BinAddition t => BinAddition (blank t) | BinEquality t op => BinEquality (blank t) op | _ => o end HNone HNone
  | HNot _ => HNot HNone
  | HTry t _ => HTry (blank t) HNone
  | HRecord _ fs => HRecord TNone (map (fun x => (fst x, HNone)) fs)
  | HField t _ x => HField (blank t) HNone x
  | HUpdate _ _ fs => HUpdate TNone HNone (map (fun x => (fst x, HNone)) fs)
  | HThunk t _ => HThunk (blank t) HNone
  | HCoerce _ _ _ => HCoerce TNone TNone HNone
  end.

(** ** Modules *)
Section Module.
  Variable prefix : string.
  Variable m : rmodule.
  Variable is : list import.

  (** The functions a module defines or imports from foreign languages *)
  Definition own_function (x : string) : Prop := In x (map rf_name (rm_foreign m) ++ map rd_name (rm_functions m)).
  Definition own_type (x : string) : Prop := In x (map rt_name (rm_types m) ++ map ra_name (rm_aliases m)).

  (** Unqualified names go by themselves, others by the prefix of their import. *)
  Definition goes_by (i : import) (original x : string) : Prop :=
    (In original (im_unqualified i) /\ x = original) \/
    (~ In original (im_unqualified i) /\ x = (im_prefix i ++ "'" ++ original)%string).

  (** [x] is the function [y] of another module. *)
  Definition imported_function (x y : string) : Prop := exists i d,
    In i is /\ In d (i_functions (im_interface i)) /\ goes_by i (if_original d) x /\ if_name d = y.
  (** [x] is the public type [y] of another module. *)
  Definition imported_type (x y : string) : Prop := exists i original,
    In i is /\ goes_by i original x /\
    ((exists d, In d (i_types (im_interface i)) /\ it_public d = true /\ it_original d = original /\ it_name d = y) \/
     (exists a, In a (i_aliases (im_interface i)) /\ ia_public a = true /\ ia_original a = original /\ ia_name a = y)).

  (** What a variable refers to where the names [S] are bound: a local variable,
      a function of the module, an imported function, or something built in.
      Unknown names stay as they are, and the type check rejects them. *)
  Inductive refers (S : list string) (x : string) : hexpr -> Prop :=
  | refers_local : In x S -> refers S x (HVariable x)
  | refers_own : ~ In x S -> own_function x -> refers S x (HVariable (prefix ++ x))
  | refers_imported : forall y, ~ In x S -> ~ own_function x -> imported_function x y -> refers S x (HVariable y)
  | refers_built_in : forall e, ~ In x S -> ~ own_function x -> (forall y, ~ imported_function x y) -> built_in_variable x = Some e -> refers S x e
  | refers_unknown : ~ In x S -> ~ own_function x -> (forall y, ~ imported_function x y) -> built_in_variable x = None -> refers S x (HVariable x).

  (** What the name of a type refers to: always something of this or another
      module, or built in *)
  Inductive type_refers (x : string) : ty -> Prop :=
  | type_refers_own : own_type x -> type_refers x (TReference (prefix ++ x))
  | type_refers_imported : forall y, ~ own_type x -> imported_type x y -> type_refers x (TReference y)
  | type_refers_built_in : forall t, ~ own_type x -> (forall y, ~ imported_type x y) -> built_in_type x = Some t -> type_refers x t
  | type_refers_unknown : ~ own_type x -> (forall y, ~ imported_type x y) -> built_in_type x = None -> type_refers x (TReference x).

  Inductive type_resolved : ty -> ty -> Prop :=
  | tr_reference : forall x t, type_refers x t -> type_resolved (TReference x) t
  | tr_function : forall a b r s, Forall2 type_resolved a b -> type_resolved r s -> type_resolved (TFunction a r) (TFunction b s)
  | tr_list : forall e e', type_resolved e e' -> type_resolved (TList e) (TList e')
  | tr_map : forall k v k' v', type_resolved k k' -> type_resolved v v' -> type_resolved (TMap k v) (TMap k' v')
  | tr_union : forall l r l' r', type_resolved l l' -> type_resolved r r' -> type_resolved (TUnion l r) (TUnion l' r').

  (** The resolved form of an expression where the names [S] are bound: the same
      expression with each name replaced by what it refers to *)
  Inductive resolved : list string -> hexpr -> hexpr -> Prop :=
  | resolved_variable : forall S x e, refers S x e -> resolved S (HVariable x) e
  | resolved_node : forall S e e', (forall x, e <> HVariable x) -> shape e = shape e' ->
      Forall2 type_resolved (node_types e) (node_types e') ->
      Forall2 (fun p p' => fst p = fst p' /\ resolved (fst p ++ S) (snd p) (snd p')) (scoped e) (scoped e') ->
      resolved S e e'.

  Definition lambda_resolved (l l' : lambda) : Prop :=
    Forall2 (fun a a' => fst a = fst a' /\ type_resolved (snd a) (snd a')) (l_arguments l) (l_arguments l') /\
    type_resolved (l_result l) (l_result l') /\ resolved (map fst (l_arguments l)) (l_body l) (l_body l').

  Definition function_resolved (d d' : rfunction) : Prop :=
    rd_name d' = (prefix ++ rd_name d)%string /\ rd_original d' = rd_original d /\ rd_public d' = rd_public d /\ lambda_resolved (rd_lambda d) (rd_lambda d').
  Definition foreign_resolved (d d' : rforeign) : Prop :=
    rf_name d' = (prefix ++ rf_name d)%string /\ rf_foreign d' = rf_foreign d /\ type_resolved (rf_type d) (rf_type d').
  Definition record_resolved (d d' : rtype) : Prop :=
    rt_name d' = (prefix ++ rt_name d)%string /\ rt_original d' = rt_original d /\ rt_public d' = rt_public d /\ rt_open d' = rt_open d /\
    rt_external d' = false /\ Forall2 (fun x x' => fst x = fst x' /\ type_resolved (snd x) (snd x')) (rt_fields d) (rt_fields d').
  Definition alias_resolved (a a' : ralias) : Prop :=
    ra_name a' = (prefix ++ ra_name a)%string /\ ra_original a' = ra_original a /\ ra_public a' = ra_public a /\
    ra_external a' = false /\ type_resolved (ra_type a) (ra_type a').

  (** ** Modules as the parser leaves them *)

  (** Names that are written have no colon; those the compiler makes do. *)
  Definition plain (x : string) : Prop := has_char ":"%char x = false.
  Definition mangled (x : string) : Prop := has_char ":"%char x = true.

  (** The parser makes no record types, only references. *)
  Fixpoint written_type (t : ty) : Prop :=
    match t with
    | TReference x => plain x
    | TFunction a r => (fix all l := match l with [] => True | t :: l' => written_type t /\ all l' end) a /\ written_type r
    | TList e => written_type e
    | TMap k v | TUnion k v => written_type k /\ written_type v
    | _ => False
    end.

  Record written_module : Prop := WrittenModule {
    wm_functions : forall x, own_function x -> plain x;
    wm_types : forall x, own_type x -> plain x;
    wm_bound : forall d, In d (rm_functions m) ->
      (forall x, In x (map fst (l_arguments (rd_lambda d))) -> plain x) /\
      (forall e x, occurs e (l_body (rd_lambda d)) -> In x (bound e) -> plain x) /\
      (forall x, occurs (HVariable x) (l_body (rd_lambda d)) -> plain x);
    (** nothing has been resolved yet *)
    wm_original : (forall d, In d (rm_functions m) -> rd_original d = rd_name d) /\ (forall d, In d (rm_types m) -> rt_original d = rt_name d) /\
      (forall a, In a (rm_aliases m) -> ra_original a = ra_name a);
    wm_external : (forall d, In d (rm_types m) -> rt_external d = false) /\ (forall a, In a (rm_aliases m) -> ra_external a = false);
    wm_type : (forall d, In d (rm_functions m) -> written_type (l_result (rd_lambda d)) /\ (forall a, In a (l_arguments (rd_lambda d)) -> written_type (snd a)) /\
        (forall e t, occurs e (l_body (rd_lambda d)) -> In t (node_types e) -> written_type t)) /\
      (forall d, In d (rm_foreign m) -> written_type (rf_type d)) /\
      (forall d x, In d (rm_types m) -> In x (rt_fields d) -> written_type (snd x)) /\ (forall a, In a (rm_aliases m) -> written_type (ra_type a))
  }.

  (** The imports are interfaces of compiled modules. *)
  Record clear_imports (prelude : list interface) : Prop := ClearImports {
    ci_function_names : forall i d, In i is -> In d (i_functions (im_interface i)) -> mangled (if_name d);
    ci_type_names : forall i, In i (map im_interface is ++ prelude) ->
      (forall d, In d (i_types i) -> mangled (it_name d)) /\ (forall a, In a (i_aliases i) -> mangled (ia_name a));
    (** finding 40: no foreign import has the name of an imported function *)
    ci_foreign : forall d y, In d (rm_foreign m) -> ~ imported_function (rf_name d) y
  }.
End Module.

(** The types a module is written with: those of its functions and foreign
    imports, of its own definitions, and in its code *)
Inductive mentioned (m : rmodule) : ty -> Prop :=
| mentioned_result : forall d, In d (rm_functions m) -> mentioned m (l_result (rd_lambda d))
| mentioned_argument : forall d a, In d (rm_functions m) -> In a (l_arguments (rd_lambda d)) -> mentioned m (snd a)
| mentioned_body : forall d e t, In d (rm_functions m) -> occurs e (l_body (rd_lambda d)) -> In t (node_types e) -> mentioned m t
| mentioned_foreign : forall d, In d (rm_foreign m) -> mentioned m (rf_type d)
| mentioned_field : forall d x, In d (rm_types m) -> rt_external d = false -> In x (rt_fields d) -> mentioned m (snd x)
| mentioned_alias : forall a, In a (rm_aliases m) -> ra_external a = false -> mentioned m (ra_type a).

(** The functions and types a compiled module offers to others *)
Definition offers_function (m : rmodule) (x : string) : Prop := exists d, In d (rm_functions m) /\ rd_public d = true /\ rd_name d = x.
Definition offers_type (m : rmodule) (x : string) : Prop :=
  (exists d, In d (rm_types m) /\ rt_public d = true /\ rt_external d = false /\ rt_name d = x) \/
  (exists a, In a (rm_aliases m) /\ ra_public a = true /\ ra_external a = false /\ ra_name a = x).
