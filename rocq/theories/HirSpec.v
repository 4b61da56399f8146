(** Specification of the HIR analyses, independent of their code.

    - [exact E R G e t]: expression [e] has type [t] when no implicit
      conversion exists: every position holds an expression of the very type
      it expects, and only an explicit conversion changes a type, from a type
      to another one that has all its values ([widens]).  Type switches and [?]
      are applied to unions and to [any] only ([varies]).
    - [within c e c' e']: [e'] occurs in [e]; if [e] is evaluated in the context
      [c], then [e'] is evaluated in [c'].  [Some t] is the body of a function
      with result type [t], [None] the inside of a list, evaluated when the
      list is read.
    - [strip e]: [e] without type annotations and conversions. *)
From Coq Require Import String List ZArith Bool.
From Verif Require Import Base HirType HirTypeSpec Hir.
Import ListNotations.

(** A conversion may only add alternatives.  Lists and maps hold their elements
    as values of type [any], so that a list of [number]s also is a list of
    [number | none]s. *)
Inductive widens (E : tenv) : ty -> ty -> Prop :=
| widens_sub : forall s t, sub E s t -> widens E s t
| widens_list : forall s t a b, teq E s (TList a) -> teq E t (TList b) -> sub E a b -> widens E s t
| widens_map : forall s t a b a' b', teq E s (TMap a b) -> teq E t (TMap a' b') ->
    sub E a a' -> sub E b b' -> widens E s t.

(** Built-in functions: parameter types and result type *)
Inductive signature (E : tenv) : builtin -> list ty -> ty -> Prop :=
| sig_debug : signature E BDebug [TAny] TNone
| sig_delete : forall k v k', sub E k' k -> signature E BDelete [TMap k v; k'] (TMap k v)
| sig_error : signature E BError [TAny] TError
| sig_keys : forall k v, signature E BKeys [TMap k v] (TList k)
| sig_race : forall t, signature E BRace [TList (TList t)] (TList t)
| sig_reflect_debug : signature E BReflectDebug [TAny] TString
| sig_reflect_equal : signature E BReflectEqual [TAny; TAny] (TUnion TBoolean TNone)
| sig_size_list : forall t, signature E BSize [TList t] TNumber
| sig_size_map : forall k v, signature E BSize [TMap k v] TNumber
| sig_source : signature E BSource [TError] TAny
| sig_spawn : forall t, signature E BSpawn [TFunction [] t] (TFunction [] t)
| sig_values : forall k v, signature E BValues [TMap k v] (TList v).

(** The branches and the else branch of a type switch cover type [u]: a branch
    takes the alternatives of its type, a branch of type [any] takes all. *)
Definition takes (E : tenv) (branch a : ty) : Prop := has_alt E branch a \/ has_alt E branch TAny.

Definition covers (E : tenv) (u : ty) (branches : list ty) (else_ : option ty) : Prop :=
  forall a, defined E a -> has_alt E u a ->
    (exists b, In b branches /\ takes E b a) \/ (exists b, else_ = Some b /\ takes E b a).

(** Types with the values of one kind only; [varies E u]: [u] is a union of
    different types, or [any]. *)
Definition single (t : ty) : Prop :=
  match t with TAny | TUnion _ _ | TReference _ => False | _ => True end.

Definition varies (E : tenv) (u : ty) : Prop := forall a, single a -> ~ teq E u a.

Section Exact.
  Variable E : tenv.
  Variable R : renv.

  Inductive exact : venv -> hexpr -> ty -> Prop :=
  | X_same : forall G e s t, exact G e s -> teq E s t -> exact G e t
  | X_boolean : forall G b, exact G (HBoolean b) TBoolean
  | X_none : forall G, exact G HNone TNone
  | X_number : forall G n, exact G (HNumber n) TNumber
  | X_string : forall G s, exact G (HString s) TString
  | X_variable : forall G x t, lookup G x = Some t -> exact G (HVariable x) t
  | X_call : forall G ft f args ts r,
      teq E ft (TFunction ts r) -> exact G f (TFunction ts r) ->
      List.length args = List.length ts ->
      (forall a t, In (a, t) (combine args ts) -> exact G a t) ->
      exact G (HCall (Some ft) f args) r
  | X_builtin : forall G ft b args ts r,
      signature E b ts r -> teq E ft (TFunction ts r) ->
      List.length args = List.length ts ->
      (forall a t, In (a, t) (combine args ts) -> exact G a t) ->
      exact G (HCall (Some ft) (HBuiltIn b) args) r
  | X_if : forall G c a b t,
      exact G c TBoolean -> exact G a t -> exact G b t -> exact G (HIf c a b) t
  | X_if_list : forall G et l first rest a b t,
      exact G l (TList et) ->
      exact ((rest, TList et) :: (first, TFunction [] et) :: G) a t -> exact G b t ->
      exact G (HIfList (Some et) l first rest a b) t
  | X_if_map : forall G kt vt x m k a b t,
      exact G m (TMap kt vt) -> exact G k kt -> exact ((x, vt) :: G) a t -> exact G b t ->
      exact G (HIfMap (Some kt) (Some vt) x m k a b) t
  | X_if_type : forall G x a u branches t,
      exact G a u -> varies E u -> branches <> [] ->
      (forall bt b, In (bt, b) branches -> sub E bt u /\ ~ has_alt E bt TAny) ->
      (forall bt b, In (bt, b) branches -> exact ((x, bt) :: G) b t) ->
      covers E u (map fst branches) None ->
      exact G (HIfType x a branches None) t
  | X_if_type_else : forall G x a u branches et b' t,
      exact G a u -> varies E u -> branches <> [] ->
      (forall bt b, In (bt, b) branches -> sub E bt u /\ ~ has_alt E bt TAny) ->
      (forall bt b, In (bt, b) branches -> exact ((x, bt) :: G) b t) ->
      covers E u (map fst branches) (Some et) -> exact ((x, et) :: G) b' t ->
      exact G (HIfType x a branches (Some (Some et, b'))) t
  | X_lambda : forall G args r b,
      exact (rev args ++ G) b r -> exact G (HLambda args r b) (TFunction (map snd args) r)
  | X_statement : forall G s b e t,
      exact G b s -> exact G e t -> exact G (HLet None (Some s) b e) t
  | X_let : forall G x s b e t,
      exact G b s -> exact ((x, s) :: G) e t -> exact G (HLet (Some x) (Some s) b e) t
  | X_list : forall G t es,
      (forall e, In (Single e) es -> exact G e t) ->
      (forall e, In (Multiple e) es -> exact G e (TList t)) ->
      exact G (HList t es) (TList t)
  | X_comprehension : forall G t el bs G',
      exact_branches G bs G' -> exact G' el t -> exact G (HComprehension t el bs) (TList t)
  | X_map : forall G k v es,
      (forall a b, In (Entry a b) es -> exact G a k) ->
      (forall a b, In (Entry a b) es -> exact G b v) ->
      (forall m, In (Spread m) es -> exact G m (TMap k v)) ->
      exact G (HMap k v es) (TMap k v)
  | X_add : forall G t l r,
      t = TNumber \/ t = TString -> exact G l t -> exact G r t ->
      exact G (HBinary (BinAddition (Some t)) l r) t
  | X_arithmetic : forall G o l r,
      exact G l TNumber -> exact G r TNumber -> exact G (HBinary (BinArithmetic o) l r) TNumber
  | X_and_or : forall G o l r,
      exact G l TBoolean -> exact G r TBoolean -> exact G (HBinary (BinBoolean o) l r) TBoolean
  | X_equality : forall G o t l r,
      exact G l t -> exact G r t -> exact G (HBinary (BinEquality (Some t) o) l r) TBoolean
  | X_order : forall G o l r,
      exact G l TNumber -> exact G r TNumber -> exact G (HBinary (BinOrder o) l r) TBoolean
  | X_not : forall G e, exact G e TBoolean -> exact G (HNot e) TBoolean
  | X_try : forall G t e, exact G e (TUnion t TError) -> varies E (TUnion t TError) -> exact G (HTry (Some t) e) t
  | X_record : forall G t name o fts fs,
      teq E t (TRecord name o) -> lookup R name = Some fts ->
      (forall x e, In (x, e) fs -> lookup fts x <> None) ->
      (forall x e ft, In (x, e) fs -> lookup fts x = Some ft -> exact G e ft) ->
      (forall x, lookup fts x <> None -> In x (map fst fs)) ->
      exact G (HRecord t fs) t
  | X_field : forall G t name o fts r x ft,
      teq E t (TRecord name o) -> lookup R name = Some fts -> lookup fts x = Some ft ->
      exact G r t -> exact G (HField (Some t) r x) ft
  | X_update : forall G t name o fts r fs,
      teq E t (TRecord name o) -> lookup R name = Some fts -> exact G r t ->
      (forall x e, In (x, e) fs -> lookup fts x <> None) ->
      (forall x e ft, In (x, e) fs -> lookup fts x = Some ft -> exact G e ft) ->
      exact G (HUpdate t r fs) t
  | X_thunk : forall G t e, exact G e t -> exact G (HThunk (Some t) e) (TFunction [] t)
  | X_coerce : forall G s t e, exact G e s -> widens E s t -> ~ teq E s t -> exact G (HCoerce s t e) t
  (** the scopes of a comprehension: the lists of a branch are outside the scope
      of its names *)
  with exact_branches : venv -> list comp_branch -> venv -> Prop :=
  | XB_nil : forall G, exact_branches G [] G
  | XB_cons : forall G names its cond ets bs G',
      List.length names = List.length its -> List.length ets = List.length its ->
      (forall t e et, In ((t, e), et) (combine its ets) -> exists t', t = Some t' /\ teq E t' (TList et)) ->
      (forall t e et, In ((t, e), et) (combine its ets) -> exact G e (TList et)) ->
      (forall c, cond = Some c -> exact (rev (combine names (map (TFunction []) ets)) ++ G) c TBoolean) ->
      exact_branches (rev (combine names (map (TFunction []) ets)) ++ G) bs G' ->
      exact_branches G (CompBranch names its cond :: bs) G'.

  Definition exact_lambda (G : venv) (l : lambda) : Prop :=
    exact (rev (l_arguments l) ++ G) (l_body l) (l_result l).

  Definition exact_module (m : hmodule) : Prop :=
    forall x l, In (x, l) (h_defs m) -> exact_lambda (module_env m) l.
End Exact.

(** ** Parts of an expression *)
Definition element_parts (el : element) : list hexpr :=
  match el with Single e => [e] | Multiple e => [e] end.
Definition map_parts (el : map_element) : list hexpr :=
  match el with Entry a b => [a; b] | Spread m => [m] end.
Definition branch_parts (b : comp_branch) : list hexpr :=
  (map snd (b_iteratees b) ++ match b_condition b with None => [] | Some c => [c] end)%list.

(** Evaluated by the function the expression is in *)
Definition eager_parts (e : hexpr) : list hexpr :=
  match e with
  | HCall _ f args => f :: args
  | HIf c a b => [c; a; b]
  | HIfList _ l _ _ a b => [l; a; b]
  | HIfMap _ _ _ m k a b => [m; k; a; b]
  | HIfType _ a bs els => a :: (map snd bs ++ match els with None => [] | Some (_, b) => [b] end)%list
  | HLet _ _ b e' => [b; e']
  | HMap _ _ es => flat_map map_parts es
  | HBinary _ l r => [l; r]
  | HNot a => [a]
  | HTry _ a => [a]
  | HRecord _ fs => map snd fs
  | HField _ r _ => [r]
  | HUpdate _ r fs => r :: map snd fs
  | HCoerce _ _ a => [a]
  | _ => []
  end.

(** Evaluated when a list is read *)
Definition lazy_parts (e : hexpr) : list hexpr :=
  match e with
  | HList _ es => flat_map element_parts es
  | HComprehension _ el bs => (flat_map branch_parts bs ++ [el])%list
  | HThunk None a => [a]
  | _ => []
  end.

(** Function bodies with their result type *)
Definition bodies (e : hexpr) : list (ty * hexpr) :=
  match e with
  | HLambda _ r b => [(r, b)]
  | HThunk (Some t) a => [(t, a)]
  | _ => []
  end.

Inductive within : option ty -> hexpr -> option ty -> hexpr -> Prop :=
| within_self : forall c e, within c e c e
| within_eager : forall c e p c' e', In p (eager_parts e) -> within c p c' e' -> within c e c' e'
| within_lazy : forall c e p c' e', In p (lazy_parts e) -> within None p c' e' -> within c e c' e'
| within_body : forall c e t p c' e', In (t, p) (bodies e) -> within (Some t) p c' e' -> within c e c' e'.

Definition occurs (e' e : hexpr) : Prop := exists c c', within c e c' e'.

Definition parts (e : hexpr) : list hexpr := (eager_parts e ++ lazy_parts e ++ map snd (bodies e))%list.

(** [e'] occurs in [e], and not inside the condition of a list comprehension. *)
Definition parts_outside (e : hexpr) : list hexpr :=
  match e with
  | HComprehension _ el bs => (flat_map (fun b => map snd (b_iteratees b)) bs ++ [el])%list
  | _ => parts e
  end.

Inductive outside_conditions : hexpr -> hexpr -> Prop :=
| out_self : forall e, outside_conditions e e
| out_part : forall e p e', In p (parts_outside e) -> outside_conditions p e' -> outside_conditions e e'.

(** A discarded value of type [t] may be an error the program could have
    tested for ([any] may be anything, and is let through). *)
Definition discards_error (E : tenv) (t : ty) : Prop := has_alt E t TError /\ ~ has_alt E t TAny.

(** The record whose fields an expression accesses *)
Definition accessed (e : hexpr) : option (option ty) :=
  match e with
  | HRecord t _ | HUpdate t _ _ => Some (Some t)
  | HField t _ _ => Some t
  | _ => None
  end.

(** [t] is one of the records [names] *)
Definition record_among (E : tenv) (names : list string) (t : ty) : Prop :=
  exists name o, teq E t (TRecord name o) /\ In name names.

(** ** The types written in an expression *)
Definition opt_types (t : option ty) : list ty := match t with None => [] | Some t => [t] end.

Fixpoint written (e : hexpr) : list ty :=
  match e with
  | HBoolean _ | HBuiltIn _ | HNone | HNumber _ | HString _ | HVariable _ => []
  | HCall ft f args => opt_types ft ++ written f ++ flat_map written args
  | HIf c a b => written c ++ written a ++ written b
  | HIfList t l _ _ a b => opt_types t ++ written l ++ written a ++ written b
  | HIfMap kt vt _ m k a b => opt_types kt ++ opt_types vt ++ written m ++ written k ++ written a ++ written b
  | HIfType _ a bs els =>
      written a ++ flat_map (fun b => fst b :: written (snd b)) bs ++
      match els with None => [] | Some (t, b) => opt_types t ++ written b end
  | HLambda args r b => map snd args ++ r :: written b
  | HLet _ t b e' => opt_types t ++ written b ++ written e'
  | HList t es => t :: flat_map (fun el => match el with Single a => written a | Multiple a => written a end) es
  | HComprehension t el bs =>
      t :: written el ++
      flat_map (fun b => match b with
                         | CompBranch _ its cond =>
                             flat_map (fun it => opt_types (fst it) ++ written (snd it)) its ++
                             match cond with None => [] | Some c => written c end
                         end) bs
  | HMap k v es =>
      k :: v :: flat_map (fun el => match el with Entry a b => written a ++ written b | Spread m => written m end) es
  | HBinary o l r =>
      match o with BinAddition t | BinEquality t _ => opt_types t | _ => [] end ++ written l ++ written r
  | HNot a => written a
  | HTry t a => opt_types t ++ written a
  | HRecord t fs => t :: flat_map (fun f => written (snd f)) fs
  | HField t r _ => opt_types t ++ written r
  | HUpdate t r fs => t :: written r ++ flat_map (fun f => written (snd f)) fs
  | HThunk t a => opt_types t ++ written a
  | HCoerce s t a => s :: t :: written a
  end%list.

Definition lambda_written (l : lambda) : list ty :=
  (map snd (l_arguments l) ++ l_result l :: written (l_body l))%list.

Definition module_written (m : hmodule) : list ty :=
  (map snd (h_declared m) ++ flat_map (fun d => lambda_written (snd d)) (h_defs m))%list.

(** A well-formed context: the environment of an accepted module, and records
    whose fields mention known types. *)
Record context_ok (f : string -> string) (E : tenv) (R : renv) : Prop := {
  ctx_types : wf f E;
  ctx_fields : forall r fts x t, lookup R r = Some fts -> lookup fts x = Some t -> ok f E t
}.

Definition types_known (f : string -> string) (E : tenv) (ts : list ty) : Prop := Forall (ok f E) ts.

(** ** The program without annotations and conversions *)
Fixpoint strip (e : hexpr) : hexpr :=
  match e with
  | HBoolean _ | HBuiltIn _ | HNone | HNumber _ | HString _ | HVariable _ => e
  | HCall _ f args => HCall None (strip f) (map strip args)
  | HIf c a b => HIf (strip c) (strip a) (strip b)
  | HIfList _ l x y a b => HIfList None (strip l) x y (strip a) (strip b)
  | HIfMap _ _ x m k a b => HIfMap None None x (strip m) (strip k) (strip a) (strip b)
  | HIfType x a bs els =>
      HIfType x (strip a) (map (fun b => (fst b, strip (snd b))) bs)
        match els with None => None | Some (_, b) => Some (None, strip b) end
  | HLambda args r b => HLambda args r (strip b)
  | HLet x _ b e' => HLet x None (strip b) (strip e')
  | HList t es =>
      HList t (map (fun el => match el with Single a => Single (strip a) | Multiple a => Multiple (strip a) end) es)
  | HComprehension t el bs =>
      HComprehension t (strip el)
        (map (fun b => match b with
                       | CompBranch names its cond =>
                           CompBranch names (map (fun it => (None, strip (snd it))) its)
                             match cond with None => None | Some c => Some (strip c) end
                       end) bs)
  | HMap k v es =>
      HMap k v (map (fun el => match el with Entry a b => Entry (strip a) (strip b) | Spread m => Spread (strip m) end) es)
  | HBinary o l r =>
      HBinary match o with
              | BinAddition _ => BinAddition None
              | BinEquality _ op => BinEquality None op
              | _ => o
              end (strip l) (strip r)
  | HNot a => HNot (strip a)
  | HTry _ a => HTry None (strip a)
  | HRecord t fs => HRecord t (map (fun f => (fst f, strip (snd f))) fs)
  | HField _ r x => HField None (strip r) x
  | HUpdate t r fs => HUpdate t (strip r) (map (fun f => (fst f, strip (snd f))) fs)
  | HThunk _ a => HThunk None (strip a)
  | HCoerce _ _ a => strip a
  end.

Definition strip_module (m : hmodule) : hmodule :=
  HModule (h_declared m)
    (map (fun d => (fst d, Lambda (l_arguments (snd d)) (l_result (snd d)) (strip (l_body (snd d))))) (h_defs m)).

(** [plain e]: [e] without conversions, keeping its annotations. *)
Fixpoint plain (e : hexpr) : hexpr :=
  match e with
  | HBoolean _ | HBuiltIn _ | HNone | HNumber _ | HString _ | HVariable _ => e
  | HCall ft f args => HCall ft (plain f) (map plain args)
  | HIf c a b => HIf (plain c) (plain a) (plain b)
  | HIfList t l x y a b => HIfList t (plain l) x y (plain a) (plain b)
  | HIfMap kt vt x m k a b => HIfMap kt vt x (plain m) (plain k) (plain a) (plain b)
  | HIfType x a bs els =>
      HIfType x (plain a) (map (fun b => (fst b, plain (snd b))) bs)
        match els with None => None | Some (t, b) => Some (t, plain b) end
  | HLambda args r b => HLambda args r (plain b)
  | HLet x t b e' => HLet x t (plain b) (plain e')
  | HList t es =>
      HList t (map (fun el => match el with Single a => Single (plain a) | Multiple a => Multiple (plain a) end) es)
  | HComprehension t el bs =>
      HComprehension t (plain el)
        (map (fun b => match b with
                       | CompBranch names its cond =>
                           CompBranch names (map (fun it => (fst it, plain (snd it))) its)
                             match cond with None => None | Some c => Some (plain c) end
                       end) bs)
  | HMap k v es =>
      HMap k v (map (fun el => match el with Entry a b => Entry (plain a) (plain b) | Spread m => Spread (plain m) end) es)
  | HBinary o l r => HBinary o (plain l) (plain r)
  | HNot a => HNot (plain a)
  | HTry t a => HTry t (plain a)
  | HRecord t fs => HRecord t (map (fun f => (fst f, plain (snd f))) fs)
  | HField t r x => HField t (plain r) x
  | HUpdate t r fs => HUpdate t (plain r) (map (fun f => (fst f, plain (snd f))) fs)
  | HThunk t a => HThunk t (plain a)
  | HCoerce _ _ a => plain a
  end.

Definition plain_module (m : hmodule) : hmodule :=
  HModule (h_declared m)
    (map (fun d => (fst d, Lambda (l_arguments (snd d)) (l_result (snd d)) (plain (l_body (snd d))))) (h_defs m)).

(** No list of a comprehension branch mentions a name of the same branch. *)
Fixpoint mentions (x : string) (e : hexpr) : bool :=
  match e with
  | HVariable y => String.eqb x y
  | HBoolean _ | HBuiltIn _ | HNone | HNumber _ | HString _ => false
  | HCall _ f args => mentions x f || existsb (mentions x) args
  | HIf c a b => mentions x c || mentions x a || mentions x b
  | HIfList _ l _ _ a b => mentions x l || mentions x a || mentions x b
  | HIfMap _ _ _ m k a b => mentions x m || mentions x k || mentions x a || mentions x b
  | HIfType _ a bs els =>
      mentions x a || existsb (fun b => mentions x (snd b)) bs ||
      match els with None => false | Some (_, b) => mentions x b end
  | HLambda _ _ b => mentions x b
  | HLet _ _ b e' => mentions x b || mentions x e'
  | HList _ es => existsb (fun el => match el with Single a => mentions x a | Multiple a => mentions x a end) es
  | HComprehension _ el bs =>
      mentions x el ||
      existsb (fun b => match b with
                        | CompBranch _ its cond =>
                            existsb (fun it => mentions x (snd it)) its ||
                            match cond with None => false | Some c => mentions x c end
                        end) bs
  | HMap _ _ es =>
      existsb (fun el => match el with Entry a b => mentions x a || mentions x b | Spread m => mentions x m end) es
  | HBinary _ l r => mentions x l || mentions x r
  | HNot a => mentions x a
  | HTry _ a => mentions x a
  | HRecord _ fs => existsb (fun f => mentions x (snd f)) fs
  | HField _ r _ => mentions x r
  | HUpdate _ r fs => mentions x r || existsb (fun f => mentions x (snd f)) fs
  | HThunk _ a => mentions x a
  | HCoerce _ _ a => mentions x a
  end.

Definition branch_apart (b : comp_branch) : Prop :=
  forall t e x, In (t, e) (b_iteratees b) -> In x (b_names b) -> mentions x e = false.

Definition apart (e : hexpr) : Prop :=
  forall t el bs b, occurs (HComprehension t el bs) e -> In b bs -> branch_apart b.

Definition apart_module (m : hmodule) : Prop :=
  forall x l, In (x, l) (h_defs m) -> apart (l_body l).

(** ** Modules *)
(** The source of a program has no conversions and no thunks: the analyses and
    the compiler introduce them. *)
Definition source_form (e : hexpr) : Prop := forall s t a, ~ occurs (HCoerce s t a) e.
Definition source_module (m : hmodule) : Prop := forall x l, In (x, l) (h_defs m) -> source_form (l_body l).
Definition no_thunks (e : hexpr) : Prop := forall t a, ~ occurs (HThunk t a) e.
Definition no_thunks_module (m : hmodule) : Prop := forall x l, In (x, l) (h_defs m) -> no_thunks (l_body l).

(** Every [?] is evaluated by a function that may return an error. *)
Definition tries_allowed (E : tenv) (m : hmodule) : Prop :=
  forall x l, In (x, l) (h_defs m) -> forall c t a, within (Some (l_result l)) (l_body l) c (HTry t a) ->
    exists r, c = Some r /\ sub E TError r.

(** No statement discards an error; every access is to a record in [open]. *)
Definition no_discards_at (P : hexpr -> hexpr -> Prop) (E : tenv) (m : hmodule) : Prop :=
  forall x l, In (x, l) (h_defs m) -> forall t b k, P (l_body l) (HLet None t b k) ->
    exists s, t = Some s /\ ~ discards_error E s.
Definition accesses_open_at (P : hexpr -> hexpr -> Prop) (E : tenv) (open : list string) (m : hmodule) : Prop :=
  forall x l, In (x, l) (h_defs m) -> forall e t, P (l_body l) e -> accessed e = Some t ->
    exists s, t = Some s /\ record_among E open s.

(** Everywhere, or everywhere but in the conditions of comprehensions *)
Definition everywhere (e e' : hexpr) : Prop := occurs e' e.
Definition no_discards := no_discards_at outside_conditions.
Definition accesses_open := accesses_open_at outside_conditions.
