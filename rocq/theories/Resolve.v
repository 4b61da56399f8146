(** Name resolution: lib/ast-hir/src/lib.rs with import.rs and
    imported_module/validation.rs, the renaming passes of lib/hir/src/analysis it
    runs, and the interface that lib/hir-mir/src/module_interface.rs makes.

    The module is the HIR module that lib/ast-hir/src/module.rs makes of the
    syntax tree, with the names as written.  Positions, calling conventions and
    export configurations are dropped. *)
From Coq Require Import String Ascii List Bool.
From Verif Require Import Base HirType Hir HirSpec.
Import ListNotations.
Local Open Scope string_scope.
Local Open Scope list_scope.

(** ** Modules *)

(** lib/hir/src/ir/type_definition.rs *)
Record rtype : Type := RType {
  rt_name : string;
  rt_original : string;
  rt_fields : list (string * ty);
  rt_open : bool;
  rt_public : bool;
  rt_external : bool
}.
(** lib/hir/src/ir/type_alias.rs *)
Record ralias : Type := RAlias {
  ra_name : string;
  ra_original : string;
  ra_type : ty;
  ra_public : bool;
  ra_external : bool
}.
(** lib/hir/src/ir/foreign_declaration.rs *)
Record rforeign : Type := RForeign {
  rf_name : string;
  rf_foreign : string;
  rf_type : ty
}.
(** lib/hir/src/ir/function_definition.rs *)
Record rfunction : Type := RFunction {
  rd_name : string;
  rd_original : string;
  rd_lambda : lambda;
  rd_public : bool
}.
(** lib/hir/src/ir/module.rs *)
Record rmodule : Type := RModule {
  rm_types : list rtype;
  rm_aliases : list ralias;
  rm_foreign : list rforeign;
  rm_declared : list (string * ty);
  rm_functions : list rfunction
}.

(** lib/interface/src/type_definition.rs, type_alias.rs, function_declaration.rs
    and module.rs *)
Record itype : Type := IType {
  it_name : string;
  it_original : string;
  it_fields : list (string * ty);
  it_open : bool;
  it_public : bool
}.
Record ialias : Type := IAlias {
  ia_name : string;
  ia_original : string;
  ia_type : ty;
  ia_public : bool
}.
Record ifunction : Type := IFunction {
  if_name : string;
  if_original : string;
  if_type : ty
}.
Record interface : Type := Interface {
  i_types : list itype;
  i_aliases : list ialias;
  i_functions : list ifunction
}.

(** lib/ast-hir/src/imported_module.rs.  The positions of unqualified names are
    dropped. *)
Record import : Type := Import {
  im_interface : interface;
  im_prefix : string;
  im_unqualified : list string
}.

(** ** Renaming variables *)

(** variable_transformer.rs: the closures that leave bound names alone *)
Definition without (xs : list string) (f : string -> hexpr) : string -> hexpr :=
  fun x => if mem x xs then HVariable x else f x.

Definition let_names (x : option string) : list string := match x with Some x => [x] | None => [] end.

(** variable_transformer.rs 35-300 [transform_lambda], [transform_expression] and
    [transform_operation] *)
Fixpoint transform (f : string -> hexpr) (e : hexpr) {struct e} : hexpr :=
  match e with
  | HBoolean _ | HBuiltIn _ | HNone | HNumber _ | HString _ => e
  | HCall ft g args => HCall ft (transform f g) (map (transform f) args)
  | HIf c a b => HIf (transform f c) (transform f a) (transform f b)
  | HIfList t l x y a b => HIfList t (transform f l) x y (transform (without [x; y] f) a) (transform f b)
  | HIfMap kt vt x m k a b => HIfMap kt vt x (transform f m) (transform f k) (transform (without [x] f) a) (transform f b)
  | HIfType x a bs els =>
      HIfType x (transform f a) (map (fun b => (fst b, transform (without [x] f) (snd b))) bs)
        match els with None => None | Some (t, b) => Some (t, transform (without [x] f) b) end
  | HLambda args r b => HLambda args r (transform (without (map fst args) f) b)
  | HLet x t b e' => HLet x t (transform f b) (transform (without (let_names x) f) e')
  | HList t es =>
      HList t (map (fun el => match el with Single a => Single (transform f a) | Multiple a => Multiple (transform f a) end) es)
  | HComprehension t el bs =>
      (fix go (f : string -> hexpr) (done : list comp_branch) (bs : list comp_branch) : hexpr :=
         match bs with
         | [] => HComprehension t (transform f el) (rev done)
         | CompBranch names its cond :: bs' =>
             let f' := without names f in
             go f' (CompBranch names (map (fun it => (fst it, transform f (snd it))) its)
                      match cond with None => None | Some c => Some (transform f' c) end :: done) bs'
         end) f [] bs
  | HMap k v es =>
      HMap k v (map (fun el => match el with Entry a b => Entry (transform f a) (transform f b) | Spread m => Spread (transform f m) end) es)
  | HBinary o l r => HBinary o (transform f l) (transform f r)
  | HNot a => HNot (transform f a)
  | HTry t a => HTry t (transform f a)
  | HRecord t fs => HRecord t (map (fun x => (fst x, transform f (snd x))) fs)
  | HField t r x => HField t (transform f r) x
  | HUpdate t r fs => HUpdate t (transform f r) (map (fun x => (fst x, transform f (snd x))) fs)
  | HThunk t a => HThunk t (transform f a)
  | HCoerce from to a => HCoerce from to (transform f a)
  | HVariable x => f x
  end.

Definition transform_lambda (f : string -> hexpr) (l : lambda) : lambda :=
  Lambda (l_arguments l) (l_result l) (transform (without (map fst (l_arguments l)) f) (l_body l)).

(** variable_transformer.rs 3-31 [transform], [transform_function_definition] *)
Definition transform_variables (f : string -> hexpr) (m : rmodule) : rmodule :=
  RModule (rm_types m) (rm_aliases m) (rm_foreign m) (rm_declared m)
    (map (fun d => RFunction (rd_name d) (rd_original d) (transform_lambda f (rd_lambda d)) (rd_public d)) (rm_functions m)).

(** [FnvHashMap::get] on a map collected from a list of pairs: the last one
    counts. *)
Definition get (names : list (string * string)) (x : string) : option string := lookup (rev names) x.
(** [FnvHashMap::remove] *)
Definition remove (x : string) (names : list (string * string)) : list (string * string) :=
  filter (fun n => negb (String.eqb x (fst n))) names.

(** variable_renamer.rs 5-13 [rename] *)
Definition rename (m : rmodule) (names : list (string * string)) : rmodule :=
  transform_variables (fun x => match get names x with Some y => HVariable y | None => HVariable x end) m.

(** ** Renaming types *)

(** type_transformer.rs 32-70 [transform_type] *)
Fixpoint transform_type (f : ty -> ty) (t : ty) : ty :=
  f match t with
    | TFunction a r => TFunction (map (transform_type f) a) (transform_type f r)
    | TList e => TList (transform_type f e)
    | TMap k v => TMap (transform_type f k) (transform_type f v)
    | TUnion l r => TUnion (transform_type f l) (transform_type f r)
    | _ => t
    end.

Definition retype_binary (f : ty -> ty) (o : binop) : binop :=
  match o with
  | BinAddition t => BinAddition (option_map f t)
  | BinEquality t op => BinEquality (option_map f t) op
  | _ => o
  end.

(** type_transformer.rs 145-390 [transform_expression] and
    [transform_operation] *)
Fixpoint retype (f : ty -> ty) (e : hexpr) {struct e} : hexpr :=
  match e with
  | HBoolean _ | HBuiltIn _ | HNone | HNumber _ | HString _ | HVariable _ => e
  | HCall ft g args => HCall (option_map f ft) (retype f g) (map (retype f) args)
  | HIf c a b => HIf (retype f c) (retype f a) (retype f b)
  | HIfList t l x y a b => HIfList (option_map f t) (retype f l) x y (retype f a) (retype f b)
  | HIfMap kt vt x m k a b => HIfMap (option_map f kt) (option_map f vt) x (retype f m) (retype f k) (retype f a) (retype f b)
  | HIfType x a bs els =>
      HIfType x (retype f a) (map (fun b => (f (fst b), retype f (snd b))) bs)
        match els with None => None | Some (t, b) => Some (option_map f t, retype f b) end
  | HLambda args r b => HLambda (map (fun a => (fst a, f (snd a))) args) (f r) (retype f b)
  | HLet x t b e' => HLet x (option_map f t) (retype f b) (retype f e')
  | HList t es =>
      HList (f t) (map (fun el => match el with Single a => Single (retype f a) | Multiple a => Multiple (retype f a) end) es)
  | HComprehension t el bs =>
      HComprehension (f t) (retype f el)
        (map (fun b => match b with
                       | CompBranch names its cond =>
                           CompBranch names (map (fun it => (option_map f (fst it), retype f (snd it))) its)
                             match cond with None => None | Some c => Some (retype f c) end
                       end) bs)
  | HMap k v es =>
      HMap (f k) (f v) (map (fun el => match el with Entry a b => Entry (retype f a) (retype f b) | Spread m => Spread (retype f m) end) es)
  | HBinary o l r => HBinary (retype_binary f o) (retype f l) (retype f r)
  | HNot a => HNot (retype f a)
  | HTry t a => HTry (option_map f t) (retype f a)
  | HRecord t fs => HRecord (f t) (map (fun x => (fst x, retype f (snd x))) fs)
  | HField t r x => HField (option_map f t) (retype f r) x
  | HUpdate t r fs => HUpdate (f t) (retype f r) (map (fun x => (fst x, retype f (snd x))) fs)
  | HThunk t a => HThunk (option_map f t) (retype f a)
  | HCoerce from to a => HCoerce (f from) (f to) (retype f a)
  end.

(** type_transformer.rs 129-143 [transform_lambda] *)
Definition retype_lambda (f : ty -> ty) (l : lambda) : lambda :=
  Lambda (map (fun a => (fst a, f (snd a))) (l_arguments l)) (f (l_result l)) (retype f (l_body l)).

(** type_transformer.rs 6-30 [transform] and 72-127.  The types of function
    declarations and external definitions are left alone. *)
Definition transform_types (g : ty -> ty) (m : rmodule) : rmodule :=
  let f := transform_type g in
  RModule
    (map (fun d => if rt_external d then d
                   else RType (rt_name d) (rt_original d) (map (fun x => (fst x, f (snd x))) (rt_fields d)) (rt_open d) (rt_public d) (rt_external d)) (rm_types m))
    (map (fun a => if ra_external a then a
                   else RAlias (ra_name a) (ra_original a) (f (ra_type a)) (ra_public a) (ra_external a)) (rm_aliases m))
    (map (fun d => RForeign (rf_name d) (rf_foreign d) (f (rf_type d))) (rm_foreign m))
    (rm_declared m)
    (map (fun d => RFunction (rd_name d) (rd_original d) (retype_lambda f (rd_lambda d)) (rd_public d)) (rm_functions m)).

(** The closures of import.rs 158-178 and type_qualifier.rs 68-90 *)
Definition rename_type (names : list (string * string)) (t : ty) : ty :=
  match t with
  | TRecord x o => TRecord match get names x with Some y => y | None => x end o
  | TReference x => TReference match get names x with Some y => y | None => x end
  | _ => t
  end.

(** ** Imports *)

(** name.rs 1-3 [qualify] *)
Definition qualify (prefix x : string) : string := prefix ++ "'" ++ x.

(** The name by which an imported name goes (import.rs 98-105 and 145-150) *)
Definition imported_name (i : import) (original : string) : string :=
  if mem original (im_unqualified i) then original else qualify (im_prefix i) original.

(** imported_module/validation.rs 4-32 [validate] *)
Definition validate (i : import) : bool :=
  let names := map it_original (i_types (im_interface i)) ++ map ia_original (i_aliases (im_interface i)) ++ map if_original (i_functions (im_interface i)) in
  forallb (fun x => mem x names) (im_unqualified i).

(** import.rs 86-117 [rename_variables] *)
Definition variable_names (m : rmodule) (is : list import) : list (string * string) :=
  fold_left (fun names d => remove (rd_original d) names) (rm_functions m)
    (flat_map (fun i => map (fun d => (imported_name i (if_original d), if_name d)) (i_functions (im_interface i))) is).
Definition rename_variables (m : rmodule) (is : list import) : rmodule := rename m (variable_names m is).

(** import.rs 119-180 [rename_types] *)
Definition type_names_of (i : interface) : list (string * string) :=
  map (fun d => (it_original d, it_name d)) (filter it_public (i_types i)) ++
  map (fun a => (ia_original a, ia_name a)) (filter ia_public (i_aliases i)).
Definition type_names (m : rmodule) (is : list import) : list (string * string) :=
  fold_left (fun names a => remove (ra_original a) names) (rm_aliases m)
    (fold_left (fun names d => remove (rt_original d) names) (rm_types m)
      (flat_map (fun i => map (fun n => (imported_name i (fst n), snd n)) (type_names_of (im_interface i))) is)).
Definition rename_types (m : rmodule) (is : list import) : rmodule := transform_types (rename_type (type_names m is)) m.

(** [itertools::Itertools::sorted_by_key] with the key (name, not public), a
    stable sort, followed by [unique_by] name: of the definitions of a name, the
    first public one or else the first one.  The order of the names, which no
    later pass depends on, is that of their first definitions. *)
Fixpoint unique {A} (name : A -> string) (seen : list string) (l : list A) : list A :=
  match l with
  | [] => []
  | a :: l' => if mem (name a) seen then unique name seen l' else a :: unique name (name a :: seen) l'
  end.
Definition public_first {A} (public : A -> bool) (l : list A) : list A := filter public l ++ filter (fun a => negb (public a)) l.

(** import.rs 28-84 [compile_imports] *)
Definition compile_imports (m : rmodule) (is : list interface) : rmodule :=
  RModule
    (unique rt_name [] (public_first rt_public
       (flat_map (fun i => map (fun d => RType (it_name d) (it_original d) (it_fields d) (it_open d) (it_public d) true) (i_types i)) is)) ++ rm_types m)
    (unique ra_name [] (public_first ra_public
       (flat_map (fun i => map (fun a => RAlias (ia_name a) (ia_original a) (ia_type a) (ia_public a) true) (i_aliases i)) is)) ++ rm_aliases m)
    (rm_foreign m)
    (unique fst [] (flat_map (fun i => map (fun d => (if_name d, if_type d)) (i_functions i)) is) ++ rm_declared m)
    (rm_functions m).

(** import.rs 11-26 [compile] *)
Definition compile_import (m : rmodule) (is : list import) (prelude : list interface) : rmodule :=
  compile_imports (rename_variables (rename_types m is) is) (map im_interface is ++ prelude).

(** ** Qualification and built-in names *)

(** function_definition_qualifier.rs 5-62 [qualify].  [names[name]] of the
    code cannot fail: all these names are keys. *)
Definition qualify_functions (m : rmodule) (prefix : string) : rmodule :=
  let names := map (fun d => (rf_name d, (prefix ++ rf_name d)%string)) (rm_foreign m) ++ map (fun d => (rd_name d, (prefix ++ rd_name d)%string)) (rm_functions m) in
  let new x := match get names x with Some y => y | None => x end in
  rename
    (RModule (rm_types m) (rm_aliases m)
       (map (fun d => RForeign (new (rf_name d)) (rf_foreign d) (rf_type d)) (rm_foreign m))
       (rm_declared m)
       (map (fun d => RFunction (new (rd_name d)) (rd_original d) (rd_lambda d) (rd_public d)) (rm_functions m)))
    names.

(** type_qualifier.rs 8-92 [qualify] *)
Definition qualify_types (m : rmodule) (prefix : string) : rmodule :=
  let names := map (fun d => (rt_name d, (prefix ++ rt_name d)%string)) (filter (fun d => negb (rt_external d)) (rm_types m)) ++
               map (fun a => (ra_name a, (prefix ++ ra_name a)%string)) (filter (fun a => negb (ra_external a)) (rm_aliases m)) in
  let new x := match get names x with Some y => y | None => x end in
  transform_types (rename_type names)
    (RModule
       (map (fun d => RType (new (rt_name d)) (rt_original d) (rt_fields d) (rt_open d) (rt_public d) (rt_external d)) (rm_types m))
       (map (fun a => RAlias (new (ra_name a)) (ra_original a) (ra_type a) (ra_public a) (ra_external a)) (rm_aliases m))
       (rm_foreign m) (rm_declared m) (rm_functions m)).

(** built_in_type_transformer.rs 12-47 [transform] *)
Definition built_in_type (x : string) : option ty :=
  lookup [("any", TAny); ("boolean", TBoolean); ("error", TError); ("none", TNone); ("number", TNumber); ("string", TString)] x.
Definition transform_built_in_types (m : rmodule) : rmodule :=
  let types := map rt_name (rm_types m) ++ map ra_name (rm_aliases m) in
  transform_types (fun t => match t with
                            | TReference x => if mem x types then t else match built_in_type x with Some u => u | None => t end
                            | _ => t
                            end) m.

(** built_in_variable_transformer.rs 4-33 [transform] *)
Definition built_in_variable (x : string) : option hexpr :=
  lookup [("debug", HBuiltIn BDebug); ("delete", HBuiltIn BDelete); ("error", HBuiltIn BError); ("false", HBoolean false);
          ("go", HBuiltIn BSpawn); ("keys", HBuiltIn BKeys); ("none", HNone); ("race", HBuiltIn BRace); ("size", HBuiltIn BSize);
          ("source", HBuiltIn BSource); ("true", HBoolean true); ("values", HBuiltIn BValues);
          ("_reflect_debug", HBuiltIn BReflectDebug); ("_reflect_equal", HBuiltIn BReflectEqual)] x.
Definition transform_built_in_variables (m : rmodule) : rmodule :=
  transform_variables (fun x => match built_in_variable x with Some e => e | None => HVariable x end) m.

(** lib/ast-hir/src/lib.rs 62-69 [transform_module] *)
Definition transform_module (m : rmodule) (prefix : string) : rmodule :=
  transform_built_in_variables (transform_built_in_types (qualify_types (qualify_functions m prefix) prefix)).

(** lib/ast-hir/src/lib.rs 22-56 [compile].  The interfaces of the imported
    modules have been looked up. *)
Definition resolve_module (m : rmodule) (prefix : string) (is : list import) (prelude : list interface) : res rmodule :=
  if forallb validate is then Ok (transform_module (compile_import m is prelude) prefix) else reject "NameNotFound".

(** lib/hir-mir/src/module_interface.rs 4-51 [compile] *)
Definition module_interface (m : rmodule) : interface :=
  Interface
    (map (fun d => IType (rt_name d) (rt_original d) (rt_fields d) (rt_open d) (rt_public d && negb (rt_external d))) (rm_types m))
    (map (fun a => IAlias (ra_name a) (ra_original a) (ra_type a) (ra_public a && negb (ra_external a))) (rm_aliases m))
    (map (fun d => IFunction (rd_name d) (rd_original d) (TFunction (map snd (l_arguments (rd_lambda d))) (l_result (rd_lambda d))))
       (filter rd_public (rm_functions m))).
