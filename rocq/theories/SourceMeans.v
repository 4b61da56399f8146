(** The code that an expression of the language stands for, before its names are
    resolved: blocks are nested lets, chains of [if] nested ones, and the last
    [for] of a list comprehension is the outermost loop. *)
From Coq Require Import String Ascii List NArith ZArith.
From Verif Require Import Base HirType Hir Syntax Ast Resolve.
Import ListNotations.

Inductive type_means : aty -> ty -> Prop :=
| tm_name : forall x, type_means (AReference x) (TReference x)
| tm_function : forall a a' r r', Forall2 type_means a a' -> type_means r r' -> type_means (AFunction a r) (TFunction a' r')
| tm_list : forall t t', type_means t t' -> type_means (AList t) (TList t')
| tm_map : forall k k' v v', type_means k k' -> type_means v v' -> type_means (AMap k v) (TMap k' v')
| tm_union : forall l l' r r', type_means l l' -> type_means r r' -> type_means (AUnion l r) (TUnion l' r').
Definition named_type_means (a : string * aty) (b : string * ty) : Prop := fst a = fst b /\ type_means (snd a) (snd b).

Inductive operator_means : operator -> binop -> Prop :=
| om_add : operator_means Add (BinAddition None)
| om_subtract : operator_means Subtract (BinArithmetic HSubtract)
| om_multiply : operator_means Multiply (BinArithmetic HMultiply)
| om_divide : operator_means Divide (BinArithmetic HDivide)
| om_and : operator_means And (BinBoolean HAnd)
| om_or : operator_means Or (BinBoolean HOr)
| om_equal : operator_means Equal (BinEquality None HEqual)
| om_not_equal : operator_means NotEqual (BinEquality None HNotEqual)
| om_less : operator_means LessThan (BinOrder HLess)
| om_less_equal : operator_means LessThanOrEqual (BinOrder HLessEqual)
| om_greater : operator_means GreaterThan (BinOrder HGreater)
| om_greater_equal : operator_means GreaterThanOrEqual (BinOrder HGreaterEqual).

Section Means.
  (** What number and string literals stand for *)
  Variables (number : anumber -> Z -> Prop) (text : string -> string -> Prop).

  Inductive means : aexpr -> hexpr -> Prop :=
  | m_variable : forall x, means (XVariable x) (HVariable x)
  | m_number : forall n z, number n z -> means (XNumber n) (HNumber z)
  | m_string : forall s t, text s t -> means (XString s) (HString t)
  | m_binary : forall o p l l' r r', operator_means o p -> means l l' -> means r r' -> means (XBinary o l r) (HBinary p l' r')
  | m_call : forall f f' a a', means f f' -> Forall2 means a a' -> means (XCall f a) (HCall None f' a')
  | m_field : forall e e' x, means e e' -> means (XField e x) (HField None e' x)
  | m_not : forall e e', means e e' -> means (XNot e) (HNot e')
  | m_try : forall e e', means e e' -> means (XTry e) (HTry None e')
  | m_if : forall c c' a a' b b', means c c' -> block_means a a' -> block_means b b' -> means (XIf [(c, a)] b) (HIf c' a' b')
  | m_else_if : forall c c' a a' l b e, means c c' -> block_means a a' -> l <> [] -> means (XIf l b) e -> means (XIf ((c, a) :: l) b) (HIf c' a' e)
  | m_if_list : forall e e' x y a a' b b', means e e' -> block_means a a' -> block_means b b' -> means (XIfList e x y a b) (HIfList None e' x y a' b')
  | m_if_map : forall x m m' k k' a a' b b', means m m' -> means k k' -> block_means a a' -> block_means b b' ->
      means (XIfMap x m k a b) (HIfMap None None x m' k' a' b')
  | m_if_type : forall x e e' l l', means e e' -> Forall2 typed_block_means l l' -> means (XIfType x e l None) (HIfType x e' l' None)
  | m_if_type_else : forall x e e' l l' b b', means e e' -> Forall2 typed_block_means l l' -> block_means b b' ->
      means (XIfType x e l (Some b)) (HIfType x e' l' (Some (None, b')))
  | m_lambda : forall a a' r r' b b', Forall2 named_type_means a a' -> type_means r r' -> block_means b b' -> means (XLambda a r b) (HLambda a' r' b')
  | m_list : forall t t' l l', type_means t t' -> Forall2 element_means l l' -> means (XList t l) (HList t' l')
  | m_map : forall k k' v v' l l', type_means k k' -> type_means v v' -> Forall2 entry_means l l' -> means (XMap k v l) (HMap k' v' l')
  | m_record : forall x l l', Forall2 named_means l l' -> means (XRecord x None l) (HRecord (TReference x) l')
  | m_update : forall x e e' l l', means e e' -> Forall2 named_means l l' -> means (XRecord x (Some e) l) (HUpdate (TReference x) e' l')
  | m_comprehension : forall t t' e e' l l', type_means t t' -> means e e' -> Forall2 for_means l l' -> means (XComprehension t e l) (HComprehension t' e' (rev l'))
  with block_means : ablock aexpr -> hexpr -> Prop :=
  | bm_last : forall e h, means e h -> block_means (Block [] e) h
  | bm_statement : forall x e h l b k, means e h -> block_means (Block l b) k -> block_means (Block ((x, e) :: l) b) (HLet x None h k)
  with typed_block_means : aty * ablock aexpr -> ty * hexpr -> Prop :=
  | tbm : forall t t' b b', type_means t t' -> block_means b b' -> typed_block_means (t, b) (t', b')
  with element_means : aelement aexpr -> element_ hexpr -> Prop :=
  | em_single : forall e h, means e h -> element_means (Ast.Single e) (Hir.Single h)
  | em_multiple : forall e h, means e h -> element_means (Ast.Multiple e) (Hir.Multiple h)
  with entry_means : aentry aexpr -> map_element_ hexpr -> Prop :=
  | nm_entry : forall a a' b b', means a a' -> means b b' -> entry_means (Ast.Entry a b) (Hir.Entry a' b')
  | nm_spread : forall e h, means e h -> entry_means (Ast.Spread e) (Hir.Spread h)
  with named_means : string * aexpr -> string * hexpr -> Prop :=
  | fm : forall x e h, means e h -> named_means (x, e) (x, h)
  with for_means : abranch aexpr -> comp_branch -> Prop :=
  | cm : forall xs es es', Forall2 list_means es es' -> for_means (Branch xs es None) (CompBranch xs es' None)
  | cm_condition : forall xs es es' c c', Forall2 list_means es es' -> means c c' -> for_means (Branch xs es (Some c)) (CompBranch xs es' (Some c'))
  with list_means : aexpr -> option ty * hexpr -> Prop :=
  | lm : forall e h, means e h -> list_means e (None, h).

  (** Names that begin with a capital letter are those that other modules may use. *)
  Definition capital (x : string) : Prop := exists c s, x = String c s /\ (65 <= N_of_ascii c <= 90)%N.
  Definition function_means (f : afunction) (d : rfunction) : Prop :=
    rd_name d = fn_name f /\ rd_original d = fn_name f /\ (rd_public d = true <-> capital (fn_name f)) /\
    Forall2 named_type_means (la_arguments (fn_lambda f)) (l_arguments (rd_lambda d)) /\ type_means (la_result (fn_lambda f)) (l_result (rd_lambda d)) /\
    block_means (la_body (fn_lambda f)) (l_body (rd_lambda d)).
  Definition foreign_means (f : aforeign) (d : rforeign) : Prop := rf_name d = f_name f /\ rf_foreign d = f_name f /\ type_means (f_type f) (rf_type d).
  (** The fields of a record whose names are all capital can be used by others. *)
  Definition record_means (d : atypedef) (r : rtype) : Prop := exists x l,
    d = DRecord x l /\ rt_name r = x /\ rt_original r = x /\ Forall2 named_type_means l (rt_fields r) /\
    (rt_open r = true <-> forall y t, In (y, t) l -> capital y) /\ (rt_public r = true <-> capital x) /\ rt_external r = false.
  Definition alias_means (d : atypedef) (r : ralias) : Prop := exists x t,
    d = DAlias x t /\ ra_name r = x /\ ra_original r = x /\ type_means t (ra_type r) /\ (ra_public r = true <-> capital x) /\ ra_external r = false.
  Definition is_record (d : atypedef) : bool := match d with DRecord _ _ => true | DAlias _ _ => false end.
  Record module_means (m : amodule) (r : rmodule) : Prop := ModuleMeans {
    mm_functions : Forall2 function_means (m_functions m) (rm_functions r);
    mm_foreign : Forall2 foreign_means (m_foreign m) (rm_foreign r);
    mm_records : Forall2 record_means (filter is_record (m_types m)) (rm_types r);
    mm_aliases : Forall2 alias_means (filter (fun d => negb (is_record d)) (m_types m)) (rm_aliases r);
    mm_declared : rm_declared r = []
  }.
End Means.
