(** From the text of a module to the module with resolved names.
    Sources: /repo/lib/ast-hir/src/module.rs, type_.rs, number.rs,
    module_prefix.rs, lib.rs, /repo/lib/ast/src/analysis.rs.
    Positions and foreign-export configurations are dropped. *)
From Coq Require Import String Ascii List Bool ZArith.
From Coq Require SpecFloat.
From Verif Require Import Base HirType Hir Syntax Ast Parser Resolve.
From Verif Require Literal Float.
Import ListNotations.
Local Open Scope string_scope.

(** /repo/lib/ast-hir/src/type_.rs:3-33 [compile] *)
Fixpoint desugar_type (t : aty) : ty :=
  match t with
  | AFunction a r => TFunction (map desugar_type a) (desugar_type r)
  | AList e => TList (desugar_type e)
  | AMap k v => TMap (desugar_type k) (desugar_type v)
  | AReference x => TReference x
  | AUnion l r => TUnion (desugar_type l) (desugar_type r)
  end.

(** *** Numbers *)
(** The bits of a double, which is how the model of the HIR holds numbers *)
Definition float_bits (x : SpecFloat.spec_float) : Z :=
  match x with
  | SpecFloat.S754_zero s => if s then 2 ^ 63 else 0
  | SpecFloat.S754_infinity s => (if s then 2 ^ 63 else 0) + 2047 * 2 ^ 52
  | SpecFloat.S754_nan => 2047 * 2 ^ 52 + 2 ^ 51
  | SpecFloat.S754_finite s m e =>
      (if s then 2 ^ 63 else 0) + (if (Zpos m <? 2 ^ 52)%Z then Zpos m else (e + 1075) * 2 ^ 52 + (Zpos m - 2 ^ 52))
  end%Z.
(** [usize::from_str_radix]: [None] for a digit that is none, and for values
    of more than 64 bits.  The empty string, which the parser never makes, is
    an error too. *)
Fixpoint radix_value (radix acc : N) (s : string) : option N :=
  match s with
  | EmptyString => Some acc
  | String c s' =>
      match Literal.hex_value c with
      | Some d => if (d <? radix)%N then radix_value radix (acc * radix + d) s' else None
      | None => None
      end
  end.
Definition from_str_radix (radix : N) (s : string) : res Z :=
  match s, radix_value radix 0 s with
  | String _ _, Some n => if (Z.of_N n <=? Float.usize_max)%Z then Ok (float_bits (Float.of_int (Z.of_N n))) else reject "ParseInteger"
  | _, _ => reject "ParseInteger"
  end.

Section Module.
  (** [str::parse::<f64>] of the standard library, which is not modelled *)
  Variable read_float : string -> res Z.

  (** number.rs:4-24 [compile] *)
  Definition desugar_number (n : anumber) : res Z :=
    match n with
    | NBinary s => from_str_radix 2 s
    | NHexadecimal s => from_str_radix 16 s
    | NFloat s => read_float s
    end.

  Definition desugar_operator (o : operator) : binop :=
    match o with
    | Add => BinAddition None
    | Subtract => BinArithmetic HSubtract
    | Multiply => BinArithmetic HMultiply
    | Divide => BinArithmetic HDivide
    | And => BinBoolean HAnd
    | Or => BinBoolean HOr
    | Equal => BinEquality None HEqual
    | NotEqual => BinEquality None HNotEqual
    | LessThan => BinOrder HLess
    | LessThanOrEqual => BinOrder HLessEqual
    | GreaterThan => BinOrder HGreater
    | GreaterThanOrEqual => BinOrder HGreaterEqual
    end.

  (** string.rs:7-22 [compile], which is modelled on lists of characters *)
  Definition desugar_string (s : string) : string := string_of_list_ascii (Literal.compile_string (list_ascii_of_string s)).

  Section Block.
    Variable expression : aexpr -> res hexpr.
    (** module.rs:103-119 [compile_block]: the last statement is compiled first *)
    Definition desugar_statements (e : aexpr) : list (option string * aexpr) -> res hexpr :=
      fix go l :=
        match l with
        | [] => expression e
        | (x, e1) :: l => bind (go l) (fun k => bind (expression e1) (fun h => Ok (HLet x None h k)))
        end.
    Definition desugar_block (b : ablock aexpr) : res hexpr := match b with Block l e => desugar_statements e l end.
    (** module.rs:382-407 [compile_if] *)
    Definition desugar_if (els : ablock aexpr) : list (aexpr * ablock aexpr) -> res hexpr :=
      fix go l :=
        match l with
        | [] => reject "TooFewBranchesInIf"
        | (c, b) :: l =>
            bind (expression c) (fun c => bind (desugar_block b) (fun b =>
            bind (match l with [] => desugar_block els | _ => go l end) (fun e => Ok (HIf c b e))))
        end.
  End Block.

  Definition desugar_arguments (a : list (string * aty)) : list (string * ty) := map (fun p => (fst p, desugar_type (snd p))) a.

  (** module.rs:121-380 [compile_expression], 89-101 [compile_lambda] *)
  Fixpoint desugar (e : aexpr) : res hexpr :=
    match e with
    | XBinary o l r => bind (desugar l) (fun l => bind (desugar r) (fun r => Ok (HBinary (desugar_operator o) l r)))
    | XCall f a => bind (desugar f) (fun f => bind (mapM desugar a) (fun a => Ok (HCall None f a)))
    | XField e x => bind (desugar e) (fun e => Ok (HField None e x))
    | XIf l b => desugar_if desugar b l
    | XIfList e x y a b =>
        bind (desugar e) (fun e => bind (desugar_block desugar a) (fun a => bind (desugar_block desugar b) (fun b => Ok (HIfList None e x y a b))))
    | XIfMap x m k a b =>
        bind (desugar m) (fun m => bind (desugar k) (fun k =>
        bind (desugar_block desugar a) (fun a => bind (desugar_block desugar b) (fun b => Ok (HIfMap None None x m k a b)))))
    | XIfType x e l o =>
        bind (desugar e) (fun e =>
        bind (mapM (fun p => match p with (t, b) => bind (desugar_block desugar b) (fun h => Ok (desugar_type t, h)) end) l) (fun l =>
        bind (match o with Some b => bind (desugar_block desugar b) (fun h => Ok (Some (None, h))) | None => Ok None end) (fun o =>
        Ok (HIfType x e l o))))
    | XLambda a r b => bind (desugar_block desugar b) (fun b => Ok (HLambda (desugar_arguments a) (desugar_type r) b))
    | XList t l =>
        bind (mapM (fun x => match x with
                             | Ast.Single e => bind (desugar e) (fun h => Ok (Hir.Single h))
                             | Ast.Multiple e => bind (desugar e) (fun h => Ok (Hir.Multiple h))
                             end) l) (fun l => Ok (HList (desugar_type t) l))
    | XComprehension t e l =>
        bind (desugar e) (fun e =>
        (** the code reverses the branches first *)
        bind (mapM (fun b => match b with
                             | Branch xs es c =>
                                 bind (mapM (fun e => bind (desugar e) (fun h => Ok (None, h))) es) (fun its =>
                                 bind (match c with Some c => bind (desugar c) (fun h => Ok (Some h)) | None => Ok None end) (fun c =>
                                 Ok (CompBranch xs its c)))
                             end) l) (fun l => Ok (HComprehension (desugar_type t) e (rev l))))
    | XMap k v l =>
        bind (mapM (fun x => match x with
                             | Ast.Entry a b => bind (desugar a) (fun a => bind (desugar b) (fun b => Ok (Hir.Entry a b)))
                             | Ast.Spread e => bind (desugar e) (fun h => Ok (Hir.Spread h))
                             end) l) (fun l => Ok (HMap (desugar_type k) (desugar_type v) l))
    | XNumber n => bind (desugar_number n) (fun z => Ok (HNumber z))
    | XRecord x o l =>
        bind (mapM (fun p => match p with (x, e) => bind (desugar e) (fun h => Ok (x, h)) end) l) (fun l =>
        match o with
        | Some e => bind (desugar e) (fun e => Ok (HUpdate (TReference x) e l))
        | None => Ok (HRecord (TReference x) l)
        end)
    | XString s => Ok (HString (desugar_string s))
    | XNot e => bind (desugar e) (fun e => Ok (HNot e))
    | XTry e => bind (desugar e) (fun e => Ok (HTry None e))
    | XVariable x => Ok (HVariable x)
    end.
  Definition desugar_lambda (l : alambda) : res Hir.lambda :=
    bind (desugar_block desugar (la_body l)) (fun b => Ok (Lambda (desugar_arguments (la_arguments l)) (desugar_type (la_result l)) b)).

  (** module.rs:66-80 [compile_function_definition]; analysis.rs:3-8 [is_name_public] is [public_name] *)
  Definition desugar_function (d : afunction) : res rfunction :=
    bind (desugar_lambda (fn_lambda d)) (fun l => Ok (RFunction (fn_name d) (fn_name d) l (public_name (fn_name d)))).
  (** module.rs:6-64 [compile], analysis.rs:10-15 [is_record_open] *)
  Definition desugar_record (d : atypedef) : list rtype :=
    match d with
    | DRecord x l => [RType x x (desugar_arguments l) (forallb (fun p => public_name (fst p)) l) (public_name x) false]
    | DAlias _ _ => []
    end.
  Definition desugar_alias (d : atypedef) : list ralias :=
    match d with DRecord _ _ => [] | DAlias x t => [RAlias x x (desugar_type t) (public_name x) false] end.
  Definition desugar_module (m : amodule) : res rmodule :=
    bind (mapM desugar_function (m_functions m)) (fun fs =>
    Ok (RModule (flat_map desugar_record (m_types m)) (flat_map desugar_alias (m_types m))
          (map (fun f => RForeign (f_name f) (f_name f) (desugar_type (f_type f))) (m_foreign m)) [] fs)).

  (** *** Imports *)
  Definition path_components (p : apath) : list string := match p with External _ l | Internal l => l end.
  (** module_prefix.rs:1-9 [compile], with its [unwrap] *)
  Definition module_prefix (i : aimport) : res string :=
    match i_prefix i with
    | Some p => Ok p
    | None => match rev (path_components (i_path i)) with x :: _ => Ok x | [] => Panic end
    end.
  (** lib.rs:28-46 *)
  Definition find_import (interfaces : apath -> option interface) (i : aimport) : res import :=
    match interfaces (i_path i) with
    | Some f => bind (module_prefix i) (fun x => Ok (Import f x (i_names i)))
    | None => reject "ModuleNotFound"
    end.
  (** lib.rs:22-56 [compile] *)
  Definition front_end (prefix : string) (interfaces : apath -> option interface) (prelude : list interface) (m : amodule) : res rmodule :=
    bind (mapM (find_import interfaces) (m_imports m)) (fun is =>
    bind (desugar_module m) (fun r => resolve_module r prefix is prelude)).
  (** with the parser *)
  Definition compile_text (prefix : string) (interfaces : apath -> option interface) (prelude : list interface) (s : string) : res rmodule :=
    match parse s with Some m => front_end prefix interfaces prelude m | None => reject "Parse" end.
  (** lib.rs:57-59 [compile_prelude], with the parser (lib/app/src/module_compiler.rs:174-203
      [compile_prelude]).  Modules of the prelude import nothing: their imports are
      dropped. *)
  Definition compile_prelude_text (prefix : string) (s : string) : res rmodule :=
    match parse s with Some m => bind (desugar_module m) (fun r => Ok (transform_module r prefix)) | None => reject "Parse" end.
End Module.
