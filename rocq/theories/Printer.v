(** The formatter of modules.
    Source: /repo/lib/format/src/lib.rs.
    The formatter builds a document for the library mfmt, whose line breaks
    depend on where the parts of the module stood in its source and on its
    comments.  Here a document keeps what every layout shares, and [renders]
    relates it to every text that some layout of it may have. *)
From Coq Require Import String Ascii List Bool.
From Verif Require Import Syntax Ast Parser.
Import ListNotations.
Local Open Scope string_scope.

(** A document: [Line] is a line break, which is a blank if it is flattened;
    [Gap] is a place where comments, an extra line or nothing may stand;
    [Maybe d] is printed only if the construct around it is broken into lines. *)
Inductive piece := Text (t : string) | Line | Gap | Maybe (d : list piece).
Definition document := list piece.

(** Blanks: spaces and comments with the ends of their lines. *)
Inductive blank : string -> Prop :=
| blank_end : blank EmptyString
| blank_space c s : is_space c = true -> blank s -> blank (String c s)
| blank_comment t c s : (forall a b x, t = a ++ String x b -> is_newline x = false) -> is_newline c = true -> blank s ->
    blank (String "#" (t ++ String c s)).

(** The texts a document may be printed as.  mfmt prints a line break as a
    space or as a line end with indentation, after the comments that wait for
    the end of the line. *)
Inductive renders : document -> string -> Prop :=
| renders_nil : renders [] EmptyString
| renders_text t d s : renders d s -> renders (Text t :: d) (t ++ s)
| renders_line b d s : blank b -> b <> EmptyString -> renders d s -> renders (Line :: d) (b ++ s)
| renders_gap b d s : blank b -> renders d s -> renders (Gap :: d) (b ++ s)
| renders_flat m d s : renders d s -> renders (Maybe m :: d) s
| renders_broken m d s : renders (m ++ d)%list s -> renders (Maybe m :: d) s.

(** One of those texts, without comments and broken into lines everywhere. *)
Fixpoint plain_piece (p : piece) : string :=
  match p with
  | Text t => t
  | Line => String newline EmptyString
  | Gap => EmptyString
  | Maybe d => (fix go (d : list piece) : string := match d with [] => EmptyString | p :: d => plain_piece p ++ go d end) d
  end.
Definition plain : document -> string :=
  fix go (d : document) : string := match d with [] => EmptyString | p :: d => plain_piece p ++ go d end.

(** itertools [intersperse] *)
Fixpoint intersperse (sep : document) (l : list document) : document :=
  match l with [] => [] | [d] => d | d :: l => (d ++ sep ++ intersperse sep l)%list end.

(** lib.rs:276-336 [compile_type], 951-959 [collect_union_types]: the members
    of a type with their documents.  Every member but the last has parentheses
    if it is a function. *)
Fixpoint union_members (l : list (bool * document)) : list document :=
  match l with
  | [] => []
  | [(_, d)] => [d]
  | (f, d) :: l => (if f : bool then Text "(" :: d ++ [Text ")"] else d)%list :: union_members l
  end.
Definition union_document (l : list (bool * document)) : document := intersperse [Text " |"; Line] (union_members l).
Fixpoint members (t : aty) : list (bool * document) :=
  match t with
  | AFunction a r =>
      [(true, Text "\(" :: intersperse [Text ", "] (map (fun t => union_document (members t)) a) ++
              Text ") " :: union_document (members r))%list]
  | AList e => [(false, Text "[" :: union_document (members e) ++ [Text "]"])%list]
  | AMap k v => [(false, Text "{" :: union_document (members k) ++ Text ": " :: union_document (members v) ++ [Text "}"])%list]
  | AReference x => [(false, [Text x])]
  | AUnion l r => (members l ++ members r)%list
  end.
Definition type_document (t : aty) : document := union_document (members t).

(** The shape of arguments, parameters and fields: 375-392, 479-509, 592-632 *)
Definition list_document (l : list document) : document :=
  match l with
  | [] => []
  | _ => (Maybe [Line] :: intersperse [Text ","; Line] (map (fun d => Gap :: d) l) ++ [Maybe [Text ","; Line]])%list
  end.
(** The shape of the elements of lists and maps: 735-771, 773-818 *)
Definition elements_document (l : list document) : document :=
  match l with
  | [] => []
  | _ => (intersperse [Text ","] (map (fun d => Line :: Gap :: d) l) ++ [Maybe [Text ","; Line]])%list
  end.

(** 358-396 [compile_signature] *)
Definition signature_document (a : list (string * aty)) (r : aty) : document :=
  (Text "\(" :: list_document (map (fun p => Text (fst p) :: Text " " :: type_document (snd p)) a) ++
   Text ") " :: type_document r)%list.

(** 863-879 [compile_binary_operator] *)
Definition operator_text (o : operator) : string :=
  match o with
  | Or => "|" | And => "&" | Equal => "==" | NotEqual => "!=" | LessThan => "<" | LessThanOrEqual => "<="
  | GreaterThan => ">" | GreaterThanOrEqual => ">=" | Add => "+" | Subtract => "-" | Multiply => "*" | Divide => "/"
  end.

Definition is_operation (e : aexpr) : bool := match e with XBinary _ _ _ => true | _ => false end.
(** 841-861 [compile_operand]: whether an operand has parentheses *)
Definition looser (o : operator) (e : aexpr) : bool :=
  match e with XBinary o' _ _ => Nat.ltb (priority o') (priority o) | _ => false end.
Definition parens (b : bool) (d : document) : document := if b then (Text "(" :: d ++ [Text ")"])%list else d.

(** 456-469 [compile_statement], 406-454 [compile_block] *)
Definition statement_document (f : aexpr -> document) (st : option string * aexpr) : document :=
  (Gap :: match fst st with Some x => [Text x; Text " = "] | None => [] end ++ f (snd st) ++ [Line; Gap])%list.
Definition block_document (f : aexpr -> document) (b : ablock aexpr) : document :=
  match b with
  | Block l e => (Text "{" :: Line :: flat_map (fun st => match st with (x, e) => statement_document f (x, e) end) l ++ Gap :: f e ++ [Line; Text "}"])%list
  end.
Definition names_document (l : list string) : document := intersperse [Text ", "] (map (fun x => [Text x]) l).
(** 471-669 [compile_expression], 671-695 [compile_if], 697-733
    [compile_if_type], 338-356 [compile_lambda], 735-771 [compile_list],
    773-818 [compile_map], 820-839 [compile_binary_operation] *)
Fixpoint expression_document (e : aexpr) : document :=
  match e with
  | XBinary o l r =>
      (parens (looser o l) (expression_document l) ++ Line :: Text (operator_text o) :: Text " " ::
       parens (looser o r) (expression_document r))%list
  | XCall f a => (expression_document f ++ Text "(" :: list_document (map expression_document a) ++ [Text ")"])%list
  | XIf l b =>
      (flat_map (fun p => match p with (c, b) =>
         (Text "if " :: expression_document c ++ Text " " :: block_document expression_document b ++ [Text " else "])%list end) l ++
       block_document expression_document b)%list
  | XIfList e x y a b =>
      (Text "if [" :: Text x :: Text ", ..." :: Text y :: Text "] = " :: expression_document e ++ Text " " ::
       block_document expression_document a ++ Text " else " :: block_document expression_document b)%list
  | XIfMap x m k a b =>
      (Text "if " :: Text x :: Text " = " :: expression_document m ++ Text "[" :: expression_document k ++ Text "] " ::
       block_document expression_document a ++ Text " else " :: block_document expression_document b)%list
  | XIfType x e l o =>
      (Text "if " :: Text x :: Text " = " :: expression_document e ++ Text " as " ::
       intersperse [Text " else if "]
         (map (fun p => match p with (t, b) => (type_document t ++ Text " " :: block_document expression_document b)%list end) l) ++
       match o with Some b => Text " else " :: block_document expression_document b | None => [] end)%list
  | XLambda a r b => (signature_document a r ++ Text " " :: block_document expression_document b)%list
  | XList t l =>
      (Text "[" :: type_document t ++
       elements_document (map (fun x => match x with Single e => expression_document e | Multiple e => Text "..." :: expression_document e end) l) ++
       [Text "]"])%list
  | XComprehension t e l =>
      (Text "[" :: type_document t ++ Line :: Gap :: expression_document e ++ Line ::
       intersperse [Line]
         (map (fun b => match b with Branch xs es c =>
            (Gap :: Text "for " :: names_document xs ++ Text " in " ::
             intersperse [Text ", "] (map expression_document es) ++
             match c with Some e => Text " if " :: expression_document e | None => [] end)%list end) l) ++
       [Maybe [Line]; Text "]"])%list
  | XMap k v l =>
      (Text "{" :: type_document k ++ Text ": " :: type_document v ++
       elements_document (map (fun x => match x with
         | Entry k v => (expression_document k ++ Text ": " :: expression_document v)%list
         | Spread e => Text "..." :: expression_document e end) l) ++
       [Text "}"])%list
  | XNumber n =>
      match n with
      | NBinary d => [Text "0b"; Text d]
      | NHexadecimal d => [Text "0x"; Text (smap upper d)]
      | NFloat t => [Text t]
      end
  | XRecord x o l =>
      (Text x :: Text "{" ::
       list_document
         (match o with Some e => [Text "..." :: expression_document e] | None => [] end ++
          map (fun p => match p with (x, e) => Text x :: Text ": " :: expression_document e end) l) ++
       [Text "}"])%list
  | XField e x => (expression_document e ++ [Text "."; Text x])%list
  | XString t => [Text (String quote EmptyString); Text t; Text (String quote EmptyString)]
  | XNot e => Text "!" :: parens (is_operation e) (expression_document e)
  | XTry e => (parens (is_operation e) (expression_document e) ++ [Text "?"])%list
  | XVariable x => [Text x]
  end.

(** 338-356 [compile_lambda] *)
Definition lambda_document (l : alambda) : document :=
  (signature_document (la_arguments l) (la_result l) ++ Text " " :: block_document expression_document (la_body l))%list.

(** itertools [sorted], [sorted_by_key]: stable sorts *)
Fixpoint insert {A} (le : A -> A -> bool) (x : A) (l : list A) : list A :=
  match l with [] => [x] | y :: l' => if le x y then x :: l else y :: insert le x l' end.
Definition sort {A} (le : A -> A -> bool) (l : list A) : list A := fold_right (insert le) [] l.
Definition string_le (a b : string) : bool := match String.compare a b with Gt => false | _ => true end.
Fixpoint strings_le (a b : list string) : bool :=
  match a, b with
  | [], _ => true
  | _ :: _, [] => false
  | x :: a, y :: b => match String.compare x y with Lt => true | Eq => strings_le a b | Gt => false end
  end.
(** ast/module_path.rs:5 [Ord] *)
Definition path_le (a b : apath) : bool :=
  match a, b with
  | External p l, External q m => strings_le (p :: l) (q :: m)
  | External _ _, Internal _ => true
  | Internal _, External _ _ => false
  | Internal l, Internal m => strings_le l m
  end.
Definition is_external (i : aimport) : bool := match i_path i with External _ _ => true | Internal _ => false end.
Definition sort_imports : list aimport -> list aimport := sort (fun a b => path_le (i_path a) (i_path b)).

(** 132-153 [compile_module_path], [compile_module_path_components] *)
Definition path_document (p : apath) : document :=
  match p with
  | External x l => Text x :: Text "'" :: intersperse [Text "'"] (map (fun x => [Text x]) l)
  | Internal l => Text "'" :: intersperse [Text "'"] (map (fun x => [Text x]) l)
  end.
(** 100-130 [compile_import] *)
Definition import_document (i : aimport) : document :=
  (Gap :: Text "import " :: path_document (i_path i) ++
   match i_prefix i with Some x => [Text " as "; Text x] | None => [] end ++
   match i_names i with [] => [] | l => Text " { " :: names_document (sort string_le l) ++ [Text " }"] end ++ [Line])%list.
(** 166-183 [compile_foreign_import] *)
Definition foreign_document (f : aforeign) : document :=
  (Gap :: Text "import foreign" :: Text (match f_convention f with CConvention => String " " (String quote (String "c" (String quote EmptyString))) | NativeConvention => EmptyString end) ::
   Text " " :: Text (f_name f) :: Text " " :: type_document (f_type f) ++ [Line])%list.
(** 197-230 [compile_record_definition], 232-248 [compile_type_alias] *)
Definition typedef_document (d : atypedef) : document :=
  match d with
  | DRecord x l =>
      (Gap :: Text "type " :: Text x :: Text " {" ::
       flat_map (fun p => Line :: Gap :: Text (fst p) :: Text " " :: type_document (snd p)) l ++
       match l with [] => [] | _ => [Line] end ++ [Text "}"; Line])%list
  | DAlias x t => (Gap :: Text "type " :: Text x :: Text " =" :: Line :: type_document t ++ [Line])%list
  end.
(** 250-274 [compile_function_definition] *)
Definition function_document (f : afunction) : document :=
  (Gap :: match fn_export f with
          | Some c => [Text "foreign "; Text (match c with CConvention => String quote (String "c" (String quote " ")) | NativeConvention => EmptyString end)]
          | None => []
          end ++
   Text (fn_name f) :: Text " = " :: lambda_document (fn_lambda f) ++ [Line])%list.
(** 47-88 [compile_module].  Lines between the parts are [Gap]s. *)
Definition module_document (m : amodule) : document :=
  let (external, internal) := partition is_external (m_imports m) in
  (flat_map import_document (sort_imports external) ++ Gap :: flat_map import_document (sort_imports internal) ++
   Gap :: flat_map foreign_document (m_foreign m) ++
   Gap :: intersperse [Line] (map typedef_document (m_types m)) ++
   Gap :: intersperse [Line] (map function_document (m_functions m)) ++ [Gap])%list.
