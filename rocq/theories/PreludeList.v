(** The list functions of the prelude: /repo/packages/prelude/List.pen, as terms
    of the HIR, and their code: the analyses and the lowering applied to them.
    [DebugList] (lines 145-163) is left out.  Names are qualified with
    "prelude:". *)
From Coq Require Import String List ZArith Bool.
From Verif Require Import Base Mir HirType HirTypeModule Hir HirCheck HirCoerce HirInfer HirValidate HirMir.
Import ListNotations.
Local Open Scope string_scope.

Definition list_ref := TReference "prelude:List".
Definition node_ref := TReference "prelude:node".
Definition first_rest_ref := TReference "prelude:FirstRest".
Definition maybe_node := TUnion node_ref TNone.
Definition node_function := TFunction [] maybe_node.

(** List.pen 3-15: the types *)
Definition list_types : tmodule := {|
  tm_defs :=
    [{| td_name := "prelude:List"; td_original := "List"; td_fields := [("node", node_function)] |};
     {| td_name := "prelude:node"; td_original := "node";
        td_fields := [("first", any_thunk); ("rest", node_function)] |};
     {| td_name := "prelude:FirstRest"; td_original := "FirstRest";
        td_fields := [("first", any_thunk); ("rest", list_ref)] |}];
  tm_aliases := [] |}.
Definition list_env : tenv := collect_env list_types.
Definition list_records : renv := collect_records list_types.

Definition v := HVariable.
Definition app (f : hexpr) (es : list hexpr) : hexpr := HCall None f es.
Definition get (e : hexpr) (x : string) : hexpr := HField None e x.
Definition as_node (x : string) (e a b : hexpr) : hexpr := HIfType x e [(node_ref, a)] (Some (None, b)).
Definition maybe_boolean := TUnion TBoolean TNone.
Definition maybe_equal_function := TFunction [TAny; TAny] maybe_boolean.
Definition combine_name := "_pen_prelude_combine_hashes".

Definition list_source : hmodule := {|
  (* 1 *)
  h_declared := [(combine_name, TFunction [TNumber; TNumber] TNumber)];
  h_defs := [
    (* 17-19 *)
    ("prelude:First", {| l_arguments := [("fr", first_rest_ref)]; l_result := any_thunk;
      l_body := get (v "fr") "first" |});
    (* 21-23 *)
    ("prelude:Rest", {| l_arguments := [("fr", first_rest_ref)]; l_result := list_ref;
      l_body := get (v "fr") "rest" |});
    (* 25-34 *)
    ("prelude:FirstRest", {| l_arguments := [("l", list_ref)]; l_result := TUnion first_rest_ref TNone;
      l_body := as_node "n" (app (get (v "l") "node") [])
        (HRecord first_rest_ref [("first", get (v "n") "first");
                                 ("rest", HRecord list_ref [("node", get (v "n") "rest")])])
        HNone |});
    (* 36-38 *)
    ("prelude:EmptyList", {| l_arguments := []; l_result := list_ref;
      l_body := HRecord list_ref [("node", HLambda [] maybe_node HNone)] |});
    (* 40-42 *)
    ("prelude:PrependToList", {| l_arguments := [("x", any_thunk); ("l", list_ref)]; l_result := list_ref;
      l_body := HRecord list_ref
        [("node", HLambda [] maybe_node (app (v "prelude:prependToNode") [v "x"; get (v "l") "node"]))] |});
    (* 44-49 *)
    ("prelude:prependToNode", {| l_arguments := [("x", any_thunk); ("n", node_function)]; l_result := node_ref;
      l_body := HRecord node_ref [("first", v "x"); ("rest", v "n")] |});
    (* 51-57 *)
    ("prelude:LazyList", {| l_arguments := [("x", TFunction [] list_ref)]; l_result := list_ref;
      l_body := HRecord list_ref [("node", HLambda [] maybe_node (app (get (app (v "x") []) "node") []))] |});
    (* 59-69 *)
    ("prelude:ConcatenateLists", {| l_arguments := [("x", TFunction [] list_ref); ("y", list_ref)]; l_result := list_ref;
      l_body := HRecord list_ref [("node", HLambda [] maybe_node
        (as_node "x" (app (get (app (v "x") []) "node") [])
           (app (v "prelude:prependToNode")
              [get (v "x") "first"; app (v "prelude:concatenateNodes") [get (v "x") "rest"; get (v "y") "node"]])
           (app (get (v "y") "node") [])))] |});
    (* 71-79 *)
    ("prelude:concatenateNodes", {| l_arguments := [("x", node_function); ("y", node_function)]; l_result := node_function;
      l_body := HLambda [] maybe_node
        (as_node "x" (app (v "x") [])
           (app (v "prelude:prependToNode")
              [get (v "x") "first"; app (v "prelude:concatenateNodes") [get (v "x") "rest"; v "y"]])
           (app (v "y") [])) |});
    (* 81-87 *)
    ("prelude:EqualLists", {| l_arguments := [("f", any_function); ("x", list_ref); ("y", list_ref)]; l_result := TBoolean;
      l_body := HIfType "b"
        (app (v "prelude:equalNodes")
           [HLambda [("x", TAny); ("y", TAny)] maybe_boolean (app (v "f") [v "x"; v "y"]);
            app (get (v "x") "node") []; app (get (v "y") "node") []])
        [(TBoolean, v "b"); (TNone, HBoolean false)] None |});
    (* 89-91 *)
    ("prelude:MaybeEqualLists", {| l_arguments := [("f", maybe_equal_function); ("x", list_ref); ("y", list_ref)]; l_result := maybe_boolean;
      l_body := app (v "prelude:equalNodes") [v "f"; app (get (v "x") "node") []; app (get (v "y") "node") []] |});
    (* 93-115 *)
    ("prelude:equalNodes", {| l_arguments := [("f", maybe_equal_function); ("x", maybe_node); ("y", maybe_node)]; l_result := maybe_boolean;
      l_body := as_node "x" (v "x")
        (as_node "y" (v "y")
           (HIfType "b" (app (v "f") [app (get (v "x") "first") []; app (get (v "y") "first") []])
              [(TBoolean, HIf (v "b")
                  (app (v "prelude:equalNodes") [v "f"; app (get (v "x") "rest") []; app (get (v "y") "rest") []])
                  (HBoolean false));
               (TNone, HNone)] None)
           (HBoolean false))
        (as_node "y" (v "y") (HBoolean false) (HBoolean true)) |});
    (* 117-119 *)
    ("prelude:HashList", {| l_arguments := [("f", TFunction [TAny] TNumber); ("l", list_ref)]; l_result := TNumber;
      l_body := app (v "prelude:hashNode") [v "f"; get (v "l") "node"; HNumber 0] |});
    (* 121-131: [f] gets the node *)
    ("prelude:hashNode", {| l_arguments := [("f", TFunction [TAny] TNumber); ("node", node_function); ("h", TNumber)]; l_result := TNumber;
      l_body := as_node "n" (app (v "node") [])
        (app (v "prelude:hashNode")
           [v "f"; get (v "n") "rest"; app (v combine_name) [v "h"; app (v "f") [v "n"]]])
        (v "h") |});
    (* 133-135 *)
    ("prelude:ListSize", {| l_arguments := [("l", list_ref)]; l_result := TNumber;
      l_body := app (v "prelude:nodeSize") [app (get (v "l") "node") []; HNumber 0] |});
    (* 137-143; 4607182418800017408 is the bit pattern of 1.0 *)
    ("prelude:nodeSize", {| l_arguments := [("n", maybe_node); ("s", TNumber)]; l_result := TNumber;
      l_body := as_node "n" (v "n")
        (app (v "prelude:nodeSize")
           [app (get (v "n") "rest") []; HBinary (BinAddition None) (v "s") (HNumber 4607182418800017408)])
        (v "s") |})] |}.

(** No function of [List.pen] uses the configuration. *)
Definition no_config : config := Config "" "" "" "" "" "" "" "" "" "" "" "" "" "" "" "" "" "" "" "" "" "" "" "" "" "" "" "" "" "" "" "" "" "" "" "" "" "" (fun s => s) (fun _ => 0%Z) (fun _ => "").

Definition list_code : res (list fdef) :=
  bind (analyze 30 list_env list_records ["prelude:List"; "prelude:node"; "prelude:FirstRest"] list_source) (fun m =>
  mapM (compile_definition 30 list_env list_records no_config 30) (h_defs m)).

(** The definitions in MIR, computed by the analyses and the lowering *)
Definition list_defs : list fdef := Eval vm_compute in match list_code with Ok ds => ds | _ => [] end.
Definition list_records_mir : list (string * list mtype) :=
  [("prelude:List", [Mir.TFunction [] TVariant]);
   ("prelude:node", [Mir.TFunction [] TVariant; Mir.TFunction [] TVariant]);
   ("prelude:FirstRest", [Mir.TFunction [] TVariant; Mir.TRecord "prelude:List"])].
