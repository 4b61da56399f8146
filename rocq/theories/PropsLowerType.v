(** C53: a program the front end accepts is never rejected by the compiler's own
    later type check (lib/mir/src/analysis/type_check.rs).

    Notions from [LowerProgramSpec]: [config_fits] (the prelude's names, and
    identifiers of types that are different words), [program_fits] (the
    program's types are known, it declares the prelude, it binds none of the
    compiler's names, and it stays away from the findings named there),
    [complete] (the compiled module has the functions and records its code
    mentions).  From [LowerCompleteSpec]: [searchable] (the analyzed program
    stays away from the findings about the compiler's search for the types its
    code needs functions and records for). *)
From Coq Require Import String Ascii List ZArith Bool.
From Verif Require Import Base Mir MirTypeCheck HirType HirTypeSpec HirTypeModule Hir HirSpec HirValidate HirMir HirProgram
  LowerTypeSpec LowerProgramSpec LowerCompleteSpec LowerSource LowerFits LowerSearch LowerSearchFits PropsHir PropsLower.
Import ListNotations.
Local Open Scope string_scope.
Local Open Scope list_scope.

(** The MIR module compiled from a source program passes the type check.
    Missing for the full statement: [complete] is a hypothesis on the module
    (replaced by conditions on the program in the next theorem), and the
    hypotheses on the program exclude the other refutations below. *)
Theorem compiled_program_type_checks_partial : forall f n k C p M,
  compile_program n k C p = Ok M ->
  config_fits C -> program_fits f C p -> raw_program p -> apart_module (program_hir p) -> complete C p M ->
  type_check M = true.
Proof. intros f n k C p M H CF PF Raw A Hc. eapply compiled_program_checks; eassumption. Qed.
Print Assumptions compiled_program_type_checks_partial.

(** The same without assuming that the module is complete: the compiler's search
    finds every type for which the code needs a function or record, for programs
    without incomparable map keys (finding 38), incomparable operands of [==]
    (finding 39) and conversions that are not collected (finding 29).  Missing
    for the full statement: the programs these hypotheses exclude, which the
    refutations below show to be rejected. *)
Theorem searched_program_type_checks_partial : forall f n k C p M,
  compile_program n k C p = Ok M ->
  config_fits C -> program_fits f C p -> raw_program p -> apart_module (program_hir p) ->
  (forall q, analyze_program n p = Ok q -> searchable C q M) ->
  type_check M = true.
Proof. intros f n k C p M H CF PF Raw A Hs. eapply searched_program_checks; eassumption. Qed.
Print Assumptions searched_program_type_checks_partial.

(** For such programs the module is complete. *)
Theorem searched_module_complete : forall f n k C p M,
  compile_program n k C p = Ok M ->
  config_fits C -> program_fits f C p -> raw_program p -> apart_module (program_hir p) ->
  (forall q, analyze_program n p = Ok q -> searchable C q M) ->
  complete C p M.
Proof. intros f n k C p M H CF PF Raw A Hs. eapply searched_program_complete; eassumption. Qed.
Print Assumptions searched_module_complete.

(** ** Programs that meet the hypotheses *)
Definition word_config : config := {|
  list_empty := "prelude:EmptyList"; list_concatenate := "prelude:ConcatenateLists"; list_equal := "prelude:EqualLists";
  list_maybe_equal := "prelude:MaybeEqualLists"; list_prepend := "prelude:PrependToList";
  list_deconstruct := "prelude:FirstRest"; list_lazy := "prelude:LazyList"; list_first := "prelude:First";
  list_rest := "prelude:Rest"; list_type := "prelude:List"; list_first_rest := "prelude:FirstRest";
  list_size := "prelude:ListSize"; list_debug := "prelude:DebugList";
  map_context_function := "prelude:NewMapContext"; map_context := "prelude:MapContext"; map_delete := "prelude:DeleteMap";
  map_empty := "prelude:NewMap"; map_empty_type := "prelude:Empty"; map_equal := "prelude:EqualMaps";
  map_maybe_equal := "prelude:MaybeEqualMaps"; map_get := "prelude:GetMap"; map_type := "prelude:Map";
  map_merge := "prelude:MergeMaps"; map_set := "prelude:SetMap"; map_size := "prelude:MapSize";
  map_debug := "prelude:DebugMap"; hash_combine := "prelude:CombineHashes"; hash_number := "prelude:HashNumber";
  hash_string := "prelude:HashString"; hash_list := "prelude:HashList"; hash_map := "prelude:HashMap";
  iterator_type := "prelude:MapIterator"; iterate_map := "prelude:IterateMap"; iterator_key := "prelude:MapIteratorKey";
  iterator_value := "prelude:MapIteratorValue"; iterator_rest := "prelude:MapIteratorRest";
  number_debug := "prelude:DebugNumber"; string_equal := "prelude:EqualStrings";
  c_hash := fun s => String "#" (escape s); c_identity := fun _ => 0%Z; c_format := fun _ => "" |}.

Example word_config_fits : config_fits word_config.
Proof.
  constructor.
  - apply (no_duplicates_ok (map fst (prelude_functions word_config))). reflexivity.
  - intros x Hx. apply source_ok. revert x Hx. apply forallb_forall. reflexivity.
  - intros s t H. injection H as H. apply escape_inj, H.
  - intros s. split; [cbn; apply escape_colon|]. intros [H|[H|[]]]; discriminate.
Qed.

(** The prelude's types and functions (packages/prelude/Core/*.pen) *)
Definition prelude_type (x : string) : type_def :=
  TypeDef {| td_name := x; td_original := x; td_fields := [("x", TAny)] |} false true.
Definition prelude_declarations : list (string * ty) :=
  let thunk := TFunction [] TAny in
  let equal := TFunction [TAny; TAny] TBoolean in
  let maybe := TFunction [TAny; TAny] (TUnion TBoolean TNone) in
  let hash := TFunction [TAny] TNumber in
  let list := TReference "prelude:List" in
  let map := TReference "prelude:Map" in
  let context := TReference "prelude:MapContext" in
  let first := TReference "prelude:FirstRest" in
  let iterator := TReference "prelude:MapIterator" in
  [("prelude:EmptyList", TFunction [] list); ("prelude:ConcatenateLists", TFunction [TFunction [] list; list] list);
   ("prelude:EqualLists", TFunction [equal; list; list] TBoolean);
   ("prelude:MaybeEqualLists", TFunction [maybe; list; list] (TUnion TBoolean TNone));
   ("prelude:PrependToList", TFunction [thunk; list] list); ("prelude:FirstRest", TFunction [list] (TUnion first TNone));
   ("prelude:LazyList", TFunction [TFunction [] list] list); ("prelude:First", TFunction [first] thunk); ("prelude:Rest", TFunction [first] list);
   ("prelude:ListSize", TFunction [list] TNumber); ("prelude:DebugList", TFunction [TString; list; TFunction [TAny] TString] TString);
   ("prelude:NewMapContext", TFunction [equal; hash; equal; hash] context); ("prelude:DeleteMap", TFunction [context; map; TAny] map);
   ("prelude:NewMap", TFunction [] map); ("prelude:EqualMaps", TFunction [context; map; map] TBoolean);
   ("prelude:MaybeEqualMaps", TFunction [maybe; map; map] (TUnion TBoolean TNone));
   ("prelude:GetMap", TFunction [context; map; TAny] (TUnion TAny (TReference "prelude:Empty")));
   ("prelude:MergeMaps", TFunction [context; map; map] map);
   ("prelude:SetMap", TFunction [context; map; TAny; TAny] map); ("prelude:MapSize", TFunction [map] TNumber);
   ("prelude:DebugMap", TFunction [TString; TString; map; TFunction [TAny] TString] TString);
   ("prelude:CombineHashes", TFunction [TNumber; TNumber] TNumber); ("prelude:HashNumber", TFunction [TNumber] TNumber);
   ("prelude:HashString", TFunction [TString] TNumber); ("prelude:HashList", TFunction [hash; list] TNumber);
   ("prelude:HashMap", TFunction [context; map] TNumber); ("prelude:IterateMap", TFunction [map] (TUnion iterator TNone));
   ("prelude:MapIteratorKey", TFunction [iterator] TAny); ("prelude:MapIteratorValue", TFunction [iterator] TAny);
   ("prelude:MapIteratorRest", TFunction [iterator] (TUnion iterator TNone)); ("prelude:DebugNumber", TFunction [TNumber] TString);
   ("prelude:EqualStrings", TFunction [TString; TString] TBoolean)].
Definition with_prelude (types : list type_def) (aliases : list (string * ty)) (defs : list (string * lambda)) : program :=
  Program (map prelude_type ["prelude:List"; "prelude:Map"; "prelude:MapContext"; "prelude:FirstRest"; "prelude:MapIterator"; "prelude:Empty"] ++ types)
    aliases [] prelude_declarations defs.

(** A program with a record, an alias, maps, a comprehension, a type switch,
    list and map lookups, equality, an error and a spawned function *)
Definition record_p : type_def :=
  TypeDef {| td_name := "p"; td_original := "p"; td_fields := [("x", TNumber); ("y", TUnion TNumber TString); ("z", TList (TReference "p"))] |} true false.
Definition demo_program : program :=
  with_prelude [record_p] [("ps", TList (TReference "p"))]
    [("f", Lambda [("a", TReference "ps"); ("b", TReference "ps")] TBoolean (HBinary (BinEquality None HEqual) (HVariable "a") (HVariable "b")));
     ("g", Lambda [("r", TReference "p")] (TUnion TString TNone)
        (HIfType "y" (HField None (HVariable "r") "y") [(TString, HVariable "y")] (Some (None, HNone))));
     ("h", Lambda [("m", TMap TString TNumber); ("k", TString)] (TUnion TNumber TError)
        (HIfMap None None "v" (HVariable "m") (HVariable "k") (HVariable "v") (HCall None (HBuiltIn BError) [HVariable "k"])));
     ("i", Lambda [("m", TMap TString TNumber)] (TUnion TNumber TError)
        (HLet (Some "v") None (HTry None (HCall None (HVariable "h") [HVariable "m"; HString "a"]))
          (HBinary (BinAddition None) (HVariable "v") (HNumber 1))));
     ("j", Lambda [("l", TReference "ps")] (TList TNumber)
        (HComprehension TNumber (HField None (HCall None (HVariable "q") []) "x") [CompBranch ["q"] [(None, HVariable "l")] None]));
     ("k", Lambda [("l", TList TNumber)] TNumber
        (HIfList None (HVariable "l") "first" "rest" (HCall None (HVariable "first") []) (HCall None (HBuiltIn BSize) [HVariable "l"])));
     ("l", Lambda [("n", TNumber)] (TFunction [] (TUnion TNumber TNone))
        (HCall None (HBuiltIn BSpawn) [HLambda [] (TUnion TNumber TNone) (HVariable "n")]))].


(** What [compile_program] gives for a concrete program *)
Definition compiled (P : mmodule -> bool) (p : program) : bool :=
  match compile_program 30 60 word_config p with Ok M => P M | _ => false end.
Lemma compiled_ok P p : compiled P p = true -> exists M, compile_program 30 60 word_config p = Ok M /\ P M = true.
Proof. unfold compiled. intros H. destruct (compile_program 30 60 word_config p) as [M| | |]; try discriminate. eauto. Qed.

Example demo_program_meets :
  program_fits (fun x => x) word_config demo_program /\ raw_program demo_program /\ apart_module (program_hir demo_program) /\
  exists M, compile_program 30 60 word_config demo_program = Ok M /\ complete word_config demo_program M.
Proof.
  split; [|split; [|split]].
  - apply (fits_ok word_config demo_program 20 word_config_fits). vm_compute. reflexivity.
  - assert (N : no_thunks_module (program_hir demo_program)) by (apply thunks_decided; reflexivity).
    intros x l H. split; [|exact (N x l H)]. cbn [demo_program with_prelude p_defs] in H.
    repeat (destruct H as [H|H]; [injection H as <- <-; reflexivity|]). destruct H.
  - apply apart_decided. reflexivity.
  - destruct (compiled_ok (completes word_config demo_program) demo_program) as (M & H & Hc); [vm_compute; reflexivity|].
    exists M. split; [exact H|]. apply (completes_ok word_config demo_program word_config_fits), Hc.
Qed.

Definition found (p : program) (M : mmodule) : bool :=
  match analyze_program 30 p with Ok q => searches word_config q M 20 | _ => false end.
Lemma found_ok p M : found p M = true -> (forall q, analyze_program 30 p = Ok q -> searchable word_config q M) /\ exists q, analyze_program 30 p = Ok q.
Proof.
  unfold found. intros H. destruct (analyze_program 30 p) as [q| | |]; try discriminate. split; [|eauto].
  intros q' Q. injection Q as <-. apply (searches_ok word_config q M 20), H.
Qed.
Example demo_program_searchable : exists M,
  compile_program 30 60 word_config demo_program = Ok M /\
  (forall q, analyze_program 30 demo_program = Ok q -> searchable word_config q M) /\ exists q, analyze_program 30 demo_program = Ok q.
Proof.
  destruct (compiled_ok (found demo_program) demo_program) as (M & H & Hc); [vm_compute; reflexivity|].
  exists M. split; [exact H|]. apply found_ok, Hc.
Qed.

(** ** Refutations: accepted programs that the later check rejects *)
Lemma rejected p : compiled (fun M => negb (type_check M)) p = true ->
  exists M, compile_program 30 60 word_config p = Ok M /\ type_check M = false.
Proof.
  intros H. destruct (compiled_ok _ _ H) as (M & HM & Q). exists M. split; [exact HM|]. apply negb_true_iff in Q. exact Q.
Qed.

(** Finding 35: [f = \(x none | error) error { y = x?  error(1) }] *)
Theorem try_in_error_function_refuted : exists M,
  compile_program 30 60 word_config (with_prelude [] []
    [("f", Lambda [("x", TUnion TNone TError)] TError
       (HLet (Some "y") None (HTry None (HVariable "x")) (HCall None (HBuiltIn BError) [HNumber 1])))]) = Ok M /\ type_check M = false.
Proof. apply rejected. vm_compute. reflexivity. Qed.
Print Assumptions try_in_error_function_refuted.

(** Finding 39: [f = \(x [any]) boolean { x == x }] *)
Theorem incomparable_operands_refuted : exists M,
  compile_program 30 60 word_config (with_prelude [] []
    [("f", Lambda [("x", TList TAny)] TBoolean (HBinary (BinEquality None HEqual) (HVariable "x") (HVariable "x")))]) = Ok M /\ type_check M = false.
Proof. apply rejected. vm_compute. reflexivity. Qed.
Print Assumptions incomparable_operands_refuted.

(** Finding 32: [f = \(m {number: number}, x number) number { if x = m[1] { x } else { x } }] *)
Theorem if_map_else_refuted : exists M,
  compile_program 30 60 word_config (with_prelude [] []
    [("f", Lambda [("m", TMap TNumber TNumber); ("x", TNumber)] TNumber
       (HIfMap None None "x" (HVariable "m") (HNumber 1) (HVariable "x") (HVariable "x")))]) = Ok M /\ type_check M = false.
Proof. apply rejected. vm_compute. reflexivity. Qed.
Print Assumptions if_map_else_refuted.

(** Finding 36: [f = \(__debug number) none { debug("a") }] *)
Theorem runtime_name_refuted : exists M,
  compile_program 30 60 word_config (with_prelude [] []
    [("f", Lambda [("__debug", TNumber)] TNone (HCall None (HBuiltIn BDebug) [HString "a"]))]) = Ok M /\ type_check M = false.
Proof. apply rejected. vm_compute. reflexivity. Qed.
Print Assumptions runtime_name_refuted.

(** Finding 31: [type p { x number x string }] and [f = \(y p) number { y.x }] *)
Theorem duplicate_field_refuted : exists M,
  compile_program 30 60 word_config (with_prelude
    [TypeDef {| td_name := "p"; td_original := "p"; td_fields := [("x", TNumber); ("x", TString)] |} true false] []
    [("f", Lambda [("y", TReference "p")] TNumber (HField None (HVariable "y") "x"))]) = Ok M /\ type_check M = false.
Proof. apply rejected. vm_compute. reflexivity. Qed.
Print Assumptions duplicate_field_refuted.

(** Finding 37: [f = \(m error | {number: number}) error | [number] { keys(m?) }] *)
Theorem try_in_keys_refuted : exists M,
  compile_program 30 60 word_config (with_prelude [] []
    [("f", Lambda [("m", TUnion TError (TMap TNumber TNumber))] (TUnion TError (TList TNumber))
       (HCall None (HBuiltIn BKeys) [HTry None (HVariable "m")]))]) = Ok M /\ type_check M = false.
Proof. apply rejected. vm_compute. reflexivity. Qed.
Print Assumptions try_in_keys_refuted.

(** The remaining programs meet [program_fits]: the compiler does not collect a
    type whose code it uses. *)
Definition uncollected (p : program) : Prop :=
  program_fits (fun x => x) word_config p /\ exists M, compile_program 30 60 word_config p = Ok M /\ type_check M = false.
Lemma uncollected_ok p : fits word_config p 20 && compiled (fun M => negb (type_check M)) p = true -> uncollected p.
Proof.
  intros H. apply andb_true_iff in H. destruct H as [H1 H2]. split; [|apply rejected, H2]. apply (fits_ok word_config p 20 word_config_fits), H1.
Qed.

(** Finding 29: [f = \(x [[error]]) [error] { race(x) }] *)
Theorem race_element_refuted : uncollected (with_prelude [] []
  [("f", Lambda [("x", TList (TList TError))] (TList TError) (HCall None (HBuiltIn BRace) [HVariable "x"]))]).
Proof. apply uncollected_ok. vm_compute. reflexivity. Qed.
Print Assumptions race_element_refuted.

(** Finding 29: [f = \(x {number: [error]}) [[error]] { values(x) }] *)
Theorem values_component_refuted : uncollected (with_prelude [] []
  [("f", Lambda [("x", TMap TNumber (TList TError))] (TList (TList TError)) (HCall None (HBuiltIn BValues) [HVariable "x"]))]).
Proof. apply uncollected_ok. vm_compute. reflexivity. Qed.
Print Assumptions values_component_refuted.

(** Finding 29: [f = \(x [number]) \() [number] { go(\() [number] { x }) }] *)
Theorem spawn_result_refuted : uncollected (with_prelude [] []
  [("f", Lambda [("x", TList TNumber)] (TFunction [] (TList TNumber)) (HCall None (HBuiltIn BSpawn) [HLambda [] (TList TNumber) (HVariable "x")]))]).
Proof. apply uncollected_ok. vm_compute. reflexivity. Qed.
Print Assumptions spawn_result_refuted.

(** Finding 38: [f = \(x {any: number}) number { 1 }] *)
Theorem map_key_refuted : uncollected (with_prelude [] []
  [("f", Lambda [("x", TMap TAny TNumber)] TNumber (HNumber 1))]).
Proof. apply uncollected_ok. vm_compute. reflexivity. Qed.
Print Assumptions map_key_refuted.

(** Finding 29: [type a = [\() number]] and
    [f = \(x a) [number] { [number g()() for g in x] }] *)
Theorem alias_iteratee_refuted : uncollected (with_prelude [] [("a", TList (TFunction [] TNumber))]
  [("f", Lambda [("x", TReference "a")] (TList TNumber)
     (HComprehension TNumber (HCall None (HCall None (HVariable "g") []) []) [CompBranch ["g"] [(None, HVariable "x")] None]))]).
Proof. apply uncollected_ok. vm_compute. reflexivity. Qed.
Print Assumptions alias_iteratee_refuted.

(** Finding 29: [h = \(x any) boolean { true }] and
    [f = \(x [number], y \() number) [number] { [number g() for g in x if h(y)] }] *)
Theorem condition_conversion_refuted : uncollected (with_prelude [] []
  [("h", Lambda [("x", TAny)] TBoolean (HBoolean true));
   ("f", Lambda [("x", TList TNumber); ("y", TFunction [] TNumber)] (TList TNumber)
     (HComprehension TNumber (HCall None (HVariable "g") []) [CompBranch ["g"] [(None, HVariable "x")] (Some (HCall None (HVariable "h") [HVariable "y"]))]))]).
Proof. apply uncollected_ok. vm_compute. reflexivity. Qed.
Print Assumptions condition_conversion_refuted.
