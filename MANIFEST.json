{
 "claims": [
  {
   "property": "C01",
   "status": "proved",
   "theorems": [
    "type_equality_correct",
    "type_equality_total",
    "canonicalize_idempotent"
   ],
   "note": "Equality of canonical types is the equational theory of unions, aliases and any."
  },
  {
   "property": "C02",
   "status": "proved",
   "theorems": [
    "recursive_alias_check_correct",
    "canonicalize_terminates"
   ],
   "note": "petgraph's toposort is replaced by an executable stand-in with the same contract."
  },
  {
   "property": "C03",
   "status": "proved",
   "theorems": [
    "subsumption_is_inclusion",
    "subsumption_is_subtyping",
    "subsumption_total",
    "subsumption_antisymmetric"
   ],
   "note": ""
  },
  {
   "property": "C04",
   "status": "proved",
   "theorems": [
    "difference_absent",
    "difference_alternatives",
    "difference_of_any",
    "difference_defined"
   ],
   "note": ""
  },
  {
   "property": "C05",
   "status": "proved",
   "theorems": [
    "type_id_injective",
    "type_id_defined",
    "type_id_any_name_refuted"
   ],
   "note": "About the text that is hashed; the hash itself is not modelled. Without the restriction on record names the property is refuted."
  },
  {
   "property": "C06",
   "status": "partial",
   "theorems": [
    "impossible_record_uninhabited",
    "impossible_check_terminates",
    "impossible_record_complete_refuted"
   ],
   "note": "Soundness and termination proved. The converse is false of the code: refuted by a witness."
  },
  {
   "property": "C07",
   "status": "proved",
   "theorems": [
    "comparable_correct",
    "comparable_terminates"
   ],
   "note": ""
  },
  {
   "property": "C08",
   "status": "proved",
   "theorems": [
    "if_type_runs_first_branch",
    "if_type_never_fails"
   ],
   "note": "The evaluation equals that of the first branch taking the value's type, for every accepted switch. Hypotheses: record names without ')' and not starting with 'hir:', hashes written without ':', and no hash collision among the identifiers of the component types involved."
  },
  {
   "property": "C09",
   "status": "partial",
   "theorems": [
    "equality_structural_partial",
    "equality_equivalence",
    "equal_none_drops_operands_refuted"
   ],
   "note": "The code that the lowering makes for == and != returns whether the data are the same, for booleans, numbers, strings, none, (recursive) records, lists and unions of them, and evaluates each operand once, for every program with the generated equality functions and the compiled prelude. Hypotheses: the foreign string comparison is right; record names, hashes and variable names as in C08. Missing: maps. At type none the operands are not evaluated (refuted)."
  },
  {
   "property": "C10",
   "status": "partial",
   "theorems": [
    "equal_numbers_equal_hashes",
    "equal_keys_equal_hashes_partial",
    "list_hash_refuted",
    "redundant_union_hash_refuted"
   ],
   "note": "The hash functions that the lowering makes return equal numbers for equal data made of booleans, numbers, strings, none, (recursive) records and unions, for every program with the generated functions. Hypotheses: the foreign hash functions are functions of their arguments and respect number equality (proved for the model of the number hash); unions in records have two different alternatives. Missing: maps. Hashing a non-empty list goes wrong, and so does a record with a field of a type such as number | number (computed witnesses)."
  },
  {
   "property": "C11",
   "status": "proved",
   "theorems": [
    "map_get_after_sets"
   ],
   "note": "For keys whose equality is an equivalence respected and separated by the 64-bit hash; without that the set may not return (C17)."
  },
  {
   "property": "C12",
   "status": "proved",
   "theorems": [
    "map_size_after_sets"
   ],
   "note": "For keys whose equality is an equivalence respected and separated by the 64-bit hash; histories of sets; deletions are in C16."
  },
  {
   "property": "C13",
   "status": "proved",
   "theorems": [
    "map_iteration"
   ],
   "note": "For keys whose equality is an equivalence respected and separated by the 64-bit hash; histories of sets; deletions are in C16."
  },
  {
   "property": "C14",
   "status": "proved",
   "theorems": [
    "map_merge"
   ],
   "note": "For keys whose equality is an equivalence respected and separated by the 64-bit hash; merging maps built by sets."
  },
  {
   "property": "C15",
   "status": "proved",
   "theorems": [
    "map_equality"
   ],
   "note": "For keys whose equality is an equivalence respected and separated by the 64-bit hash; equality is agreement on every key, and equal maps hash alike."
  },
  {
   "property": "C16",
   "status": "partial",
   "theorems": [
    "map_delete_partial",
    "map_delete_equality_partial",
    "map_delete_refuted"
   ],
   "note": "False of the code: deleting may drop another key (computed witness with keys 1, 10, 0). Proved when two trie levels tell the keys apart."
  },
  {
   "property": "C17",
   "status": "partial",
   "theorems": [
    "map_set_returns_partial",
    "map_set_collision_refuted",
    "map_set_nan_refuted"
   ],
   "note": "False of the code: setting a key unequal to one with the same hash never returns; NaN is a witness. Without collisions thirteen nested calls are enough."
  },
  {
   "property": "C18",
   "status": "proved",
   "theorems": [
    "prelude_list_compiles",
    "empty_list_sequence",
    "fair_always",
    "prepend_sequence_law",
    "concatenate_sequence_law",
    "lazy_sequence_law",
    "first_rest_law",
    "size_law",
    "equal_lists_law",
    "maybe_equal_lists_law",
    "literal_law"
   ],
   "note": "List.pen is written as HIR and run through the modelled analyses and lowering; the theorems are about the resulting code, for every module that contains it. Elements are arbitrary values, so no operation calls them; only the equality functions do. DebugList is not modelled."
  },
  {
   "property": "C19",
   "status": "proved",
   "theorems": [
    "concatenation_preserves_behaviour"
   ],
   "note": "For all modules, outside worlds, call sequences and depths."
  },
  {
   "property": "C20",
   "status": "partial",
   "theorems": [
    "renaming_preserves_behaviour",
    "renaming_distinct_partial",
    "renaming_distinct_refuted"
   ],
   "note": "Behaviour is preserved for all modules whose names do not look like generated ones (name:number). Distinctness needs local functions without repeated argument names; with them it is false."
  },
  {
   "property": "C21",
   "status": "partial",
   "theorems": [
    "normalization_preserves_behaviour_partial",
    "normalization_preserves_behaviour_refuted"
   ],
   "note": "False of the code when a local variable has the name of an argument of the global function around it, which renaming leaves alone: x and y are confused in y = x; x = 2; x + y. Proved when binders are distinct, let expressions do not bind free variables, and free variables that are given another name are not bound; case expressions and try operations may bind an argument's name again, as in code the front end makes."
  },
  {
   "property": "C22",
   "status": "proved",
   "theorems": [
    "environments_exact",
    "environments_preserve_behaviour"
   ],
   "note": ""
  },
  {
   "property": "C23",
   "status": "partial",
   "theorems": [
    "lifting_preserves_behaviour_partial",
    "lifting_preserves_behaviour_refuted",
    "lifting_keeps_function_values"
   ],
   "note": "False of the code for local thunks that capture nothing: they become global thunks, evaluated once in a run. Proved for all modules without them, and for all outside worlds, call sequences and depths. Functions used as values stay local."
  },
  {
   "property": "C24",
   "status": "partial",
   "theorems": [
    "references_are_balanced_partial",
    "distinct_names_hide_nothing",
    "middle_end_is_ready",
    "middle_end_counted_partial",
    "executable_references_balanced_partial",
    "reference_counting_preserves_behaviour",
    "not_normal_reference_refuted",
    "other_try_reference_refuted",
    "hidden_reference_refuted",
    "executable_leaks_refuted"
   ],
   "note": "Proved for every module in A-normal form with exact environments, whose try operations return the error as the front end makes them, and in which no variable is hidden by another one and used again afterwards. The passes before reference counting are proved to make such modules, from modules whose functions do not bind the names of their arguments again; for programs compiled from source, only the condition on hidden variables remains. Outside these conditions the transformation makes unbalanced code (computed witnesses; for hidden variables the witness is compiled from a source program)."
  },
  {
   "property": "C25",
   "status": "partial",
   "theorems": [
    "validated_references_partial",
    "balanced_code_is_accepted",
    "reference_counting_succeeds",
    "validated_late_clone_refuted",
    "validated_shadowed_return_refuted"
   ],
   "note": "The validator accepts all balanced code and all output of the transformation. Accepted code without shadowing uses up as many references as it makes on every path, but not in the right order: a clone after the last use is accepted, and so is an early return that leaks a shadowed variable (computed witnesses)."
  },
  {
   "property": "C26",
   "status": "partial",
   "theorems": [
    "closure_passes_preserve_behaviour_partial",
    "middle_end_preserves_behaviour_partial",
    "middle_end_reused_argument_refuted",
    "middle_end_closed_thunk_refuted"
   ],
   "note": "The passes compose for every module without reserved names whose let expressions do not bind the name of a used argument, which give no other name to an argument whose name is bound again, and whose local thunks capture a variable. Compiled programs meet the conditions (calc and spin in C64). False of the code without either of the last two conditions (computed witnesses)."
  },
  {
   "property": "C27",
   "status": "partial",
   "theorems": [
    "accepted_modules_do_not_go_wrong_partial",
    "accepted_functions_return_their_type_partial",
    "inferred_environments_right",
    "missing_alternative_refuted",
    "missing_environment_refuted",
    "wrong_environment_refuted",
    "hidden_fallback_refuted"
   ],
   "note": "Soundness for every accepted module with exact environments (which environment inference gives), a default in every case expression, and no local variable named like the fallback type information function. The checker tests none of these; for each a counterexample is proved."
  },
  {
   "property": "C28",
   "status": "partial",
   "theorems": [
    "arc_freed_once",
    "arc_static_kept",
    "arc_empty_payload_refuted"
   ],
   "note": "Proved for all interleavings of any number of threads with fewer than 2^63 handles, for payloads of non-zero size. False for payloads of size zero, which are never dropped. Memory orderings are not modelled."
  },
  {
   "property": "C29",
   "status": "proved",
   "theorems": [
    "arc_get_mut_unique",
    "arc_get_mut_succeeds"
   ],
   "note": ""
  },
  {
   "property": "C30",
   "status": "partial",
   "theorems": [
    "stack_lifo",
    "stack_aligned_partial",
    "stack_alignment_refuted",
    "stack_zero_capacity_refuted"
   ],
   "note": "Order and data are proved for all sequences. Alignment is false for types aligned to more than 8 bytes; a push on a stack of capacity zero never ends."
  },
  {
   "property": "C31",
   "status": "partial",
   "theorems": [
    "async_protocol_partial",
    "async_protocol_refuted"
   ],
   "note": "Proved up to the first rejected call; a rejected call changes the expected action, so the protocol is not enforced after it."
  },
  {
   "property": "C32",
   "status": "proved",
   "theorems": [
    "operators_grouped",
    "grouping_unique"
   ],
   "note": ""
  },
  {
   "property": "C33",
   "status": "partial",
   "theorems": [
    "string_literal_partial",
    "string_bytes_expressible",
    "string_literal_refuted"
   ],
   "note": "False of the code: an escaped backslash before n, r, t or xHH is compiled as that escape. Proved for all other literals; every byte string is expressible."
  },
  {
   "property": "C34",
   "status": "partial",
   "theorems": [
    "path_extension_set",
    "path_extension_replaced",
    "path_join_monoid",
    "path_relative_of_join",
    "path_join_of_relative_partial",
    "path_join_of_relative_refuted"
   ],
   "note": "The last clause is false when the path is a proper prefix of the directory. Extensions with $ are not modelled."
  },
  {
   "property": "C35",
   "status": "proved",
   "theorems": [
    "packages_sorted",
    "packages_cycle_reported"
   ],
   "note": "petgraph's toposort is replaced by an executable stand-in with the same contract."
  },
  {
   "property": "C36",
   "status": "partial",
   "theorems": [
    "json_round_trip_partial",
    "json_backslash_refuted",
    "json_infinity_refuted",
    "json_invalid_string_refuted"
   ],
   "note": "For every print and scan of numbers (Rust's to_string and parse) and all values whose numbers they keep. Missing because false (computed witnesses): strings with backslashes, strings with quotes that are not UTF-8, infinities and NaN."
  },
  {
   "property": "C37",
   "status": "partial",
   "theorems": [
    "html_keeps_text_partial",
    "html_rejects_names",
    "html_hyphen_tag_refuted",
    "html_style_refuted",
    "html_invalid_text_refuted",
    "html_heading_refuted"
   ],
   "note": "Against an executable reader that follows the tokenization of the HTML standard. Missing because false (computed witnesses): tags that start with a hyphen, elements such as style whose content is not read as HTML, and strings that are not UTF-8. Valid tags with digits are rejected. The crate html_escape is a stand-in."
  },
  {
   "property": "C38",
   "status": "proved",
   "theorems": [
    "flags_parse"
   ],
   "note": "Named flags are a list of entries; that the map keeps them is C11."
  },
  {
   "property": "C39",
   "status": "partial",
   "theorems": [
    "byte_slice_selects_partial",
    "byte_slice_start_refuted",
    "byte_slice_nan_refuted",
    "view_shows_part_partial",
    "view_slice_negative_refuted"
   ],
   "note": "Over exact IEEE 754 arithmetic. Byte slices: for all numbers with start at least 1 and end not NaN; a start below 1 crashes and an end NaN gives the whole string (computed witnesses). Views: for whole or infinite bounds, start at least 1 and end at least 0; a negative end crashes when the view is used (computed witness)."
  },
  {
   "property": "C40",
   "status": "partial",
   "theorems": [
    "analysis_exact_partial",
    "analysis_conversions_widen"
   ],
   "note": "Missing: modules where a list of a comprehension branch mentions a name bound by the same branch (the checker scopes it differently from the other passes; see analysis_scope_case)."
  },
  {
   "property": "C41",
   "status": "proved",
   "theorems": [
    "try_only_where_errors_return",
    "try_check_complete"
   ],
   "note": "Stated on the source program, which has no thunks; both directions."
  },
  {
   "property": "C42",
   "status": "partial",
   "theorems": [
    "no_error_discarded_partial",
    "discard_check_complete",
    "no_error_discarded_refuted"
   ],
   "note": "Proved outside the conditions of list comprehensions, which the visitor skips; there the property is false of the code (computed witness)."
  },
  {
   "property": "C43",
   "status": "partial",
   "theorems": [
    "format_then_parse_partial",
    "format_refuted"
   ],
   "note": "False of the code: parentheses of a right operand of equal priority, of a negation before ? and of an operation that is called or accessed are dropped. Proved for the other operator expressions, over tokens; other kinds of expressions are atoms."
  },
  {
   "property": "C44",
   "status": "proved",
   "theorems": [
    "generated_code_agrees"
   ],
   "note": ""
  },
  {
   "property": "C45",
   "status": "partial",
   "theorems": [
    "private_fields_kept_partial",
    "field_check_complete",
    "private_fields_kept_refuted",
    "private_record_exported_closed",
    "private_record_passed_on_closed",
    "private_fields_across_texts_partial"
   ],
   "note": "Proved outside the conditions of list comprehensions, which the visitor skips; there the property is false of the code (computed witness). Across source texts: a record with a private field is exported and passed on closed, and accepted importing texts do not access its fields; that the types of the importing program are defined and consistent (context_ok, types_known) is a hypothesis, met by the example."
  },
  {
   "property": "C46",
   "status": "proved",
   "theorems": [
    "conversion_keeps_value"
   ],
   "note": "Under the hypothesis that the module declares the record that carries functions, lists and maps (finding 29 of DESIGN.md lists cases where the compiler does not collect it)."
  },
  {
   "property": "C47",
   "status": "partial",
   "theorems": [
    "thunk_value_kept_partial",
    "global_value_kept_partial"
   ],
   "note": "Proved for bodies without an early return. With one the value is not kept (see C48)."
  },
  {
   "property": "C48",
   "status": "partial",
   "theorems": [
    "shared_thunk_runs_once",
    "shared_thunk_same_value",
    "shared_thunk_read_is_set",
    "shared_thunk_can_finish",
    "shared_thunk_can_finish_refuted"
   ],
   "note": "Sequentially consistent memory. The last part is false of the code when the body returns early through a try operation: the thunk stays locked and every later call waits forever (computed witness); a function without arguments that uses ? is such a thunk."
  },
  {
   "property": "C49",
   "status": "partial",
   "theorems": [
    "text_characters",
    "code_points",
    "other_code_points_partial",
    "negative_code_point_refuted",
    "text_slice_selects_partial",
    "text_slice_nan_refuted",
    "text_find_partial",
    "text_find_empty_refuted",
    "text_tests"
   ],
   "note": "Slices: for whole or infinite starts and all ends that are numbers. NaN bounds select characters, an empty pattern is not found in an empty string, and negative code points give the character 0 (computed witnesses). Rust's str functions are stand-ins."
  },
  {
   "property": "C50",
   "status": "proved",
   "theorems": [
    "split_and_join",
    "split_parts_separated"
   ],
   "note": "Rust's str::split is a stand-in (leftmost matches that do not overlap)."
  },
  {
   "property": "C51",
   "status": "partial",
   "theorems": [
    "json_encodes_text_partial",
    "json_control_refuted",
    "json_infinity_text_refuted"
   ],
   "note": "Against the grammar of RFC 8259 as an inductive relation between texts and values. Missing because false: strings with control characters, infinities and NaN."
  },
  {
   "property": "C52",
   "status": "partial",
   "theorems": [
    "json_decode_exact",
    "json_decodes_partial",
    "json_decode_refuted",
    "json_accepts_other_text_refuted"
   ],
   "note": "json_decode_exact says which strings give which value and which give an error. Of the JSON grammar, texts with white space anywhere are read right, but escapes other than of quotes, exponents and carriage returns are not, and texts that are not JSON are accepted (computed witnesses)."
  },
  {
   "property": "C53",
   "status": "partial",
   "theorems": [
    "compiled_program_type_checks_partial",
    "searched_program_type_checks_partial",
    "searched_module_complete",
    "incomparable_operands_refuted",
    "try_in_error_function_refuted",
    "if_map_else_refuted",
    "runtime_name_refuted",
    "duplicate_field_refuted",
    "try_in_keys_refuted",
    "race_element_refuted",
    "values_component_refuted",
    "spawn_result_refuted",
    "map_key_refuted",
    "alias_iteratee_refuted",
    "condition_conversion_refuted"
   ],
   "note": "For every source program that keeps away from the compiler's names and from the findings, every depth of recursion and every configuration. The compiled module has every function and record its code mentions when map keys and operands of == can be compared and the conversions that the compiler does not collect (finding 29) have their records. The unrestricted claim is false: twelve accepted programs whose code is rejected."
  },
  {
   "property": "C54",
   "status": "partial",
   "theorems": [
    "source_names_resolved",
    "source_scopes_kept",
    "names_resolved",
    "reference_unique",
    "unqualified_names_exist",
    "foreign_import_hidden_refuted",
    "ambiguous_imports_refuted",
    "private_unqualified_name_refuted"
   ],
   "note": "For every source text, and for every module as the parser leaves it. Missing because false: foreign imports hidden by unqualified imports, two imports that go by the same name, unqualified imports of private types (computed witnesses)."
  },
  {
   "property": "C55",
   "status": "proved",
   "theorems": [
    "source_only_public_functions",
    "source_only_public_types",
    "only_public_functions",
    "only_public_types",
    "compiled_interface",
    "modules_do_not_clash"
   ],
   "note": "For every source text and every module as the parser leaves it. Variables and type names that are unknown stay without a colon and are no function or type of any module."
  },
  {
   "property": "C56",
   "status": "partial",
   "theorems": [
    "format_parsed_partial",
    "parsed_faithful",
    "format_module_partial",
    "format_injective_partial",
    "format_total",
    "format_condition_refuted",
    "format_union_refuted",
    "format_statement_refuted",
    "format_sign_refuted"
   ],
   "note": "Character by character, for every layout, every text that parses and every faithful module. kept_module excludes the places below and nothing else. Missing because false: the parentheses that the formatter drops (finding 15 and the four refutations). Unions with a union as their right member, which are regrouped, are excluded too."
  },
  {
   "property": "C57",
   "status": "proved",
   "theorems": [
    "layout_keeps_module"
   ],
   "note": "For modules the formatter keeps."
  },
  {
   "property": "C58",
   "status": "proved",
   "theorems": [
    "format_parsed_again",
    "format_again",
    "format_sorts_imports"
   ],
   "note": "For modules the formatter keeps. Documents are compared before layout: where lines break depends on source positions, which the model leaves out."
  },
  {
   "property": "C59",
   "status": "proved",
   "theorems": [
    "expression_parser_terminates",
    "type_parser_terminates",
    "operand_parser_terminates",
    "repetition_terminates",
    "operations_reduced",
    "expression_parser_advances",
    "type_parser_advances"
   ],
   "note": "The recursive parsers satisfy the equations of the code without any bound. The time they take is not modelled."
  },
  {
   "property": "C60",
   "status": "proved",
   "theorems": [
    "hexadecimal_literal",
    "binary_literal",
    "literal_unique"
   ],
   "note": "Values from 2^53 to 2^64 are rounded by the standard library's SpecFloat, which is not characterised further here. Decimal literals are read by Rust's library, which is a parameter."
  },
  {
   "property": "C61",
   "status": "partial",
   "theorems": [
    "format_keeps_program_partial",
    "format_ambiguous_imports_refuted"
   ],
   "note": "For every source text that parses. Missing because false: parentheses that the formatter drops (C56), and imports that go by the same name. The interfaces that are imported have to agree on what they both mention, as those of one build do."
  },
  {
   "property": "C62",
   "status": "proved",
   "theorems": [
    "parsed_translated"
   ],
   "note": "Numbers of more than 64 bits are rejected (C60), and decimal numbers are read by Rust's library."
  },
  {
   "property": "C63",
   "status": "partial",
   "theorems": [
    "compiled_program_keeps_meaning_partial",
    "compiled_program_gives_same_data_partial",
    "compiled_program_never_ends_partial"
   ],
   "note": "For calls that end and for calls that never end. From the source program through analysis, lowering and code generation to MIR. Missing: expressions with lists, maps, comprehensions and thunks, the built-in functions debug, delete, keys, race, reflection, size, spawn and values, == at the type none and on lists, maps and records of other modules (C09), and functions of the outside that call back functions they were given."
  },
  {
   "property": "C64",
   "status": "partial",
   "theorems": [
    "executable_session_partial",
    "executable_shows_same_data_partial",
    "executable_never_ends_partial",
    "executable_rebound_argument_refuted"
   ],
   "note": "C63 composed with C26 and C24's behaviour theorem: analysis, lowering, code generation, concatenation, renaming, normalization, environment inference, lambda lifting and reference counting. Missing: what is missing in C63 and C26, records and functions as arguments from the outside, outsides that call the program while they answer, and the translation to machine code. False without C26's condition on arguments: a source program for which the generated program gives another number is computed."
  },
  {
   "property": "C65",
   "status": "partial",
   "theorems": [
    "any_is_some",
    "all_is_every",
    "any_all_answer",
    "any_all_stop",
    "first_and_last",
    "conversions_keep",
    "maximum_and_minimum",
    "maximum_minimum_nan",
    "range_counts_partial",
    "integers_are",
    "range_has",
    "range_endless_refuted",
    "sum_is_exact",
    "bits_are",
    "shifts_are_partial",
    "long_shift_refuted",
    "integers_convert_partial",
    "negative_integer_refuted"
   ],
   "note": "Ranges of whole numbers below 2^53 are proved to be what they should be; beyond, a range may have no end (refuted). Shifts by 64 bits or more are refuted, and so are negative integers. Elements that print or call the outside are not modelled."
  },
  {
   "property": "C66",
   "status": "partial",
   "theorems": [
    "accepted_programs_do_not_go_wrong_partial",
    "compiled_programs_do_not_go_wrong_partial"
   ],
   "note": "Progress and preservation in one: typed value, or calls nested as deep as one likes. For the source's meaning and for compiled code at every bound on nested calls. Missing: lists, maps, comprehensions, built-in functions other than error and source, == at the type none and on lists, maps, functions and records of other modules, ? on any, and the programs that program_fits leaves out (findings 20 and 35)."
  },
  {
   "property": "C67",
   "status": "partial",
   "theorems": [
    "analysis_does_not_crash_partial",
    "compilation_does_not_crash_partial",
    "front_end_does_not_crash",
    "source_analysis_does_not_crash",
    "made_interfaces_open",
    "source_is_raw",
    "source_gives_fields_once",
    "source_compilation_does_not_crash_partial"
   ],
   "note": "Analysis (inference, checks, validation and coercion): for every program, well typed or not, with the shapes that the parser makes, and so for every source text. Parsing, translation of syntax and name resolution: for every text. Whole compilation to MIR: for those that also meet program_fits. Missing: other programs past analysis and the passes over MIR."
  },
  {
   "property": "C68",
   "status": "partial",
   "theorems": [
    "text_runs_as_it_says_partial",
    "text_does_not_go_wrong_partial"
   ],
   "note": "From the characters of a text to the run of its MIR module, composing the front end, analysis and translation. Missing: what C63 and C66 miss (lists, maps, most built-in functions, programs outside program_fits)."
  }
 ]
}