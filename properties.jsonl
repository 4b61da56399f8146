{"id": "C01", "title": "Type equality ignores how a union is written", "statement": "Two type expressions are equal exactly when, after expanding aliases, they denote the same set of alternatives (functions, lists and maps compared component-wise). Reordering, re-nesting or duplicating union members and replacing a type by an alias of it never changes the verdict, equality is an equivalence relation, and canonicalizing twice is the same as canonicalizing once.", "quantifier": "all types over any set of records and acyclic aliases", "why_tests_cant": "The number of type expressions and alias environments is infinite; tests compare a handful of pairs.", "anchors": ["lib/hir/src/analysis/type_canonicalizer.rs: canonicalize, collect_types_in_place", "lib/hir/src/analysis/type_equality_checker.rs: check"]}
{"id": "C02", "title": "Resolving a type always terminates on accepted modules", "statement": "If every alias reference of a module resolves and the recursive-alias check accepts the module, then canonicalizing any type that mentions only known names terminates with a result that contains no reference; the check rejects a module exactly when some alias reaches itself through alias references.", "quantifier": "all alias environments and all types over them", "why_tests_cant": "Non-termination cannot be observed by a test, and the alias graphs are unbounded.", "anchors": ["lib/hir/src/analysis/recursive_type_alias_validator.rs: validate, collect_references", "lib/hir/src/analysis/type_canonicalizer.rs: canonicalize", "lib/hir/src/analysis/type_resolver.rs: resolve"]}
{"id": "C03", "title": "Subsumption is set inclusion", "statement": "A type T is accepted where U is expected exactly when U is any or every alternative of T is an alternative of U. So subsumption is reflexive and transitive, any is the top, a union is the least upper bound of its members, and mutual subsumption is type equality.", "quantifier": "all pairs and triples of types over any environment", "why_tests_cant": "The laws range over all types; a unit test fixes both sides.", "anchors": ["lib/hir/src/analysis/type_subsumption_checker.rs: check, check_canonical"]}
{"id": "C04", "title": "Type difference removes exactly the other type's alternatives", "statement": "The difference of T and U has exactly the alternatives of T that are not alternatives of U, and is absent exactly when T is subsumed by U; when neither is any, the difference together with U covers T and shares nothing with U.", "quantifier": "all pairs of types", "why_tests_cant": "Needs all pairs of types; tests sample a few unions.", "anchors": ["lib/hir/src/analysis/type_difference_calculator.rs: calculate", "lib/hir/src/analysis/union_type_creator.rs: create", "lib/hir/src/analysis/union_type_member_calculator.rs: calculate"]}
{"id": "C05", "title": "Distinct types get distinct identifiers", "statement": "The text from which a type's run-time identifier is derived is the same for two types exactly when the types are equal (assuming record names contain no closing parenthesis), so two different types can only share an identifier through a hash collision.", "quantifier": "all pairs of types", "why_tests_cant": "Ambiguity of a textual encoding only shows on specific pairs out of infinitely many.", "anchors": ["lib/hir/src/analysis/type_id_calculator.rs: calculate_string"]}
{"id": "C06", "title": "A record rejected as impossible really has no value", "statement": "If the compiler rejects a record definition as impossible, no finite value of that record exists. Conversely a record with no finite value should be rejected.", "quantifier": "all sets of record definitions and aliases", "why_tests_cant": "Quantifies over all values of all recursive definitions.", "anchors": ["lib/hir/src/analysis/impossible_type_validator.rs: validate, is_type_recursive"]}
{"id": "C07", "title": "Types accepted for == contain nothing incomparable", "statement": "A type is accepted as comparable exactly when no any, error or function type is reachable from it through lists, maps, unions, aliases and record fields; the check terminates for mutually recursive records.", "quantifier": "all types over all record and alias definitions", "why_tests_cant": "Reachability in arbitrary cyclic definitions.", "anchors": ["lib/hir/src/analysis/type_comparability_checker.rs: check_with_cache"]}
{"id": "C08", "title": "An accepted if-type covers every run-time value", "statement": "If an if-type expression passes the type checker, then for every value of the argument type some branch (or else) is selected when it is compiled to a case on run-time types, the branch selected is the first whose type includes the value's type, and control never reaches the unreachable default.", "quantifier": "all argument types, branch lists and run-time values", "why_tests_cant": "Exhaustiveness must hold for every union and every value.", "anchors": ["lib/hir/src/analysis/type_checker.rs: IfType", "lib/hir-mir/src/expression.rs: compile_alternatives/IfType", "lib/mir-fmm/src/expression.rs: compile_alternatives"]}
{"id": "C09", "title": "== decides structural equality", "statement": "For every comparable type, the code generated for == returns true exactly when both values are structurally equal (numbers by IEEE ==), never fails to find a branch, and evaluates its operands exactly once.", "quantifier": "all comparable types (including recursive records and unions) and all values of them", "why_tests_cant": "Ranges over all recursive record definitions and values.", "anchors": ["lib/hir-mir/src/transformation/equal_operation/expression.rs", "lib/hir-mir/src/transformation/record_equal_function.rs"]}
{"id": "C10", "title": "Equal keys have equal hashes", "statement": "For every hashable type, values that compare equal with == get the same hash, so a map never separates two equal keys.", "quantifier": "all comparable types and values", "why_tests_cant": "Ranges over all types and values.", "anchors": ["lib/hir-mir/src/transformation/hash_calculation/expression.rs", "lib/hir-mir/src/transformation/record_hash_function.rs", "packages/prelude/ffi/src/lib.rs"]}
{"id": "C11", "title": "A map returns the value last set", "statement": "After any sequence of sets, looking up a key returns the value of the last set with an equal key, or absence if there is none, provided no two unequal keys share a full 64-bit hash.", "quantifier": "all key types with an equality and a compatible hash, all histories of sets, all keys", "why_tests_cant": "All histories and all hash functions; the deep-collision paths need adversarial hashes.", "anchors": ["packages/prelude/Map.pen: SetMap, GetMap, setKeyValue, getValue", "packages/prelude/ffi/src/lib.rs: hash_to_index"]}
{"id": "C12", "title": "Map size is the number of distinct keys", "statement": "After any sequence of sets the reported size equals the number of distinct keys set.", "quantifier": "all histories of sets", "why_tests_cant": "All histories.", "anchors": ["packages/prelude/Map.pen: SetMap, MapSize"]}
{"id": "C13", "title": "Map iteration yields each entry exactly once", "statement": "Iterating a map produced by any sequence of sets yields every key exactly once, paired with its current value, and nothing else.", "quantifier": "all histories of sets", "why_tests_cant": "All histories.", "anchors": ["packages/prelude/Map.pen: IterateMap, iterateHamt, MapIteratorRest"]}
{"id": "C14", "title": "Merging maps is right-biased union", "statement": "Looking up a key in the merge of x and y gives y's value when y has the key and x's otherwise, and the size is the number of distinct keys of both.", "quantifier": "all pairs of histories of sets", "why_tests_cant": "All pairs of histories.", "anchors": ["packages/prelude/Map.pen: MergeMaps, mergeHamt"]}
{"id": "C15", "title": "Map equality and hash do not depend on insertion order", "statement": "Two maps built by sets that bind the same keys to equal values compare equal and hash equally whatever the order and overwriting in their histories; maps that differ in some binding compare unequal.", "quantifier": "all pairs of histories of sets", "why_tests_cant": "All pairs of histories and orders.", "anchors": ["packages/prelude/Map.pen: EqualMaps, equalHamts, HashMap, hashHamt"]}
{"id": "C16", "title": "Deleting a key removes that key and nothing else", "statement": "After deleting a key, looking it up reports absence, every other key keeps its value, the size drops by one exactly when the key was present, and iteration and equality agree with that.", "quantifier": "all histories of sets and deletes", "why_tests_cant": "All histories; the failing shapes depend on hash bits several levels deep.", "anchors": ["packages/prelude/Map.pen: DeleteMap, deleteKey, normalizeHamt, getSingleEntry"]}
{"id": "C17", "title": "Setting a key always terminates", "statement": "Setting any key in any map terminates, also when two unequal keys have the same hash.", "quantifier": "all maps, keys and hash functions", "why_tests_cant": "Non-termination is not observable by a test.", "anchors": ["packages/prelude/Map.pen: setKeyValue", "lib/hir-mir/src/transformation/record_hash_function.rs"]}
{"id": "C18", "title": "List operations behave like sequences", "statement": "Creation, prepending, concatenation, lazy construction, first/rest, size and equality of lists agree with the corresponding operations on finite sequences, and each element thunk is evaluated at most when its element is demanded.", "quantifier": "all finite lists", "why_tests_cant": "All lists and nestings of operations.", "anchors": ["packages/prelude/List.pen"]}
{"id": "C19", "title": "Flattening string concatenation preserves meaning", "statement": "Replacing nested string concatenations by flat ones changes neither the resulting bytes nor the order of side effects of any program.", "quantifier": "all programs and inputs", "why_tests_cant": "All programs.", "anchors": ["lib/mir/src/analysis/optimization/string_concatenation.rs: transform", "lib/mir/src/analysis/expression_conversion.rs: transform"]}
{"id": "C20", "title": "Renaming local variables preserves meaning", "statement": "Alpha conversion changes neither the result nor the side effects of any function, and afterwards no two local binders of a function share a name.", "quantifier": "all programs and inputs", "why_tests_cant": "All programs with all shadowing patterns.", "anchors": ["lib/mir/src/analysis/alpha_conversion.rs: transform_expression", "lib/mir/src/analysis/alpha_conversion/context.rs: rename"]}
{"id": "C21", "title": "Normalization preserves meaning", "statement": "Converting a function to A-normal form and removing aliases changes neither its result nor the order of its side effects.", "quantifier": "all programs and inputs", "why_tests_cant": "All programs with all binding structures.", "anchors": ["lib/mir/src/analysis/normalization.rs: transform_expression", "lib/mir/src/analysis/normalization/alias_removal.rs: transform_expression"]}
{"id": "C22", "title": "A closure captures exactly the variables it needs", "statement": "After environment inference every local function's environment lists, without duplicates, exactly the variables in scope that occur free in its body, so a closure built from the environment alone evaluates as the body would in the full scope.", "quantifier": "all programs and inputs", "why_tests_cant": "All nestings of closures.", "anchors": ["lib/mir/src/analysis/environment_inference.rs: transform_local_function_definition", "lib/mir/src/analysis/free_variable.rs: find_in_expression"]}
{"id": "C23", "title": "Lambda lifting preserves meaning", "statement": "Turning a local function into a global one with extra arguments changes neither the result nor the side effects of any program, and never changes a function that is used as a first-class value.", "quantifier": "all programs and inputs", "why_tests_cant": "All programs.", "anchors": ["lib/mir/src/analysis/lambda_lifting.rs: transform_expression", "lib/mir/src/analysis/lambda_lifting/box_.rs: is_boxed", "lib/mir/src/analysis/lambda_lifting/call.rs: transform"]}
{"id": "C24", "title": "Reference counting is balanced on every path", "statement": "In the code produced by the reference-count transformation every execution path, including early returns through the try operation, uses each reference it owns exactly once: no use or clone after the last reference was given away, no double drop, no leak; and results are unchanged.", "quantifier": "all normalized programs, inputs and execution paths", "why_tests_cant": "Every path of every program.", "anchors": ["lib/mir/src/analysis/reference_count/transformation.rs: transform_expression", "lib/mir/src/analysis/reference_count/validation.rs: move_expression"]}
{"id": "C25", "title": "The reference-count validator accepts exactly balanced code", "statement": "Code accepted by the validator is balanced on every path, and the validator accepts everything the transformation produces.", "quantifier": "all programs", "why_tests_cant": "Every path of every program.", "anchors": ["lib/mir/src/analysis/reference_count/validation.rs: move_expression, validate_let_like"]}
{"id": "C26", "title": "Compiling a whole function preserves its meaning", "statement": "Running the middle-end pipeline (concatenation, renaming, normalization, environment inference, lambda lifting) on a well-typed function does not change what it returns.", "quantifier": "all functions and arguments", "why_tests_cant": "All programs.", "anchors": ["lib/mir-fmm/src/lib.rs: compile"]}
{"id": "C27", "title": "Well-typed programs do not go wrong", "statement": "A program accepted by the middle-end type checker never applies a primitive to a value of the wrong kind, never reads a missing variable or field, and returns a value of its declared type.", "quantifier": "all programs and inputs", "why_tests_cant": "All programs.", "anchors": ["lib/mir/src/analysis/type_check.rs: check_expression"]}
{"id": "C28", "title": "A shared block is freed exactly once, when its last handle goes", "statement": "For any interleaving of clones and drops of a reference-counted handle by any number of threads (after synchronization), the payload is dropped exactly once, by the drop of the last handle, and no handle is used after that; before synchronization the same holds for a single thread.", "quantifier": "all schedules, thread counts and operation sequences", "why_tests_cant": "All interleavings.", "anchors": ["lib/ffi/src/arc/arc_block.rs: clone, drop, synchronize"]}
{"id": "C29", "title": "Mutable access is granted only to a unique handle", "statement": "get_mut succeeds only while exactly one handle exists, and always succeeds then for a non-static, non-empty block.", "quantifier": "all operation sequences and schedules", "why_tests_cant": "All histories.", "anchors": ["lib/ffi/src/arc/arc_block.rs: is_unique, get_mut"]}
{"id": "C30", "title": "The continuation stack returns what was pushed, in reverse", "statement": "Any balanced sequence of pushes and pops on the continuation stack returns the pushed values in last-in first-out order, growth never loses data, and the size stays within capacity and aligned.", "quantifier": "all sequences of pushes and pops of any sizes", "why_tests_cant": "All sequences; reallocation boundaries.", "anchors": ["lib/ffi/src/cps/stack.rs: push, pop, new"]}
{"id": "C31", "title": "The async stack enforces its protocol", "statement": "Only the sequences suspend-resume-restore and trampoline-resume, repeated, succeed; any other order is rejected with an error, and in accepted sequences each step gets back the continuation, step function and future that were stored last.", "quantifier": "all operation sequences", "why_tests_cant": "All sequences.", "anchors": ["lib/ffi/src/cps/async_stack.rs: suspend, trampoline, resume, restore, validate_action"]}
{"id": "C32", "title": "Operator expressions parse by precedence and left associativity", "statement": "Parsing a chain of binary operators yields a tree with the same operands and operators in order in which a parent never binds tighter than its left child nor as tightly as its right child; there is exactly one such tree.", "quantifier": "all chains of operators", "why_tests_cant": "All chain lengths and operator combinations.", "anchors": ["lib/parse/src/operations.rs: reduce_operations", "lib/ast/src/analysis.rs: operator_priority"]}
{"id": "C33", "title": "String literals denote the characters written", "statement": "Writing any byte string as a literal with backslash escapes and compiling the literal yields the same byte string.", "quantifier": "all byte strings", "why_tests_cant": "All byte strings; failing ones mix escapes.", "anchors": ["lib/ast-hir/src/string.rs: compile"]}
{"id": "C34", "title": "File path operations are consistent", "statement": "Setting an extension makes the path have that extension and keeps its directory, joining is associative with the empty path as identity, and a path relative to a directory joined to that directory is the original path.", "quantifier": "all paths and extensions", "why_tests_cant": "All paths.", "anchors": ["lib/app/src/infra/file_path.rs"]}
{"id": "C35", "title": "External packages are ordered by dependency", "statement": "Sorting packages either reports a dependency cycle, when there is one, or lists every package once with each package before the packages it depends on.", "quantifier": "all dependency graphs", "why_tests_cant": "All graphs.", "anchors": ["lib/app/src/external_package_topological_sorter.rs: sort"]}
{"id": "C36", "title": "JSON values survive encoding and decoding", "statement": "Decoding the encoding of any JSON value gives back an equal value.", "quantifier": "all JSON values", "why_tests_cant": "All nested values and strings.", "anchors": ["packages/json/Encode.pen", "packages/json/Decode.pen", "packages/json/Value.pen"]}
{"id": "C37", "title": "Rendered HTML keeps text as text", "statement": "Rendering any valid node produces output in which text and attribute values cannot introduce tags, quotes or attributes, and invalid tag or attribute names are rejected.", "quantifier": "all node trees", "why_tests_cant": "All strings and trees.", "anchors": ["packages/html/Render.pen", "packages/html/validate.pen"]}
{"id": "C38", "title": "Command-line flags parse as documented", "statement": "Parsing any argument list splits it into options and positional arguments, loses no argument, and treats everything after the terminator as positional.", "quantifier": "all argument lists", "why_tests_cant": "All lists.", "anchors": ["packages/flag/Flag.pen"]}
{"id": "C39", "title": "Slicing strings never crashes and returns the requested part", "statement": "For all bounds, slicing a byte string or a view returns exactly the bytes at positions start to end (one-based, inclusive) clipped to the string.", "quantifier": "all strings and numeric bounds", "why_tests_cant": "All bounds including zero, negative and not-a-number.", "anchors": ["packages/core/ffi/src/string/byte.rs", "packages/core/ffi/src/view.rs", "packages/core/String/Byte/View.pen"]}
{"id": "C40", "title": "Coerced programs use each value at its declared type", "statement": "After type coercion every expression position that expects a type gets an expression of an equal type, and coercion inserts conversions only from a subsumed type.", "quantifier": "all accepted programs", "why_tests_cant": "All programs.", "anchors": ["lib/hir/src/analysis/type_coercer.rs", "lib/hir/src/analysis/type_checker.rs", "lib/hir/src/analysis/type_extractor.rs"]}
{"id": "C41", "title": "An error can be propagated only where the function may return one", "statement": "A module passes the try check only if every try operation sits directly in a function or thunk whose result type includes error, and not in a list element evaluated lazily.", "quantifier": "all programs", "why_tests_cant": "All nestings.", "anchors": ["lib/hir/src/analysis/try_operation_validator.rs"]}
{"id": "C42", "title": "No error value is silently discarded", "statement": "A module passes the unused-error check only if no unnamed statement has a type that includes error (other than any).", "quantifier": "all programs", "why_tests_cant": "All programs.", "anchors": ["lib/hir/src/analysis/unused_error_validator.rs"]}
{"id": "C43", "title": "Formatting keeps the program", "statement": "Parsing the formatted text of an expression gives the same expression back.", "quantifier": "all expressions", "why_tests_cant": "All nestings of operators, calls and field accesses.", "anchors": ["lib/format/src/lib.rs: compile_binary_operation, compile_operand, compile_expression", "lib/parse/src/parser.rs: expression"]}
{"id": "C44", "title": "Compiled code and the foreign-function library count references alike", "statement": "The code the compiler emits to clone, drop, synchronize or test a reference performs the same memory actions, whatever it reads, as the library's methods do, so a block can be passed between them.", "quantifier": "all contents of the reference count, at every read", "why_tests_cant": "Counts of all values, read at all points of an interleaving.", "anchors": ["lib/mir-fmm/src/reference_count/pointer.rs: compile_clone_function, drop, synchronize, is_unique", "lib/mir-fmm/src/reference_count/count.rs", "lib/ffi/src/arc/arc_block.rs"]}
{"id": "C45", "title": "Private record fields stay private", "statement": "A module that is accepted constructs, reads and updates the fields of a record only if the record is defined in it or exported with its fields.", "quantifier": "all accepted modules, all expressions in them", "why_tests_cant": "All nestings of all expressions.", "anchors": ["lib/hir/src/analysis/record_field_validator.rs", "lib/hir/src/analysis/expression_visitor.rs"]}
{"id": "C46", "title": "Conversions keep values", "statement": "The code generated for an implicit conversion evaluates its operand exactly once, turns a value of a single type into the tagged value that type switches take apart again, and leaves values of unions and any, and lists and maps whose element types get wider, unchanged.", "quantifier": "all types, all conversions the checker inserts, all values and states", "why_tests_cant": "Ranges over all types, including nested functions, lists and maps, and all values.", "anchors": ["lib/hir-mir/src/expression.rs: TypeCoercion", "lib/hir-mir/src/concrete_type.rs: compile", "lib/hir-mir/src/type_.rs: compile_concrete"]}
{"id": "C47", "title": "A lazy value is computed at most once", "statement": "Once a call of a list element, a spread list or a function without arguments has given a value, every later call of it gives the same value at once and has no other effect.", "quantifier": "all programs, all calls and evaluations in between, all behaviours of the outside", "why_tests_cant": "Ranges over everything that can run between the two calls.", "anchors": ["lib/mir-fmm/src/entry_function.rs: compile_initial_thunk_entry, compile_normal_thunk_entry", "lib/hir-mir/src/transformation/list_literal.rs"]}
{"id": "C48", "title": "Threads that share a lazy value compute it once and agree on it", "statement": "When several threads call a synchronized lazy value, its body is started at most once, all calls that return give the same value, and all calls can return.", "quantifier": "all numbers of threads, all schedules", "why_tests_cant": "Schedules cannot be enumerated by tests, and the window between the load of the entry function and the swap is narrow.", "anchors": ["lib/mir-fmm/src/entry_function.rs: compile_initial_thunk_entry, compile_normal_thunk_entry, compile_locked_thunk_entry", "lib/mir-fmm/src/call.rs: compile"]}
{"id": "C49", "title": "Operations on text count, select and find characters", "statement": "A string that is the UTF-8 encoding of characters has their number as its length, splits into them, has exactly the characters at positions start to end (one-based, inclusive) in its slices, and contains, starts with, ends with or has at a position a pattern exactly if their characters do. Code points convert to characters and back. Other strings have no characters.", "quantifier": "all strings, patterns and numeric bounds", "why_tests_cant": "All strings, including those that are not valid UTF-8, and patterns whose bytes might match in the middle of a character.", "anchors": ["packages/core/ffi/src/string/utf8.rs", "packages/core/String/Utf8.pen", "packages/core/ffi/src/character.rs"]}
{"id": "C50", "title": "Splitting a string and joining the parts gives the string back", "statement": "Joining the parts of a string that was split at a pattern, with the pattern in between, gives the string. No part contains a pattern that is not empty.", "quantifier": "all strings and patterns", "why_tests_cant": "All strings, with overlapping and empty patterns.", "anchors": ["packages/core/ffi/src/string/utf8.rs: _pen_core_utf8_split", "packages/core/String.pen: Join"]}
{"id": "C51", "title": "Encoded JSON values are JSON texts", "statement": "The encoding of a JSON value is a text of the JSON grammar (RFC 8259) that denotes this value.", "quantifier": "all JSON values", "why_tests_cant": "All nested values and all strings, with quotes, backslashes and control characters anywhere.", "anchors": ["packages/json/Encode.pen", "packages/json/ffi/src/lib.rs"]}
{"id": "C52", "title": "JSON texts decode to what they say", "statement": "Decoding a string ends with a value or an error. A text of the JSON grammar (RFC 8259) decodes to the value it denotes, with white space wherever the grammar allows it; a string outside the grammar is an error.", "quantifier": "all strings", "why_tests_cant": "All texts with white space and nesting anywhere, and all strings that are no JSON texts.", "anchors": ["packages/json/Decode.pen", "packages/core/String/Byte/View.pen"]}
{"id": "C53", "title": "Accepted programs pass the compiler's later type check", "statement": "When the front end accepts a module and lowers it, the resulting intermediate code passes the type check that the compiler runs on it later: no accepted program makes the compiler fail there.", "quantifier": "all modules with the prelude, all type definitions, aliases and function bodies", "why_tests_cant": "The lowering inserts conversions, closures and generated functions for every combination of types and expressions; tests run a few programs.", "anchors": ["lib/hir-mir/src/lib.rs", "lib/hir-mir/src/module.rs", "lib/hir-mir/src/expression.rs", "lib/hir-mir/src/type_.rs", "lib/hir-mir/src/type_information.rs", "lib/mir/src/analysis/type_check.rs"]}
{"id": "C54", "title": "Every name refers to what its scope says", "statement": "After name resolution every variable of a module is replaced by what it refers to: a variable bound around it if there is one, otherwise the module's function of that name, otherwise the imported function that goes by it, otherwise the built-in one. Type names likewise. Nothing else in the code changes.", "quantifier": "all modules as the parser leaves them, all imports and prelude interfaces, all file paths", "why_tests_cant": "Six rename passes run one after the other over every kind of expression and scope; a test covers one shadowing at a time.", "anchors": ["lib/ast-hir/src/lib.rs", "lib/ast-hir/src/import.rs", "lib/hir/src/analysis/variable_transformer.rs", "lib/hir/src/analysis/type_transformer.rs", "lib/hir/src/analysis/function_definition_qualifier.rs", "lib/hir/src/analysis/type_qualifier.rs", "lib/hir/src/analysis/built_in_variable_transformer.rs", "lib/hir/src/analysis/built_in_type_transformer.rs"]}
{"id": "C55", "title": "Modules use only what others export, and their names do not clash", "statement": "Compiled code mentions only functions and types of its own module and public ones of the modules it imports. Functions of modules at different paths never get the same name in the linked program.", "quantifier": "all modules, all imports of compiled modules, all file paths", "why_tests_cant": "It concerns every combination of modules in a program.", "anchors": ["lib/ast-hir/src/import.rs", "lib/ast-hir/src/imported_module/validation.rs", "lib/hir-mir/src/module_interface.rs", "lib/hir/src/analysis/function_definition_qualifier.rs"]}
{"id": "C56", "title": "Formatting a module keeps it", "statement": "The text that the formatter prints for a module is accepted by the parser and parses to the same module, up to the order of imports and of imported names.", "quantifier": "all modules, with every kind of definition, type and expression at any depth, and all layouts and comments the formatter may print", "why_tests_cant": "Parentheses, separators and line breaks interact: a text is wrong only for particular nestings of expressions, and there are infinitely many.", "anchors": ["lib/format/src/lib.rs", "lib/parse/src/parser.rs", "lib/parse/src/operations.rs", "lib/ast/src"]}
{"id": "C57", "title": "Layout and comments do not change a program", "statement": "Two texts of a module that differ only in blanks, line ends, comments and trailing commas at the places where the formatter puts them parse to the same module.", "quantifier": "all modules the formatter keeps, all layouts of them", "why_tests_cant": "There are infinitely many layouts of every module.", "anchors": ["lib/parse/src/parser.rs", "lib/format/src/lib.rs"]}
{"id": "C58", "title": "Formatting is idempotent", "statement": "The module that is read from formatted text is printed with the same words, signs and order of definitions and imports again. Its imports are sorted, those of packages first, and so are imported names.", "quantifier": "all modules the formatter keeps, all layouts of them", "why_tests_cant": "Sorting and printing must reach a fixed point for every module, not only for samples.", "anchors": ["lib/format/src/lib.rs", "lib/parse/src/parser.rs"]}
{"id": "C59", "title": "Parsing terminates", "statement": "The parser gives a module or an error for every text: its mutually recursive parsers, its repetitions and its grouping of operations always come to an end, and every type and expression takes at least one character.", "quantifier": "all texts, of any length and nesting", "why_tests_cant": "Recursion without progress shows only on particular texts, as an endless loop.", "anchors": ["lib/parse/src/parser.rs", "lib/parse/src/combinator.rs", "lib/parse/src/operations.rs"]}
{"id": "C60", "title": "Integer literals", "statement": "A binary or hexadecimal literal denotes the number its digits spell in that base: exactly if it is below 2^53. A literal of more than 64 bits is rejected at compile time, and never wraps around.", "quantifier": "all sequences of digits, in upper and lower case, with anything after them", "why_tests_cant": "Tests try a few literals; wrong digits, bases, boundaries and roundings show elsewhere.", "anchors": ["lib/parse/src/parser.rs: number_literal", "lib/ast-hir/src/number.rs: compile"]}
{"id": "C61", "title": "Formatting does not change what a module is compiled to", "statement": "A module and its formatted text are compiled to the same functions and types, or are both rejected for the same reason, unless two of its imports go by the same name.", "quantifier": "all source texts, layouts, imported modules and prefixes of modules", "why_tests_cant": "The formatter reorders imports and drops parentheses; only particular combinations show a difference in the compiled program.", "anchors": ["lib/format/src/lib.rs", "lib/ast-hir/src/lib.rs: compile", "lib/parse/src/lib.rs: parse"]}
{"id": "C62", "title": "Every module that parses is translated", "statement": "The translation of syntax trees rejects a module only because a number literal cannot be read: none of the trees the parser makes lacks the branches the translation needs.", "quantifier": "all source texts", "why_tests_cant": "An error that is meant to be impossible cannot be tested for.", "anchors": ["lib/ast-hir/src/module.rs: compile", "lib/ast-hir/src/error.rs"]}
{"id": "C63", "title": "Compiled programs do what their source says", "statement": "If a call of a function of a program ends with a value according to the meaning of the source (operands from left to right, && and || and if evaluate one side, ? returns early from the nearest function, closures see the variables of the scope they were written in, functions without arguments are evaluated once), then the compiled module run from the same state ends with the representation of that value, having made the same calls of foreign functions and of other modules in the same order with the same arguments. A call that never ends according to the source never ends at run time, and makes the same calls meanwhile.", "quantifier": "all programs the front end accepts, all functions and arguments, all answers of the outside, runs that end and runs that do not", "why_tests_cant": "Expressions nest without bound and each construct interacts with early returns, conversions and captured variables; tests run a few programs.", "anchors": ["lib/hir-mir/src/expression.rs: compile", "lib/hir-mir/src/function_definition.rs", "lib/hir-mir/src/module.rs: compile", "lib/hir-mir/src/lib.rs: compile_module"]}
{"id": "C64", "title": "Generated programs do what their source says", "statement": "When the outside calls functions of a program one after another, the program that all passes of the compiler generate from it (before machine code) makes the same calls of the outside and returns the same results in the same order as the meaning of the source says. If the source says that the last call never ends, the generated program never ends it, and the outside sees the same calls meanwhile.", "quantifier": "all programs the front end accepts, all sequences of calls and arguments, all answers of the outside, sessions that end and sessions that do not", "why_tests_cant": "Each pass has its own assumptions about names and shapes; that every pass gets what the pass before it makes cannot be tested for all programs.", "anchors": ["lib/hir-mir/src/lib.rs: compile_module", "lib/mir-fmm/src/lib.rs: compile", "lib/mir/src/analysis/"]}
{"id": "C65", "title": "The core package's helpers compute what they say", "statement": "Any and All are 'some' and 'every' and evaluate no more elements than they need; First and Last give the end elements and evaluate no others; the conversions of lists of any keep exactly the elements of the type, in order; Maximum and Minimum give the greater and the smaller number; Range counts in steps of one and ends; Sum adds; the bit operations work on each of 64 bits, shifts multiply and divide by powers of two, and integers survive the conversion to 64 bits and back.", "quantifier": "all lists and elements (also ones whose evaluation crashes), all 64-bit floating-point numbers and all 64-bit integers", "why_tests_cant": "The inputs are unbounded lists and all of binary64 and 64-bit integers; limits such as 2^53, NaN and shift counts over 63 are where tests on small numbers pass and programs fail.", "anchors": ["packages/core/Boolean.pen: Any, All", "packages/core/List.pen: First, Last, ToNumbers, ToStrings, ToBooleans", "packages/core/Number.pen: Maximum, Minimum, Range, Sequence, Sum", "packages/core/Bit.pen", "packages/core/ffi/src/bit.rs"]}
{"id": "C66", "title": "Accepted programs do not go wrong", "statement": "A function of an accepted program, called with values of its argument types, ends with a value of its result type or goes on forever. It never gets stuck, neither as its source says nor when it is compiled: no operation meets a value of another type, no case is missing at run time, every function is called with the arguments it takes, and values given back to callers have the declared types.", "quantifier": "all programs the front end accepts, all functions, arguments and states of a running program, all answers of the outside that have the declared types, all bounds on how deep calls may be nested", "why_tests_cant": "The type checker inserts conversions and checks cases for programs of any size and shape; tests run a few programs on a few values, and a missed case shows only on the value that reaches it.", "anchors": ["lib/hir/src/analysis/type_checker.rs: check", "lib/hir/src/analysis/type_coercer.rs", "lib/hir/src/analysis/try_operation_validator.rs", "lib/hir-mir/src/lib.rs: compile_module"]}
{"id": "C67", "title": "The compiler does not crash", "statement": "The compiler's analysis and its translation to the intermediate language accept a program or reject it with an error; they never panic, however wrong the program is.", "quantifier": "all programs with the shapes the parser makes, well typed or not", "why_tests_cant": "Each 'unreachable' and each unchecked index rests on an argument about all programs; a test shows a crash only if somebody thought of the program.", "anchors": ["lib/hir/src/analysis.rs: analyze", "lib/hir/src/analysis/record_field_validator.rs", "lib/hir-mir/src/lib.rs: compile_module", "lib/hir-mir/src/expression.rs: compile"]}
{"id": "C68", "title": "A source text runs as it says", "statement": "When the compiler accepts a source text, calling a function of the text in the compiled code ends with the result that the text's functions define, after the same calls of foreign functions and other modules, and never goes wrong on arguments of the declared types.", "quantifier": "all source texts that are accepted, all their functions and all arguments", "why_tests_cant": "The claim is about the composition of parser, name resolution, analysis and translation on every text; a test runs one text at a time.", "anchors": ["lib/parse/src/lib.rs: parse", "lib/ast-hir/src/lib.rs: compile", "lib/hir/src/analysis.rs: analyze", "lib/hir-mir/src/lib.rs: compile"]}
