# Formal model of pen-lang/pen in Rocq (Coq 8.16.1)

The code in /repo is read as text; nothing in it is built or run. The model is a set of
total Gallina functions under `rocq/theories`. Each definition cites the file and lines it
models. Proof scripts are kept in separate files (`*Proofs.v`) and the theorems that state
the properties, with non-vacuity examples and `Print Assumptions`, are in `Props*.v`.

## Plan, property by property

| id | model | proof |
|----|-------|-------|
| C01-C05 | HIR types, canonicalizer, equality, subsumption, difference, type ids. A `BTreeSet<Type>` is a strictly sorted list under the derived order. Recursion through aliases uses fuel; "the result is c" means some fuel gives c. | induction on fuel and type structure; canonical forms characterised by sorted member lists |
| C02 | alias graph and its acyclicity check | rank function from acyclicity gives enough fuel |
| C06 | impossible record validator, inductive value-of-type relation | induction on values; refutation by witness for the converse |
| C07 | comparability checker with record cache | reachability invariant of the cache |
| C08 | if-type check, lowering to MIR case, tag dispatch | case analysis on canonical members |
| C09, C10 | the equality and hash code that the lowering generates, run together with the compiled prelude; data as an inductive type, with a relation to run-time values | induction on data; foreign string comparison and hashes are hypotheses about the outside |
| C11-C17 | prelude HAMT as an inductive tree; equality and hash of keys are section variables | invariant "each key sits on its hash path" and refinement to an association list; delete and collision bugs refuted by witnesses |
| C18 | List.pen as HIR terms, run through the modelled analyses and lowering (PreludeList.v) | symbolic execution of the resulting MIR code; a list denotes the sequence of elements a walk gives |
| C19-C27 | MIR expressions with a big-step fuelled interpreter; each pass is a function on expressions | simulation by induction on fuel; ownership semantics for reference counts; each pass is shown to make what reference counting needs (MirReady.v, MirReadyNames.v, LowerPlain.v) by induction on expressions |
| C28, C29 | reference count word as a labelled transition system over threads | invariant over all reachable states |
| C30, C31 | byte stack with capacity; async action stack | refinement to a list / to a protocol automaton |
| C32 | `reduce_operations` | well-formedness and uniqueness of precedence trees |
| C33 | sequence of substring replacements | refutation by witness; partial theorem for the strings where it holds |
| C34, C35 | file paths as component lists; topological sort | list induction |
| C36, C51, C52 | encoder and decoder of JSON over views; RFC 8259 as a relation between texts and values | induction on values, on derivations of the grammar and on the rest of the text; refutations by witness |
| C37 | rendering of HTML nodes; a reader that follows the tokenization of the HTML standard | induction on nodes: running the reader on the output; refutations by witness |
| C38 | the flag package; the documented format as a relation | induction on the arguments |
| C39 | slices and views of byte strings, with numbers as IEEE 754 binary64 | exactness of the arithmetic on small integers; invariant of views; refutations by witness |
| C49, C50 | UTF-8 operations over byte strings; the encoding of characters as a separate specification | validity table against the encoding; a text can only stand where a character begins |
| C40-C42, C45 | HIR expressions, type extractor, inferrer, checker, coercer and validators (Hir*.v) | typing relation without implicit conversions; structural induction on expressions; C42 and C45 refuted inside comprehension conditions; C45 is also followed across source texts (PropsPrivateText.v): a record with a private field is exported closed, importing modules pass it on closed, and accepted ones do not access its fields outside those conditions, where `context_ok` and `types_known` are hypotheses |
| C46 | lowering of conversions | tags of values identify their types |
| C47 | thunks in the MIR semantics | invariant of all calls: a filled cell stays as it is |
| C48 | entry functions of thunks as a transition system over threads | invariant over all reachable states; the stuck state after an early return is refuted by witness |
| C53 | whole modules: analysis, lowering, generated equality, hash, context, debug and type information functions (HirProgram.v), the MIR type checker | induction on the exact typing of the analyzed program; an invariant on names; tracking of the type search through the four generating passes (LowerNeeds.v to LowerSearch.v); refutations by witness |
| C54, C55 | name resolution of modules: import renaming, qualification, built-in names, interfaces (Resolve.v); from source texts with the parser and the translation (Desugar.v) | an independent relation between written and resolved code (ResolveSpec.v), and one between syntax and code (SourceMeans.v); induction on expressions with all six passes at once; refutations by witness |
| C43 | operator parser and formatter over tokens | induction on expressions; refuted in general, proved for the fragment the formatter keeps |
| C56, C57, C58 | the whole parser, character by character (Parser.v), and the formatter's documents with all their layouts (Printer.v) | the trees the formatter keeps are described without parser or formatter (ParserSpec.v); induction on the depth of the text, with one lemma per kind of syntax; refutations by computed witnesses |
| C59 | the same parser | parsers that agree on shorter texts agree on a text (ParserFuel.v), since every recursive call comes after at least one character (ParserSound*.v) |
| C60, C62 | the translation of syntax trees to HIR (Desugar.v) | induction on the size of expressions; digits by positional notation; doubles by the standard library's SpecFloat |
| C61 | parser, formatter, translation and name resolution together (`compile_text`) | resolved code is unique (ResolveUnique.v), and the references of names do not depend on the order of imports; refuted for imports that go by the same name |
| C63 | a meaning of analyzed source programs that knows nothing of the lowering (HirMeaning.v), and how its values look at run time (MeaningSpec.v); the lowering and MIR's meaning as before | induction on the derivation of the source's meaning, one lemma per kind of expression (LowerMeaning.v); == on records and unions by C09's lemmas about the generated equality functions; the compiled module has what that needs because of C53's invariants (MeaningProgram.v); for runs that never end, an endless sequence of nested source evaluations (HirForever.v) is followed by the code, by induction on the bound on calls and then on the nesting of expressions (MirFuel.v, MeaningForever.v) |
| C64 | sessions of calls at source level and what the outside sees of them (SessionSpec.v); nothing else new: C63's lowering, C26's passes and C24's reference counting in sequence | C63 for each call of the session, then the refinements of C26 and C24; a call in a world that makes no calls logs no results (QuietWorld.v); compiled programs are checked to meet the conditions of the passes (MirSourceCheck.v) |
| C65 | the helpers of packages/core on lists of lazy elements, binary64 numbers and 64-bit integers | induction on lists and on the length of a range; exactness of arithmetic on integers below 2^53; bitwise extensionality |
| C66 | values of types, and calls nested deeper and deeper, for the meaning of analyzed source programs (SafeSpec.v); the analysis and the lowering as before | for each bound on nested calls, induction on the size of expressions: every exactly typed expression gives a value of its type, returns a value of the result type, or nests calls that deep (SafeProofs.v); C40's result that analysis makes exactly typed modules gives the hypotheses for whole programs; nested calls at source level are nested calls at run time (SafeProgram.v) |
| C67 | a Rust panic (`unreachable!`, `unwrap`, indexing) on the paths of analysis and lowering is `Panic` in their models; `CrashSpec.shaped_program` is what the parser and the translation of syntax trees guarantee | induction on expressions, function by function: no step of analysis makes `Panic` of anything (CrashBase.v, CrashAnalysis.v); analysed and generated functions have what each translation step relies on, such as annotated branches that are not `any`, and translation keeps clear of `Panic` on them (CrashLower.v, CrashNodes.v, CrashProgram.v); what the parser makes, translated and with its names resolved, has these shapes and no annotations, so the statements hold of source texts (CrashSource.v, CrashSourceSpec.v, PropsCrashSource.v) |
| C68 | the models of the parser, of the translation of syntax, of name resolution, of analysis and of the translation to MIR in a row (`compile_text`, `CrashSourceSpec.module_program`, `compile_program`) | composition: what the parser makes is what the theorems about programs ask for (CrashSource.v), so those of PropsMeaning.v and PropsSafe.v hold of texts (PropsTextRun.v) |
| C44 | memory actions of generated and library code | case analysis on the values read |

## Trusted base

* Coq 8.16.1's kernel (checked again by `coqchk`).
* `Print Assumptions` says "Closed under the global context" for every theorem in the
  `Props*.v` files: no axioms are used. `coqchk` also lists seven axioms of
  `Coq.ssr.ssrunder`, which some standard library file loads and no theorem uses.
* The reading of the Rust and Pen sources that each comment cites: the model is written by
  hand, and each simplification is noted at the definition.
* Stand-ins for libraries that are not in /repo: siphasher's SipHash-2-4 is written out from its
  specification (Hash.v); petgraph's `toposort` is modelled by removing nodes without incoming edges one by one, which
  has the same contract but may pick another of several possible orders (Graph.v); `BTreeSet` is a strictly sorted list; `FnvHashMap` is an
  association list; Rust's `str` functions (UTF-8 validation, find, split) follow their documentation
  (PkgUtf8.v), and so does the crate html_escape (PkgHtml.v). How Rust writes and reads numbers is a parameter
  of the JSON theorems.
* The meaning of MIR (Mir.v) is our reading of what lib/mir-fmm generates. Number arithmetic
  and comparison, and everything outside the module, are parameters (`world`), so theorems hold
  for any of them.

## What is modelled

| part of /repo | files |
|---------------|-------|
| lib/hir types, canonicalizer, equality, subsumption, difference, type ids, comparability, impossible records, module checks | HirType, HirTypeModule |
| lib/hir expressions, type extractor, inferrer, checker, coercer, validators, and their order | Hir, HirCheck, HirCoerce, HirInfer, HirValidate |
| lib/hir-mir: expressions, types, transformations (equality, hash, list, map, if-list, if-map, comprehension, built-ins) | HirMir |
| lib/mir: alpha conversion, concatenation flattening, normalization, alias removal, environment inference, lambda lifting, type checker, reference counting and its validator, their order | Mir* |
| lib/mir-fmm: the meaning of expressions, calls, thunks; the thunk protocol between threads; reference-count operations of generated code | Mir, ThunkProtocol, Arc |
| lib/ffi: arc blocks, continuation stacks, async stacks | Arc, CpsStack |
| lib/parse, lib/ast-hir, lib/format: operators, string literals | Syntax, Literal |
| lib/parse: the whole parser from characters to syntax trees, without positions and error messages; lib/format: documents of every definition, type and expression | Ast, Parser, Printer |
| lib/ast-hir: the translation of modules, numbers and strings, without positions and foreign exports; `str::parse::<f64>` is a parameter | Desugar |
| lib/ast-hir: imports, qualification and built-in names of modules; lib/hir-mir: module interfaces | Resolve |
| lib/app: file paths, external package order | Literal, PackageSort |
| packages/core strings: byte slices, views, UTF-8 operations, code points; packages/flag | Float, PkgBytes, PkgUtf8, PkgFlag |
| packages/core: Boolean, List, Bit; Maximum, Minimum, Range, Sequence and Sum of Number | PkgCore |
| packages/html, packages/json | PkgHtml, PkgJson |
| packages/prelude: Map.pen, List.pen, hash primitives | Hamt, PreludeList, Hash |

## What is not modelled

* Code generation below the meaning of MIR: FMM, LLVM, memory layout, alignment except where a
  finding needs it, weak memory orderings (all concurrent models are sequentially consistent).
* The runtime's scheduler (`spawn`, `race`, tokio), OS and I/O packages, foreign functions
  other than through the arbitrary `world`.
* Source positions, error messages of the parser, and the choice of line breaks in the formatter
  (theorems hold for every choice; where comments go is left open); module, package and build-script management except file paths and package order.
* Floating-point numbers in compiled code: they are bit patterns with arbitrary arithmetic. The
  package models use the standard library's specification of IEEE 754 arithmetic (SpecFloat),
  with one NaN.
* Resource limits: stack depth, memory, integer overflow of reference counts.
* Maps at the level of MIR: Map.pen is modelled as functions on trees (Hamt.v), with the
  comparison and the hash of keys as parameters.

## Findings

Places where the code does not do what one would expect. Where a theorem gives a computed witness,
it is named. The others come from reading the code only and no theorem backs them.

With a theorem:

1. Map delete loses other keys: `map_delete_refuted` (C16).
2. Map set does not terminate when different keys have the same hash:
   `map_set_collision_refuted`, `map_set_nan_refuted` (C17).
3. The check for records without values misses some: `impossible_record_complete_refuted` (C06).
4. Some string literals do not denote the characters written: `string_literal_refuted` (C33).
5. Two arguments of a local function with one name get one new name: `renaming_distinct_refuted`
   (C20).
6. Normalization changes the meaning of a function whose let expressions bind an argument's name
   again: `normalization_preserves_behaviour_refuted` (C21), `middle_end_reused_argument_refuted` (C26).
7. Lambda lifting makes a closed local thunk a global: `lifting_preserves_behaviour_refuted` (C23),
   `middle_end_closed_thunk_refuted` (C26).
8. Reference counting of code not in normal form gives a reference away before cloning it:
   `not_normal_reference_refuted` (C24). Try operations can become unbalanced:
   `other_try_reference_refuted` (C24).
9. The reference-count validator accepts unbalanced code: `validated_late_clone_refuted`,
   `validated_shadowed_return_refuted` (C25). It panics on a case without branches:
   `empty_case_refuted`.
10. The MIR type checker accepts modules that go wrong: `missing_alternative_refuted`,
    `missing_environment_refuted`, `wrong_environment_refuted`, `hidden_fallback_refuted` (C27).
11. Arc blocks with an empty payload: `arc_empty_payload_refuted` (C28).
12. Continuation stacks: `stack_alignment_refuted`, `stack_zero_capacity_refuted` (C30). The async
    stack's protocol: `async_protocol_refuted` (C31).
13. Joining a relative path: `path_join_of_relative_refuted` (C34).
14. Type identifiers clash for some record names: `type_id_any_name_refuted` (C05).
15. The formatter drops parentheses: `format_refuted` (C43).
16. Visitors skip the conditions of list comprehensions, so errors discarded there and private
    fields used there are not reported: `no_error_discarded_refuted` (C42),
    `private_fields_kept_refuted` (C45).
17. A try operation inside a thunk leaves the entry function without storing the value and without
    unlocking. Later calls of a function without arguments then wait forever:
    `shared_thunk_can_finish_refuted` (C48).
18. `==` at type none drops its operands without evaluating them:
    `equal_none_drops_operands_refuted` (C09).
19. `hashNode` in List.pen gives the node instead of the element to the hash function, so hashing a
    list with an element has no meaning: `list_hash_refuted` (C10).
20. The code that hashes a record with a field of a type such as `number | number` matches on a
    value that is no variant, and the type checker refuses it: `redundant_union_hash_refuted` (C10).
21. A string slice from 0 crashes and one to NaN is the whole string: `byte_slice_start_refuted`,
    `byte_slice_nan_refuted` (C39). A view to a negative position crashes when it is used:
    `view_slice_negative_refuted`. UTF-8 slices from or to NaN have characters, an empty pattern is
    not found in an empty string, and negative code points are taken as 0: `text_slice_nan_refuted`,
    `text_find_empty_refuted`, `negative_code_point_refuted` (C49).
22. JSON strings with backslashes change or cannot be decoded; strings with quotes that are not
    UTF-8 and infinities cannot be decoded: `json_backslash_refuted`, `json_invalid_string_refuted`,
    `json_infinity_refuted` (C36). Control characters are not escaped: `json_control_refuted` (C51).
    The decoder does not know escapes, exponents and carriage returns and accepts `1.`:
    `json_decode_refuted`, `json_accepts_other_text_refuted` (C52).
23. HTML: tags that start with a hyphen are text, the text of style elements changes, text that is
    not UTF-8 disappears and headings are rejected: `html_hyphen_tag_refuted`, `html_style_refuted`,
    `html_invalid_text_refuted`, `html_heading_refuted` (C37).

From reading only:

24. HTML attributes are rendered without a separator, and elements without children as `<p/>`, which
    browsers take for an opening tag.
25. The string builder drops a string when its block is shared; bit shifts by 64 or more overflow.
26. The type inferrer does not look into thunks' types.
27. Normalization turns `DropVariables` into `CloneVariables`.
28. The MIR type checker panics on record updates out of bounds.
29. Hidden in comprehension conditions, types are not collected by the lowering; iteratee types
    are collected only when they are literally lists; types needed by the generated code of
    `keys`, `values`, `race`, `delete` and `go` are not collected. The compiled module then fails
    the later type check: `race_element_refuted`, `values_component_refuted`,
    `spawn_result_refuted`, `alias_iteratee_refuted`, `condition_conversion_refuted` (C53).
30. The checker scopes the iteratees of a comprehension one after the other; other passes in parallel.
31. Duplicate record fields are accepted (`duplicate_field_refuted`, C53).
32. The lowering of if-map binds the variable in the else branch too: `if_map_else_refuted` (C53).
33. `debug(e)`, `_reflectDebug(e)` and `_reflectEqual(e, _)` evaluate `e` twice.
34. In `{...f(), ...g()}` the later spread is evaluated first
35. `?` in a function whose result type is exactly `error` compiles to code that fails the later
    type check: `try_in_error_function_refuted` (C53).
36. A variable named `__debug`, `__race` or `__spawn` hides the runtime's function:
    `runtime_name_refuted` (C53).
37. `keys(m?)`, `values(m?)` and `race(x?)` put the `?` into a thunk of another type:
    `try_in_keys_refuted` (C53).
38. A map type with a key type that cannot be compared may be written, and then fails the later
    type check: `map_key_refuted` (C53).
39. Operands of `==` whose type contains `any`, `error` or a function inside a list are accepted
    (only the operand's own type is checked), and then fail the later type check:
    `incomparable_operands_refuted` (C53).
40. An unqualified import hides a foreign import of the same name in the module itself:
    `foreign_import_hidden_refuted` (C54).
41. Two imports may go by the same name, and the last one wins silently:
    `ambiguous_imports_refuted` (C54).
42. The unqualified import of a private type is accepted, and the name is then unknown:
    `private_unqualified_name_refuted` (C54).
43. The formatter drops the parentheses of a condition that begins with a list, and the text is a
    syntax error: `format_condition_refuted` (C56).
44. The formatter drops the parentheses of a function type that is the last member of a union, and
    the text is a syntax error: `format_union_refuted` (C56).
45. A statement that is a name, followed by a map, becomes a record when it is formatted:
    `format_statement_refuted` (C56).
46. A statement followed by a negative number becomes a subtraction when it is formatted:
    `format_sign_refuted` (C56).
47. With two imports that go by the same name (finding 41), formatting a module changes which function
    it calls, for the formatter sorts imports: `format_ambiguous_imports_refuted` (C61).
48. A function of a source program that gives its argument another name and then binds the argument's
    name again is compiled wrongly: `\(x number) number { y = x; x = 2; x + y }` gives 4 for 1. It is
    finding 6 seen from the source: `executable_rebound_argument_refuted` (C64).
49. An argument of a function leaks when a type test gives its name to another variable, `?` returns early
    there and the argument is used afterwards:
    `\(x string | none) number | error { y = if x = x as string { half(x)? } else { 0 }; keep(x) + y }`.
    Renaming keeps the second `x` because it does not know arguments (finding 6), and reference counting takes
    the two for one variable; the validator does not notice: `executable_leaks_refuted`,
    `hidden_reference_refuted` (C24).
50. `Number'Range` has no end when adding one does not change the number, as in
    `Range(9007199254740992, 9007199254740992)` or with a NaN: `range_endless_refuted` (C65).
51. `Bit'LeftShift(x, 64)` and `Bit'RightShift(x, 64)` give `x`: the library is built in release mode, where Rust
    takes shift counts modulo 64: `long_shift_refuted` (C65).
52. `Bit'ToInteger64` turns negative integers into 0: `negative_integer_refuted` (C65).
