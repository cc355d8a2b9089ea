# Formal model of google/crubit in Rocq (Coq 8.16.1)

## Layout

`rocq/theories/<Component>/` holds, per component,

* `Model.v`  – executable Gallina transcription of the code (relations where the code iterates over hash sets),
  each definition citing file and lines in `/repo` and naming its simplifications;
* `Spec.v`   – the independent specification: plain-maths definitions that do not mention the model's helpers;
* `Proofs.v` (or several proof files) – lemmas;
* `Props.v`  – the property theorems only, each followed by `Print Assumptions`, plus `Example`s showing that the
  hypotheses are met by a concrete non-trivial case.

`rocq/theories/Common` holds shared definitions (strings as lists of bytes/characters, string replacement, ordered
maps). `properties.jsonl` states the properties, `MANIFEST.json` maps each to its theorems, `seeded/LOG.jsonl` records
the wrong programs the theorems were tested against. `tools/update.py` regenerates `_CoqProject` and `MANIFEST.json`
from `tools/claims.py`.

A theorem named `…_refuted` proves that a claim (or a stronger reading of it) is false of the faithful model and gives a
witness; `…_partial` proves a part of the claim, with the missing part named beside it.

## Trusted base

* The Coq 8.16.1 kernel, including its `vm_compute` reduction machine (used for concrete examples and for finite
  sweeps whose domain is a finite type or a list in the code, e.g. the keyword tables and the UTF-8 DFA table).
* `Print Assumptions` is printed under each property theorem. Result for every one of them:
  **Closed under the global context** – no axioms, neither of the standard library nor our own.
  (A scan of all loaded libraries lists the seven `Coq.ssr.ssrunder.Under_rel.*` parameters: they belong to a module of the
  standard library that is loaded through it; no theorem here depends on them.)
* The reading of the Rust/C++ source. No code is executed; the tie is the per-definition citation.
* Modelling conventions
  * `usize`/`u64`/`u32` counters are unbounded `nat`/`N` unless the property is about wrap-around
    (C09 `u8` index, C29 32-bit counters) – each such place is named in the definition's comment;
  * `HashMap`/`HashSet`/`DenseMap` iteration order is an arbitrary permutation (an explicit parameter or a relation),
    universally quantified;
  * `RefCell`/`Cell` mutation is state passing; panics and aborts are explicit values;
  * external code appears as parameters with the contract stated in the theorem: `BinaryHeap` (pop returns a maximum),
    `sort` (any sorted permutation), `bumpalo` (disjoint regions), Unicode XID and digit tables (arbitrary predicates);
    `str::from_utf8`, `utf8_chunks`, `str::replace`, `regex` with the one pattern used, `std::string_view` comparison are
    modelled from their documentation.

## Per property: what is modelled and how it is proved

| id | component | model | proof method |
|----|-----------|-------|--------------|
| C01–C05 | Toposort | `toposort.rs` whole; graph as association list, hash order and heap layout as parameters | loop invariant of Kahn's algorithm; greedy characterisation gives determinism; witness for ties (C05) |
| C06–C08, C10 | Memoized | query bodies as interaction trees, `internal_memoized_call` with memo table, active table, cycle counter | induction on fuel with a frame invariant; order dependence refuted by witness (C10) |
| C09 | Memoized | `memoized!` tables indexed by a wrapping `u8` | invariant over operation histories; witness with 257 databases |
| C11 | Interner | hash set of references + arena contract + a concrete downward bump allocator | invariant over histories; witness for zero-sized values |
| C12, C13 | Bridge | schemas as an inductive type, buffers as byte lists, both languages' encoders and decoders | induction on schemas; evaluation order of arguments as parameter |
| C14–C16 | BazelLabel | whole `bazel_label.rs` on Unicode strings | prefix-code decoder; order laws lifted from lexicographic order |
| C17, C18, C38–C40 | CodeGen | escaping, keyword checks, `format_cc_ident`, includes, pointer-type parsing of `code_gen_utils.rs` | decoder; sweeps over the keyword lists lifted to all strings; B-tree map/set laws |
| C19 | Features | flags as a finite type, sets as bit masks | fold lemmas |
| C20, C21, C42–C44 | ErrorReport | `error_report.rs` state machine, `arc_anyhow.rs` error values | refinement to a log specification over all well-nested histories; string-replacement lemmas |
| C41 | DynFormat | parser and formatter | grammar relation, both directions |
| C22–C25 | TokenPrinter | token trees, printer state, captures | structural induction over token trees; string search lemmas |
| C26, C27, C45 | Lossy | UTF-8 chunks, incomplete buffer, sinks with arbitrary failing behaviour | refinement to the relation "lossy decoding" |
| C28, C46 | Aliasing | both sweeps of the C++ check, wrapper generation | sweep invariant over any sorted permutation |
| C29–C31 | NullInfer | `merge.cc`, `inference.proto` maps | merge-tree induction; case analysis of the verdict |
| C33, C34, C47, C48 | Lifetimes | constraints, closure worklist, substitutions, application to a signature | worklist invariant; relations over all iteration orders |
| C32, C49 | PointsTo | object sets, points-to maps, lifetime lattice join | set/map laws |
| C35, C50 | Namespaces | trie merging, namespace collection | trie paths; witnesses |
| C36, C37, C51–C56 | LifetimeNames | `lifetime_defaults_transform.rs` (binding context, state folding, functions, records, aliases) | history invariant; pigeonhole for termination of the name search; scoping relations |
| C57–C60 | RsStd | `is_utf8.h`, `str_ref.h`, `char.h/.cc`, `slice_ref.h` | DFA simulation against Unicode's definition; digit arithmetic |
| C61–C64 | RsOption | `option.h`, `result.h`, `move_assign.h`, generated members; byte storage plus object liveness | invariant over all histories of member calls |
| C65, C66 | RsVec | generated `Vec` offsets and accessors, `Tuple` members | search lemma over layout trees; induction over elements |
| C67, C68 | CcVector | vector.rs over an explicit heap (cells, allocations, ASan shadow); allocator placement and growth are choices | simulation of a list semantics; separation-style ownership invariant |
| C69, C70 | CcVector | panics inside `mutate_self_as_vec`; annotations | same invariant, with and without the poisoned-tail clause; two refutations |
| C71–C74 | CcShared | every thread's calls as tasks advanced one atomic access at a time; control blocks with libc++'s counts | counting invariant (stored count = number of owners), reachability invariant for projected pointers, age order for acyclicity, lexicographic measure for termination; C74 refuted |
| C75–C78 | CppClass | generated special member functions and call wrappers for a Rust type as operations on objects holding named Rust values | ownership invariant over all histories; data specified by a function on what C++ sees; MemSwap on bytes; counterexamples for every type of the excluded kinds |
| C79–C84 | Thunk | both halves of a call from C++ to a Rust function (C++ wrapper, extern "C" declaration, Rust thunk) executed on one memory of typed cells, for all nested types | induction on types; values specified by a conversion function on types; names by an injectivity argument on name paths; counterexamples where the generator is wrong |
| C85–C90 | RecordLayout | the generator of fields, paddings, align attribute, static assertions and accessors for C++ records; rustc's repr(C) layout; specification: placement of members by the Itanium ABI | induction along the member list with an invariant that links the position in C++ to the position in Rust; arithmetic of round_up on powers of 2; counterexample classes |
| C91–C94 | Ints | IntegerConstant, its literal and rustc's typing of it; the integer types of ffi_11, their conversions, on all targets; specification: widths and signs of C++ types, intN_t, the integers a type holds | case analysis over types and targets, linear arithmetic for all values; counterexamples |
| C95–C99 | RecordTraits | kinds of special members, Drop/Copy/Clone decisions, wrappers of field types, rustc's checks of derives and unions, drop glue; specification: C++ classes as trees, trivial members, order of destruction with paths | induction on the tree of subobjects (nested inductive with its own principle); counterexample classes |
| C100–C102 | ModNames | resolve_names in both passes, coalescing, record_to_associated_module_name, emission of `pub mod`; specification: which declarations may share a name in C++ | invariants of the map over the list of items; freshness of the suffix loop by pigeonhole; counterexample scopes |
| C103–C105 | Visibility | the stack-based type iterator, target restrictions, type_visibility, feature checks, has_bindings of functions, records and aliases, visibility of fields, variables and trait impls; specification: parts of a Rust type, spelled paths | iterator = recursive preorder; invariants of the fold over restrictions; counterexamples for all feature sets |
| C106–C108 | Overloads | overload_sets with ranks, is_ambiguous_function, get_binding, the shapes of ==, != and <, the generated eq/lt/partial_cmp and the default methods of core::cmp; specification: unique choice, PartialOrd contract | invariant of the fold (best candidate so far), permutation invariance, case analysis; counterexamples |
| C109–C111 | Inherit | GetUnambiguousPublicBases with clang's lookupInBases (visit log, virtual bases visited once, access merging), offsets, the Inherits impl, inherited member functions; specification: C++ subobjects as paths after the last virtual edge, name lookup by dominance | one round = run with a fixed target; DFS invariant: every subobject is expanded once; counting lemma; counterexamples |
| C112–C117 | Ctor | constructor programs run on a memory of objects with a log of constructions and destructions, drop glue with panicking destructors, the drop guards of ctor!, Box/Rc/Arc emplace, Slot, reconstruct; specification: exactly-once lives of objects, Result algebra | induction on constructor programs with frame and footprint lemmas; invariant of slot histories; counterexamples |
| C118, C119 | Callable | the three words of a DynCallable (storage, manager, invoker) through histories of operations; specification: handles are empty, own a closure, or are spent | simulation with a specification machine plus an ownership invariant; counterexamples |
| C120, C121 | Movable | rs::Movable cells and Slot transfers with a log of constructions and destructions; specification: optional values | simulation with the specification machine; ownership invariant (Own) |
| C122, C123 | Async | handles of futures, scripts for arbitrary futures, reference-counted or copying C++ wakers, Rust's vtable; specification: exactly-once lives, std::task::Waker on lists of tasks | ownership invariant (Own) and reference-count invariant over all histories; per-step refinement of the waker specification |
| C124 | IterAdapter | the adapter with a value or pointer source, big-step C++ range for; specification: Rust's for loop | induction on the loops |
| C125, C126, C127 | NullState | formulas, flow condition tokens, sound solvers; null states of pointers, verdicts, join, widen; specification: valuations that reach a point | semantics of formulas; extension of valuations by fresh atoms; a measure for widening; counterexamples with a truth-table solver proved exact |
| C128, C129, C130 | TypeNull | Clang types as trees of sugar and canonical nodes, template contexts, the nullability walker, rebuilding; specification: meaning of a type as an annotated canonical tree, arguments as values | relation between the walker's contexts and the lexical ones (arguments walked in a lagging context), induction on the cost of expansion; mutual induction on types |
| C131, C132, C133, C134 | Forward | Rust types with a CppType::Name, the coercion impls, size_of and the size assertion, generated symbols; specification: documented casts as a relation, the tree of C++ objects read from a memory at a type | induction on types; a constant memory separates all differing strides; bracket-matching for symbols |
| C135, C136, C137 | CcString | heap of std::string objects with Rust, C++ and buffer variables; string_view/slice conversion; unique_ptr over a log of destroy and free; specification: strings as values, log shapes | simulation by value semantics with an ownership invariant; case analysis; invariant over typed programs |
| C138 - C142 | CppCall | passing conventions, the Rust declaration and C++ definition of thunks, evaluation of the C++ thunk and of the Rust body over a heap of temporaries with a call log; names in both scopes; accessor offsets over a byte memory; specification: ABI classes, relations for arguments and results with their own alias resolution, field location through bases | case analysis over types; induction over parameter lists with an ownership invariant of temporaries; word arguments on reversed strings; layout induction |
| C143 - C149 | InlineCpp | the macro scanner over lexer tokens with byte offsets, lines and columns; FNV-1a and thunk names; the header; signature check; the formatter with clang-format as a parameter; the placeholder arity; specification: invocations, balanced bodies, positions counted from the text, presumed #line positions, splicing | induction over tokens with a scanner invariant; injectivity of FNV-1a on position suffixes by modular arithmetic; white space quotients |
| C150 - C154 | FnLifetimes | trees of value, object and function lifetimes; constraint collection with composed requirements; restriction to the callable; isomorphism; the override loop on top of the model of ApplyToFunctionLifetimes; traversal, HasAny, substitution; specification: lifetimes as times of death, an inductive variance relation "can be used where", usability as completion of meanings | mutual induction over the trees; suprema over reachable lifetimes to complete a meaning; C48's union-find theorems for the overrides |
| C155 - C158 | LifetimeDecl | the symbol table with its name sequence; creation of lifetimes for types as written (attributes, lifetime parameters, template arguments, functions) from a source of lifetimes; sources for attributes with elision and for annotation strings; the lexer on names and punctuation; printing; specification: words counted in bijective base 26, places of a type in order, values that fit lifetimes at places, elision | invariant of the table over histories; mutual induction over types; lexing of concatenated texts |
| C159 - C163 | PtTransfer | all transfer functions of the lifetime analysis over CFG elements, initializers, assignment and equality constraints, over an abstract object repository; specification: a machine with memory locations and evaluated expressions, a step relation per statement, runs over a control flow graph, what it means for a state to describe a machine; demanded constraints by induction over levels | simulation for every statement and induction over runs; invariant over all schedules of transfers and joins; invariant of the worklist of visited pairs; measure on unseen pairs; fuel-independent recursion |
| C164 - C166 | CallOrder | AnalyzeFunctionRecursive with its stack, cycle marks and overrides traversals, the iteration over cycles, the update with overriders, for any analysis of single functions; specification: the call graph, reachability, recursion, results that follow from the bodies, combined results of a hierarchy | invariants of the depth-first search (distinct stack, marked suffixes, explored callees), induction over the recursion depth with the stack bounded by the number of functions; well-founded induction for uniqueness; counterexamples |
| C167 - C170 | MustBind | GetDeclItem with its cache, ImportDecl, the shared flag of the function importer, SetMustBindItem, nesting of items, generate_item with error recovery, fatal errors, the verdict of the run; specification: paths of scopes, annotated, accessible, what a declaration got in the output, which imports a declaration may trigger | invariant of the recursive import (new entries, flag, closed scopes), induction over the recursion depth; induction over paths and item trees; termination by counting uncached declarations; counterexamples |
| C171 - C175 | NsEmit | make_ir's numbering of blocks, generate_namespace and generate_item's recovery, ApiSnippets::append and merge, generated_items_to_tokens for namespaces; specification: occurrences of items inside blocks, what the source has at a path of namespaces, what the output has in a module, notes | contributions of a forest to each key and their merge; all blocks of a namespace are side by side in the merged tree (induction over the path); the last number belongs to the last bindable block; induction over the printing depth; counterexamples |
| C176 - C180 | IrTree | the importer's source order, listings of containers and targets, out-of-line members, post-order copying into the IR tree; specification: source order as an inductive relation, free comments, members, complete items | strict weak order by cases and string induction; stable insertion sort and uniqueness without ties; filters for the comment map; depth-first search invariant (visited but unfinished ids are less deep); induction over the copying order; counterexample |
| C181 | PtTransfer | calls, member operators, indirect calls, constructors; specification: which initializer parts are passed to which object, possible callees, arguments and receivers, receiving | invariant over callees, arguments and initializer lists: only pointers' entries grow and expressions do not change |
| C182, C183 | Canon | the loop over redeclarations of classes and the choice for functions, over Clang's circular chain starting anywhere; specification: what stands for a class in a target | induction over the loop with the candidate so far; uniqueness of definition or first place; counterexample |
<!-- more rows below, appended as the model grows -->

## Which parts of the code are modelled

| component | files of /repo | simplifications |
|-----------|----------------|-----------------|
| Toposort | `cc_bindings_from_rs/toposort.rs` | none beyond the conventions |
| Memoized | `common/memoized.rs` | generated code represented by the functions it expands to; one thread; `u32` depth unbounded |
| Interner | `common/interner.rs` | addresses are numbers |
| Bridge | `support/crubit_bridge_rust/src/bridge.rs`, `support/bridge.h` | primitive types by size and byte order; user conversions are bijections on abstract values |
| BazelLabel | `rs_bindings_from_cc/bazel_label.rs` | – |
| CodeGen | `common/code_gen_utils.rs` (parts named by C17, C18, C38–C40) | token streams as strings; `syn` identifier parsing as a predicate plus trimming |
| Features | `common/crubit_feature.rs` | serde visitor as a function of the sequence |
| DynFormat | `common/dyn_format.rs` | – |
| ErrorReport | `common/error_report.rs`, `common/arc_anyhow.rs` | JSON text not modelled; report is the value serialized |
| TokenPrinter | `common/token_stream_printer.rs`, quoting in `code_gen_utils.rs` | rustfmt and clang-format not modelled |
| Lossy | `support/rs_std/lossy_formatter.rs`, `support/cc_std_impl/lossy_utf8.rs` (Display) | std's UTF-8 routines from documentation |
| Aliasing | `support/internal/check_no_mutable_aliasing.{h,cc}`, the wrapper code of `generate_function.rs` that calls it | addresses do not wrap |
| NullInfer | `nullability/inference/merge.{h,cc}`, `inference.proto` | protobuf maps as finite maps with arbitrary iteration order |
| Lifetimes | `lifetime_analysis/lifetime_constraints.cc` (set operations, closure, ApplyToFunctionLifetimes), `lifetime_annotations/lifetime_substitutions.cc`, `lifetime.cc` | the AST walk collecting constraints is not modelled |
| PointsTo | `lifetime_analysis/object_set.h`, `points_to_map.cc`, `lifetime_lattice.cc` | objects and expressions abstract, parentheses explicit |
| Namespaces | `support/cc_import/merged_namespaces.rs`, `cc_import_internal.rs` (merge loop), `rs_bindings_from_cc/collect_namespaces.cc` | – |
| LifetimeNames | `rs_bindings_from_cc/generate_bindings/lifetime_defaults_transform.rs` | record/declaration arities are inputs; types reduced to the forms the code distinguishes |
| RsStd | `support/rs_std/{is_utf8,str_ref,char,slice_ref}.h`, `char.cc` | – |
| RsOption | `support/rs_std/{option,result}.h`, `support/internal/move_assign.h`, `cc_bindings_from_rs/generate_bindings/generate_template_specialization.rs` | exceptions not modelled |
| RsVec | same generator file | rustc layout queries succeed |
| CcVector | support/cc_std_impl/vector.rs (all of it but Debug/PartialEq/Hash/serde-style forwarding and `extract_if`/`drain`-like iterators it does not define), cpp_std_allocator.rs, std_allocator.h | `Vec<T, StdAllocator>` from its documentation; addresses count elements; no zero-sized elements |
| CcShared | support/cc_std_impl/shared_ptr.rs, std_allocator.h:44-121, cpp_std_allocator.rs:58-101; libc++'s `__shared_weak_count` (not in /repo) from its source | sequential consistency instead of the C++ memory orders; values own a fixed list of pointers; no overflow of counts |
| CppClass | cc_bindings_from_rs/generate_bindings: lib.rs:1390-1731, database/adt_core_bindings.rs:107-163, generate_struct_and_union.rs:690-915, 1438-1497, 2981-3003, generate_function.rs:165-298 and 724-759 (struct case), support/internal/memswap.h, slot.h | values have opaque data; clone_from is clone + assign; no panics in constructors (the thunks abort) |
| Thunk | cc_bindings_from_rs/generate_bindings: generate_function_thunk.rs, generate_function.rs (parameter and return conversion), query_compiler.rs (by-value test), format_type.rs (acceptance per location, is_bridged_type), database/type_location.rs; support/internal/slot.h | async functions, rvalue-reference/by-value annotations and the aliasing check left out; conversion functions and encodings arbitrary, one pair per type; an array's contents are one value |
| RecordLayout | rs_bindings_from_cc/generate_bindings/generate_struct_and_union.rs (51-185, 266-595, 815-821, 897-902, 1022-1069), database/code_snippet.rs (565-600, 1260-1429), importers/cxx_record.cc (1299-1301, 1434-1439, 1536-1620) | names, comments, visibility left out; conversion of a member's type is an option; placement of bit-fields only constrained, not computed |
| Ints | rs_bindings_from_cc/ir.h (274-307), generate_bindings/database/code_snippet.rs (462-504), rs_snippet.rs (2293-2330), support/ffi_11/src/lib.rs, newtype.rs | atomics, arithmetic, formatting left out; core's From impls and rustc's treatment of literals are modelled; floats only as the integers they hold |
| RecordTraits | rs_bindings_from_cc/ast_convert.cc (72-156), ir.rs (2473-2475, 2537-2596), generate_bindings/generate_struct_and_union.rs (51-53, 120-185, 266-392, 571-594, 903-970), generate_function.rs (600-650, 908-962, 1105-1130), database/rs_snippet.rs (239-259, 1656-1690), code_snippet.rs (568-600, 1363-1382) | rustc's checks E0184, E0204, E0740 and drop glue are modelled; virtual bases like bases; bridge types excluded (they are never fields) |
| ModNames | rs_bindings_from_cc/generate_bindings/has_bindings.rs (105-120, 440-610), database/code_snippet.rs (382-448, 640-900), database/db.rs (680-711), common/code_gen_utils.rs (751-773) | heck's to_snake_case is an arbitrary function; HashMap is an association list |
| Visibility | rs_bindings_from_cc/generate_bindings/has_bindings.rs (185-440), database/db.rs (307-331), database/rs_snippet.rs (620-693, 864-888, 1328-1334, 1377-1465, 1783, 2664-2724), database/code_snippet.rs (149-285), generate_struct_and_union.rs (349-354), generate_function.rs (2183-2218, 2398), lib.rs (194-196, 253), ir.rs (2602) | reasons and error texts dropped; unknown attributes, calling conventions and variadic functions left out; importer.cc:1272-1277 is the hypothesis instantiated_in |
| Overloads | rs_bindings_from_cc/generate_bindings/generate_function.rs (252-348, 546-597, 1329-1367, 1589-1603, 2075-2082, 2505-2530, 3009-3018, 3365-3433), database/db.rs (292-297), lib.rs (313-331) | parameter types reduced to record by value / reference to record / other; all other operators and functions are functions with a fixed path; core::cmp default methods from the Rust library |
| Inherit | rs_bindings_from_cc/importers/cxx_record.cc (1614-1700), generate_struct_and_union.rs (187-262, 612-650, 1081-1145), database/code_snippet.rs (705-740, 1075-1080), support/oops.rs | classes are numbers in definition order; clang's CXXBasePaths (CXXInheritance.cpp) is modelled although not in /repo, its counters as a log of visits; methods sorted by base instead of name; address wrap-around ignored |
| Ctor | support/ctor.rs (76-635, 880-970, 1011-1060, 1083-1275, 1500-1575, 1630-1675) | objects have identity but no content; values captured by a Ctor that is never run are not modelled; ManuallyDropCtor, ctor! on unions, the Assign and CtorNew traits, Rust move semantics of Unpin values are not modelled |
| Callable | support/rs_std/dyn_callable.h, dyn_callable.rs, rs_bindings_from_cc/generate_bindings/lib.rs (1490-1600) | one signature at a time; arguments and results of the call are not modelled (closures may panic) |
| Own | (no code: a lemma library on exactly-once ownership) | |
| Movable | support/movable.h, support/internal/slot.h, cc_bindings_from_rs/generate_bindings/generate_function.rs (271-286, 430-460) | Slot's own move constructor and array specialisation, and trivially destructible parameters passed by address, are not modelled |
| Async | support/rs_std/dyn_erased_future.{h,rs}, erased_future.rs, dyn_future.rs, waker.{h,cc}, cpp_waker.{h,cc}, generate_function.rs (709-727), lib.rs (1662-1680) | futures whose poll panics, and the two-word layout of the boxes, are not modelled; a future dropping wakers it captured is a separate operation of Rust code |
| IterAdapter | support/rs_std/iterator_adapter.h | moved-from adapters, iter_move and the std::input_iterator static checks are not modelled |
| NullState | nullability/pointer_nullability.cc (106-257), pointer_nullability_analysis.cc (111-286) | Clang's dataflow framework (environments, arena, solver, worklist) is modelled by its documented meaning; all token definitions are passed to the solver instead of the transitive dependencies; pointers without null state are only modelled in compare |
| TypeNull | nullability/type_nullability.cc (241-1200, 1235-1334) | source locations, packs, non-type template arguments, SubstituteTypeParam and the recognition of annotations and transparent aliases in the AST are not modelled (they are fields of the tree); arrays decay is not modelled |
| Forward | support/forward_declare.rs, support/forward_declare_proc_macros.rs, support/cref.rs (type-level), common/code_gen_utils.rs (922-937), database/db.rs (615-675), generate_struct_and_union.rs (57-80, 598, 771) | lifetimes are compared for equality (no subtyping); characters are bytes; UnsafeCppCoerce has no impls; reserved-word failures of format_for_cc left out |
| CcString | support/cc_std_impl/string.rs, string_view.rs, slice_ptr.rs, unique_ptr.rs, conversion_function_helpers.h, std_allocator.h (28-41), support/bridge.h (336-346), generate_function_thunk.rs (275-294, 454-466) | allocation never fails; pointers are numbers (0 null); bytes are naturals; Hash/Ord/Debug impls left out |
| CppCall | rs_bindings_from_cc/generate_bindings/generate_function_thunk.rs (27-304, 438-760), generate_function.rs (1519-1660, 2890-2950, 3056-3070), database/rs_snippet.rs (1316-1334, 1485-1532, 1963-1980), cpp_type_name.rs (149-183), importers/function.cc (174-190, 268-450) | references with and without lifetimes are one type; inline_cpp bodies, renamed constructors, Clone adjustments, drop_return, template parameter packs' types and lifetimes left out; C++ argument evaluation left to right; the callee leaves its by-value parameters to be destroyed at the end of the call |
| InlineCpp | support/extract_cpp_from_rust/parse_inline_cpp_macros.rs (all), inline_cpp_utils.rs (all), extract_cpp_from_rust.rs (54-231), rust_with_cpp_fmt.rs (126-246), inline_cpp_macro.rs (43-75) | the Rust lexer, rustfmt and clang-format are parameters (token lists with non-empty texts and one-character braces); the DO_NOT_SUBMIT lint, error texts and file IO left out; usize is 64-bit little-endian in the hash |
| FnLifetimes | lifetime_analysis/lifetime_constraints.cc (177-335), analyze.cc (408-413, 993-1011, 1428-1435), lifetime_annotations/type_lifetimes.cc (564-645, 902-927), function_lifetimes.cc (191-239) | template arguments of all nesting depths are one list; lifetime parameters are listed in order instead of looked up by name; const visitors, dumps and creation from declarations left out |
| LifetimeDecl | lifetime_annotations/lifetime_symbol_table.cc, lifetime_annotations.cc (48-322), type_lifetimes.cc (87-121, 310-440, 485-558, 884-893), function_lifetimes.cc (106-193, 246-287) | lifetimes are unbounded integers from a counter; attributes are lists of names (not evaluated expressions); lifetime parameters in order instead of by name; one depth of template arguments per class; types without source locations (typedefs, packs) have no attributes; lifetime macros and the `lifetimes` attribute's redeclarations left out |
| PtTransfer | lifetime_analysis/lifetime_analysis.cc | what Clang says of an expression (glvalue, type, cast kind) is part of the element; the object repository is a record of functions (which objects exist is not modelled); assertions abort; recursion has fuel, and running out of it is a separate outcome; ForCallableSubstitutionFull is a parameter; member and base initializers of constructors (run after the data flow) left out |
| CallOrder | lifetime_analysis/analyze.cc (805-1350) | Clang's answers and AnalyzeSingleFunction, ConstructFunctionLifetimes, ConstrainLifetimes, IsIsomorphic are functions of a record; canonical declarations are numbers; sets are lists in their order of iteration; the recursion has fuel, running out of it and failed assertions are separate outcomes; templates and debug info left out |
| MustBind | rs_bindings_from_cc/importer.cc (884-902, 925-1261, 1663-1757), decl_importer.h (443-455), importers/function.cc (474-1012, control flow), generate_bindings/lib.rs (207-410), generate_comment.rs (123-195), cc_api.rs (67-88), src_code_gen.cc (47-49) | the checks of the individual importers, type conversion and has_bindings are facts of the input; declarations are a tree with ids, the types a declaration mentions are a list of ids; comments, template instantiations and the order of items left out |
| NsEmit | rs_bindings_from_cc/ir.rs (162-196, 229-292, 4397-4415), generate_bindings/lib.rs (258-308, 407-408, 479-481, 581-584), generate_bindings/database/code_snippet.rs (64-89, 506-516, 777-836, 973-1012) | items other than namespaces are opaque entries; unknown attributes are a flag; the visited set of the iterator, thunks, assertions and features left out |
| IrTree | rs_bindings_from_cc/importer.cc (327-434, 595-600, 634-789, 927-1052, 2339-2366) | source locations are positions, canonical children, owning targets, imported items and attached comments are given; one pass per target instead of a hash map of lists; binary search and std::map on sorted comments are lists |
| Canon | rs_bindings_from_cc/importer.cc (533-580, 590-593) | the chain of redeclarations is a list; typedefs and namespaces are not modelled |
<!-- more rows below -->

## What is not modelled

Clang AST import and the Clang dataflow framework's fixpoint engine; rustc queries and layout computation; the
rustfmt/clang-format subprocesses; token lexing; JSON text; threads (every component here is single threaded except
where a component says otherwise); performance; the C++ abstract machine beyond what a component states (object
lifetimes in RsOption, byte storage); exceptions; user-supplied code other than through the stated contracts.

## Claims found false of the code

The `_refuted` theorems: C05 (order among ties), C09 (257th database), C10 (cyclic queries depend on order), C11 (zero-sized
values), C12 (right-to-left argument evaluation), C15 (identifiers of equal labels), C16 (empty target; `a-b`/`a_b`),
C18 (surrounding white space), C20 (item id 0), C21 (empty message; contexts), C22–C25 (fusing tokens, trailing quote, raw
newline, straddling match), C28 (ties of empty ranges that no argument produces), C29 (2^32 pieces), C31 (sample choice),
C32 (two pairs of parentheses), C35 (dropped label), C40 (`const int**`, `int* const`), C42 (hiding twice), C44 (two trips
through anyhow), C46 (interior mutability), C49 (single-valued objects), C52, C54, C56 (lifetime capture, `'unknown`,
renamed record lifetimes), C62, C63 (assigning an object's own payload), C64 (big-endian tags), C69 (panic in
caller's code after reallocation), C70 (tail unpoisoned after a panic), C74 (null pointer with a
deleter; panic in a projection), C75 (`repr(transparent)` types with
a destructor: constructors drop uninitialised memory; arrays with destructors as parameters: double drop), C78 (by-value move-only
parameters and by-value unmovable Default types do not compile), C79 (extern "C" functions with
bridged repr(transparent) types), C81 (constructors of a bridged Option), C83 (tuples of types without all special members),
C84 (a parameter named like a tuple element of another), C87/C88 (records
with zero-width bit-fields, alignas members, virtual bases, only empty members and similar are rejected by the generated
assertions), C90 (an accessor for a type without bindings removes the record), C91 (negative
char constants, huge unsigned __int128 constants), C93 (some lossless conversions are missing), C94 (signed char and wchar_t), C96/C97 (derives
and unions that rustc rejects), C98 (user-provided operator= skipped), C99 (two lifetime parameters), C101 (a class
named Crate), C102 (HTTPServer and HttpServer; reopened namespaces; aliases), C103 (vectors of
crate-private types), C104 (aliases of other targets), C105 (vectors of unsupported types, variables), C107 (inconsistent
operator!=), C108 (non-bool operator==, operator!= by value), C109 (virtual bases under private bases), C110 (null
pointers), C111 (hidden and redeclared methods), C113 (failing
ctor_then closures), C116 and C117 (panicking destructors), C118
(self move assignment of a DynCallable), C119 (called FnOnce handles, empty calls), C125
(constraints contradicting the flow condition, solver timeouts), C126 (mixed
branches, certain nulls of unknown source), C127 (two pointers widened
together), C128 (a template used inside its own expansion),
C129 (Unknown around a parameter), C130 (smart pointers), C131 (maximal arrays,
Vec), C132 (slices of forward-declared classes), C133 (pinning, CMut), C134 (leading colons), C137 (panicking
destructor), C139 (aliases of T&&, deleted moves), C141 (name clashes), C142 (inherited, packed
and virtual accessors), C143 (other invocation forms), C145 (hash without separators), C146
(include guard), C147 (raw strings, idempotence), C148 (two functions), C149 (template commas), C150
(documented direction, invariant parameters, function pointers), C151 - C153 ('static dropped), C154
(variance of const pointers and parameters), C155 (the name static, rebinding,
keywords), C156 (captured names), C157 (template arguments), C158 (punctuation), C159 and C161
(temporaries that hold a pointer; nested arrays), C162 (invariance below const, lists), C163 (recursive classes),
C165 (recursion), C166 (undefined base methods, recursive base methods),
C167 (uncallable functions, methods of unbound classes, untracked kinds), C168 (stale flag),
C173 (first, last and nested blocks), C174 (repeated messages), C180 (out-of-line enumerations), C183 (friends).
