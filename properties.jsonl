{"id": "C01", "title": "toposort returns every node exactly once", "statement": "For every call of toposort that does not panic, the concatenation of `ordered` and `failed` contains each distinct input node exactly once and nothing else; it panics exactly when a dependency names a node that is not in `nodes`.", "quantifier": "all node lists (duplicates included), all dependency lists, all preferred orders, all hash-map iteration orders", "why_tests_cant": "the graph, the comparator and the HashMap iteration order are all unbounded inputs; a test sees a handful of graphs and one iteration order", "anchors": ["cc_bindings_from_rs/toposort.rs::toposort", "cc_bindings_from_rs/toposort.rs::TopoSortResult"]}
{"id": "C02", "title": "toposort respects every dependency", "statement": "If toposort succeeds, then for each dependency (predecessor, successor) whose successor is in `ordered`, the predecessor is in `ordered` too and strictly earlier.", "quantifier": "all node lists, dependency lists (with repeats and self loops), comparators, hash-map orders", "why_tests_cant": "unbounded graphs", "anchors": ["cc_bindings_from_rs/toposort.rs::toposort"]}
{"id": "C03", "title": "toposort fails exactly the nodes stuck behind a cycle", "statement": "A node is in `failed` if and only if it lies on a dependency cycle or transitively depends on a node that does.", "quantifier": "all finite dependency multigraphs", "why_tests_cant": "reachability over unbounded graphs", "anchors": ["cc_bindings_from_rs/toposort.rs::toposort"]}
{"id": "C04", "title": "toposort keeps the preferred order whenever it can", "statement": "`ordered` is the greedy order: each emitted node is, among all nodes whose predecessors have all been emitted, the least in the preferred order (ties by last input position); in particular if the preferred order of all the nodes is already topological it is returned unchanged, and the answer never depends on hash-map iteration order.", "quantifier": "all graphs, all total-preorder comparators, all hash-map iteration orders", "why_tests_cant": "determinism over every hash seed and every graph cannot be sampled", "anchors": ["cc_bindings_from_rs/toposort.rs::toposort", "cc_bindings_from_rs/toposort.rs::HeapNode::cmp"]}
{"id": "C05", "title": "toposort returns failed nodes sorted and deterministically", "statement": "`failed` is sorted by the preferred order; when the preferred order distinguishes all nodes the result is independent of hash-map iteration order. (When the comparator has ties the code is NOT deterministic: refuted with a witness.)", "quantifier": "all graphs, comparators, hash-map iteration orders", "why_tests_cant": "needs two hash seeds that disagree; unit tests assert one run", "anchors": ["cc_bindings_from_rs/toposort.rs::toposort"]}
{"id": "C06", "title": "memoization is transparent for non-recursive-cycle queries", "statement": "If the query functions never reach themselves with the same arguments, then after any sequence of earlier queries every query returns exactly what direct, un-memoized evaluation returns, and never reports a cycle.", "quantifier": "all query bodies (as call trees), all arguments, all histories of earlier calls", "why_tests_cant": "quantifies over programs and call histories", "anchors": ["common/memoized.rs::MemoizationTable::internal_memoized_call", "common/memoized.rs::query_group"]}
{"id": "C07", "title": "nothing computed from a pending cycle default is ever cached", "statement": "A value enters the cache only if it equals what a fresh top-level call with the same arguments and the same cache would compute, i.e. it never depends on the cycle-default of a call that is still in progress.", "quantifier": "all query bodies, arguments, in-progress call stacks and caches", "why_tests_cant": "the bad histories need particular nests of overlapping cycles", "anchors": ["common/memoized.rs::MemoizationTable::internal_memoized_call"]}
{"id": "C08", "title": "cycle bookkeeping is exact", "statement": "The unwinding counter always equals the number of in-progress calls that have been found to be on a cycle, so it never underflows, the in-progress set is restored after every call, and both are back to empty/zero when a top-level query returns.", "quantifier": "all query bodies and histories", "why_tests_cant": "invariant over every execution state", "anchors": ["common/memoized.rs::internal_memoized_call", "common/memoized.rs::FoundCycle"]}
{"id": "C09", "title": "memoized! tables of different databases do not mix", "statement": "A `memoized!` function called on a database returns values computed from that database, whatever other databases exist in the process. (Holds up to 256 databases; refuted beyond, because the table index is a wrapping u8.)", "quantifier": "all sequences of database creations and calls", "why_tests_cant": "needs more than 256 databases", "anchors": ["common/memoized.rs::memoized", "common/memoized.rs::internal::db_index"]}
{"id": "C10", "title": "answers on cyclic queries do not depend on query order", "statement": "The value returned by a query does not depend on which queries were made before it. (Refuted for cyclic queries with break_cycles_with; proved for acyclic ones by C06.)", "quantifier": "all query bodies and all histories", "why_tests_cant": "history dependence shows only for particular cycles and orders", "anchors": ["common/memoized.rs::query_group"]}
{"id": "C11", "title": "interned values are equal exactly when their contents are", "statement": "For any sequence of intern calls on one interner, two returned handles compare equal iff the interned values are equal, and dereferencing a handle gives the interned value forever. (Holds for values that occupy at least one byte; refuted for the empty string/slice, which can share its address with a neighbour.)", "quantifier": "all sequences of interned values, all allocators meeting the arena contract", "why_tests_cant": "the collision needs a particular allocation history", "anchors": ["common/interner.rs::Interner::intern", "common/interner.rs::Interner::intern_slice", "common/interner.rs::Interner::intern_str", "common/interner.rs::Interned::eq"]}
{"id": "C12", "title": "bridge encode/decode round-trips", "statement": "For every ABI built from transmute, tuples and Option, decoding a buffer produced by encoding a value yields that value, in Rust->Rust, Rust->C++ and C++->Rust direction.", "quantifier": "all ABI schemas (any nesting), all values, all initial buffer contents", "why_tests_cant": "unbounded type nesting", "anchors": ["support/crubit_bridge_rust/src/bridge.rs::CrubitAbi", "support/crubit_bridge_rust/src/bridge.rs::internal::encode", "support/crubit_bridge_rust/src/bridge.rs::internal::decode", "support/bridge.h"]}
{"id": "C13", "title": "bridge encode/decode never leaves its buffer", "statement": "Encoding or decoding with an ABI touches only the SIZE bytes of the given buffer, never underflows the remaining-byte counter, and consumes at most SIZE bytes (exactly SIZE unless an Option is None).", "quantifier": "all ABI schemas, values and buffers", "why_tests_cant": "memory safety for every schema", "anchors": ["support/crubit_bridge_rust/src/bridge.rs::Encoder", "support/crubit_bridge_rust/src/bridge.rs::Decoder", "support/crubit_bridge_rust/src/bridge.rs::TransmuteAbi"]}
{"id": "C14", "title": "escaped C++ identifiers for labels are valid and collision-free", "statement": "convert_to_cc_identifier maps different label strings to different identifiers and always yields a valid C++ identifier (letters, digits, underscores, not starting with a digit).", "quantifier": "all byte strings", "why_tests_cant": "injectivity over all strings", "anchors": ["rs_bindings_from_cc/bazel_label.rs::BazelLabel::convert_to_cc_identifier"]}
{"id": "C15", "title": "label equality, ordering and hashing agree", "statement": "Label ==, the ordering and hash agree with each other, the ordering is a total order, and `//a/b` equals `//a/b:b`. (That equal labels give equal identifiers is refuted.)", "quantifier": "all label strings", "why_tests_cant": "laws over all pairs/triples", "anchors": ["rs_bindings_from_cc/bazel_label.rs::BazelLabel::eq", "rs_bindings_from_cc/bazel_label.rs::BazelLabel::cmp", "rs_bindings_from_cc/bazel_label.rs::BazelLabel::hash", "rs_bindings_from_cc/bazel_label.rs::BazelLabel::target_name", "rs_bindings_from_cc/bazel_label.rs::BazelLabel::package_name"]}
{"id": "C16", "title": "crate names derived from labels are legal identifiers", "statement": "target_name_escaped yields only ASCII letters, digits and underscores, keeps the length except for the documented prefixes, never yields `core`, and does not start with an ASCII digit.", "quantifier": "all label strings", "why_tests_cant": "all strings", "anchors": ["rs_bindings_from_cc/bazel_label.rs::BazelLabel::target_name_escaped"]}
{"id": "C17", "title": "symbol escaping is injective and yields identifiers", "statement": "escape_non_identifier_chars gives different outputs for different inputs, and a non-empty output starts with an identifier-start character or underscore and continues with identifier characters.", "quantifier": "all Unicode strings, all XID predicates consistent with the documented facts", "why_tests_cant": "injectivity over all strings", "anchors": ["common/code_gen_utils.rs::escape_non_identifier_chars"]}
{"id": "C18", "title": "C++ reserved words are never emitted as identifiers", "statement": "unkeyword_cpp_ident never returns a reserved word, is the identity on non-reserved names; format_cc_ident succeeds only on names that are not reserved under the enabled features.", "quantifier": "all strings, all feature sets", "why_tests_cant": "all names", "anchors": ["common/code_gen_utils.rs::unkeyword_cpp_ident", "common/code_gen_utils.rs::format_cc_ident", "common/code_gen_utils.rs::is_cpp_nonportable_word", "common/code_gen_utils.rs::is_cpp_reserved_keyword"]}
{"id": "C19", "title": "feature lists resolve consistently", "statement": "Deserialising a list of feature names is independent of order and repetition, fails exactly when some name is unknown, never leaves NoAssumeLifetimes set, and drops AssumeLifetimes iff no_assume_lifetimes was named; each flag's short name names a set containing that flag.", "quantifier": "all lists of strings", "why_tests_cant": "all lists and orders", "anchors": ["common/crubit_feature.rs::named_features", "common/crubit_feature.rs::SerializedCrubitFeatures::resolved", "common/crubit_feature.rs::CrubitFeature::short_name"]}
{"id": "C20", "title": "error reports lose no error and attribute it to the open item", "statement": "After any well-nested sequence of item scopes and reports, each reported error (with error lists flattened in order) appears exactly once, in order, under the innermost open item; every entered item has an entry, and leaving a scope restores the previous item.", "quantifier": "all nested histories of enter/report/category/exit, all error trees", "why_tests_cant": "histories are unbounded", "anchors": ["common/error_report.rs::ErrorReport", "common/error_report.rs::ItemScope"]}
{"id": "C21", "title": "a formatted error displays the full message", "statement": "For every format string and message, Display of the recorded error is the message. (Refuted when the message is empty and the format string is not.)", "quantifier": "all pairs of format string and formatted message", "why_tests_cant": "all strings", "anchors": ["common/error_report.rs::FormattedError::new", "common/error_report.rs::FormattedError::fmt"]}
{"id": "C22", "title": "printing keeps adjacent words apart", "statement": "In the printed text of any token stream, two neighbouring identifier/literal tokens at one nesting level are always separated by white space, and `:` never fuses with a following `::`.", "quantifier": "all token trees", "why_tests_cant": "all token trees", "anchors": ["common/token_stream_printer.rs::tokens_to_string", "common/token_stream_printer.rs::tokens_require_whitespace"]}
{"id": "C23", "title": "__LITERALLY__ round-trips C++ text", "statement": "Text escaped by the C++ type-name formatter and printed by the token printer comes out unchanged. (Holds for all names not ending in a double quote; refuted otherwise.)", "quantifier": "all strings", "why_tests_cant": "escaping corner cases over all strings", "anchors": ["common/code_gen_utils.rs::unchecked_format_cc_type_name", "common/token_stream_printer.rs::write_stream"]}
{"id": "C24", "title": "__COMMENT__ text cannot leave the comment", "statement": "Every line printed for a __COMMENT__ literal starts with `// `, so comment text never becomes code. (That the line after the comment is unaffected is refuted for text ending in a backslash in C++.)", "quantifier": "all literal texts", "why_tests_cant": "injection needs adversarial text", "anchors": ["common/token_stream_printer.rs::write_stream"]}
{"id": "C25", "title": "capture offsets denote the captured token", "statement": "For each capture tag the recorded provenance, applied to the unformatted output, yields exactly the text printed between CAPTURE_BEGIN and CAPTURE_END, and the occurrence index finds it again.", "quantifier": "all token streams with captures", "why_tests_cant": "all token streams", "anchors": ["common/token_stream_printer.rs::tokens_to_string_with_provenance", "common/token_stream_printer.rs::fix_provenance_map_postformatting"]}
{"id": "C26", "title": "lossy formatting does not depend on how bytes are split", "statement": "Whatever mix of write_slice, write_byte and write_fill calls delivers a byte sequence, the text written after flush is the standard lossy UTF-8 decoding of the whole sequence (if the sink does not fail).", "quantifier": "all byte sequences and all splittings into calls", "why_tests_cant": "all splittings of all byte strings", "anchors": ["support/rs_std/lossy_formatter.rs::LossyFormatter"]}
{"id": "C27", "title": "lossy formatter reports progress honestly", "statement": "Counts returned never exceed the input length, equal it when the sink never fails, and the buffered tail is always at most three bytes that form a proper prefix of a UTF-8 character.", "quantifier": "all inputs, all sinks failing at any point", "why_tests_cant": "failure points are unbounded", "anchors": ["support/rs_std/lossy_formatter.rs::LossyFormatter::write_slice", "support/rs_std/internal"]}
{"id": "C28", "title": "the aliasing check is sound and complete", "statement": "For any set of mutable and const memory ranges of non-zero size, the check reports aliasing iff two mutable ranges overlap or a mutable range overlaps a const one. (For zero-sized ranges the answer can depend on how the unstable sort breaks ties: refuted.)", "quantifier": "all multisets of ranges, all sort outcomes", "why_tests_cant": "all ranges", "anchors": ["support/internal/check_no_mutable_aliasing.cc::HasMutableAliasingSpans"]}
{"id": "C29", "title": "nullability inference is independent of evidence order and sharding", "statement": "The nullability, conflict and trivial verdict for a slot depend only on the multiset of evidence kinds, not on the order or grouping in which partial results are merged.", "quantifier": "all evidence multisets, all merge trees", "why_tests_cant": "all merge trees", "anchors": ["nullability/inference/merge.cc::mergePartials", "nullability/inference/merge.cc::infer", "nullability/inference/merge.cc::finalize", "nullability/inference/merge.cc::partialFromEvidence"]}
{"id": "C30", "title": "inference verdicts follow the documented precedence", "statement": "Annotations win over everything; mandatory rules win over soft rules; a conflict is reported iff mandatory evidence for both NONNULL and NULLABLE exists (or both annotations); soft rules are used only when enabled.", "quantifier": "all count vectors", "why_tests_cant": "2^k combinations of unbounded counts", "anchors": ["nullability/inference/merge.cc::infer"]}
{"id": "C31", "title": "sample evidence stays small and unique", "statement": "Every merged partial keeps at most 3 samples per kind, with pairwise distinct locations, and every sample stems from some input evidence of that kind.", "quantifier": "all merge trees", "why_tests_cant": "all merge trees", "anchors": ["nullability/inference/merge.cc::mergeSampleEvidence"]}
{"id": "C32", "title": "points-to maps form a join semilattice", "statement": "Union of points-to maps is commutative, associative, idempotent, an upper bound of both sides and the least one; extending a set only grows it.", "quantifier": "all points-to maps", "why_tests_cant": "algebraic laws over all maps", "anchors": ["lifetime_analysis/points_to_map.cc::PointsToMap::Union", "lifetime_analysis/object_set.h::ObjectSet"]}
{"id": "C33", "title": "outliving lifetimes are the transitive closure", "statement": "GetOutlivingLifetimes(l) returns exactly the lifetimes other than l reachable from l through outlives constraints, for any (cyclic) constraint set, and always terminates.", "quantifier": "all constraint sets", "why_tests_cant": "all graphs", "anchors": ["lifetime_analysis/lifetime_constraints.cc::LifetimeConstraints::GetOutlivingLifetimes"]}
{"id": "C34", "title": "joining lifetime constraints reports change exactly", "statement": "join yields the union and reports Changed iff the set grew; it is idempotent, commutative and associative as sets.", "quantifier": "all constraint sets", "why_tests_cant": "all sets", "anchors": ["lifetime_analysis/lifetime_constraints.cc::LifetimeConstraints::join"]}
{"id": "C35", "title": "merged namespaces remember every target that opens them", "statement": "After merging the namespace hierarchies of any number of targets, each namespace path exists iff some target opens it, and its label set is exactly the set of targets that open it. (The path part holds; the label part is refuted.)", "quantifier": "all lists of namespace trees", "why_tests_cant": "all trees", "anchors": ["support/cc_import/merged_namespaces.rs::MergedNamespace"]}
{"id": "C36", "title": "fresh lifetime names are never reused", "statement": "Across any sequence of push/pop operations the binding context never hands out the same generated name twice, fresh-name search terminates, and popping restores the previous binding.", "quantifier": "all operation histories", "why_tests_cant": "all histories", "anchors": ["rs_bindings_from_cc/generate_bindings/lifetime_defaults_transform.rs::BindingContext"]}
{"id": "C37", "title": "lifetime state folding is order-independent", "statement": "Folding lifetime states gives Unseen iff none seen, Single a iff only a was seen, Unknown otherwise, in any order.", "quantifier": "all sequences of states", "why_tests_cant": "all sequences", "anchors": ["rs_bindings_from_cc/generate_bindings/lifetime_defaults_transform.rs::LifetimeState::update"]}
{"id": "C38", "title": "include lists are complete, ordered and grouped", "statement": "For every set of includes, format_cc_includes prints each exactly once in set order, with one empty line exactly when there are both system and user headers, right between the two groups; CcInclude::from_path never panics and strips angle brackets exactly for <...> paths.", "quantifier": "all include sets, all path strings", "why_tests_cant": "all sets and all strings", "anchors": ["common/code_gen_utils.rs::format_cc_includes", "common/code_gen_utils.rs::CcInclude::from_path"]}
{"id": "C39", "title": "hyphens in crate names become underscores", "statement": "hyphen_to_underscore replaces each hyphen by one underscore, keeps all else, and never panics.", "quantifier": "all strings", "why_tests_cant": "all strings", "anchors": ["common/code_gen_utils.rs::hyphen_to_underscore", "common/code_gen_utils.rs::try_make_rs_ident"]}
{"id": "C40", "title": "C++ pointer types are recognised with the right constness", "statement": "is_cpp_pointer_type reports Const exactly when the pointee of the outermost pointer is const, Mut for other pointers and None for non-pointers. (Proved for single-level pointers; refuted for multi-level and const pointers.)", "quantifier": "all spellings of pointer types over a name", "why_tests_cant": "all nestings", "anchors": ["common/code_gen_utils.rs::is_cpp_pointer_type"]}
{"id": "C41", "title": "dynamic format strings parse and substitute exactly", "statement": "parse_with_metavars accepts exactly the format strings made of text, doubled braces and {known variable}; formatting never panics and substitutes each variable by its argument; doubling the braces of any text round-trips; formats compare equal iff they are the same sequence of text and variables.", "quantifier": "all strings, variable name lists and arguments", "why_tests_cant": "all strings", "anchors": ["common/dyn_format.rs::Format::parse_with_metavars", "common/dyn_format.rs::Format::format"]}
{"id": "C42", "title": "recorded messages are stable", "statement": "Hiding unstable details makes the recorded message independent of the crate/index numbers in any DefId(n:m ~ and of any [hhhh] hash, wherever they occur, and leaves all other text unchanged. (That no hash is left is refuted: removing one can form another.)", "quantifier": "all messages, all positions, all numbers and hashes", "why_tests_cant": "all strings", "anchors": ["common/error_report.rs::hide_unstable_details"]}
{"id": "C43", "title": "fatal errors are never dropped silently", "statement": "Text taken plus text still held is exactly the text reported, in order, and dropping the collection panics iff something was reported after the last take_string.", "quantifier": "all sequences of report and take_string", "why_tests_cant": "all histories", "anchors": ["common/error_report.rs::FatalErrors"]}
{"id": "C44", "title": "contexts do not hide the root cause", "statement": "However many contexts are added to an error, root_cause is the error itself and the chain of messages lists the contexts, outermost first, then the error. (Refuted when the error made a trip through anyhow::Error and then got a context or made a second trip: the report then files it under \"{}\" and does not split error lists.)", "quantifier": "all errors, all context stacks", "why_tests_cant": "all stacks", "anchors": ["common/arc_anyhow.rs::Error::root_cause", "common/arc_anyhow.rs::Error::context"]}
{"id": "C45", "title": "Display of a C++ string is its lossy decoding", "statement": "Displaying a byte string (C++ std::string / string_view shown from Rust) writes exactly its standard lossy UTF-8 decoding; if the sink fails, what was written is a prefix of it and an error is returned.", "quantifier": "all byte strings, all sinks", "why_tests_cant": "all byte strings", "anchors": ["support/cc_std_impl/lossy_utf8.rs::LossyUtf8Display"]}
{"id": "C46", "title": "generated wrappers stop exactly the calls with overlapping references", "statement": "The C++ wrapper generated for a Rust function terminates the process before entering Rust exactly when one of its mutable-reference arguments overlaps another reference argument, except shared references to zero-sized or interior-mutable types; in particular leaving the check out when there are too few references is never wrong.", "quantifier": "all parameter lists, all argument addresses", "why_tests_cant": "all signatures and calls", "anchors": ["cc_bindings_from_rs/generate_bindings/generate_function.rs::refs_to_check_for_aliasing", "cc_bindings_from_rs/generate_bindings/generate_function.rs::generate_thunk_call"]}
{"id": "C47", "title": "lifetime substitutions never loop", "statement": "Whatever sequence of Add(variable, lifetime) calls built the substitutions (including cyclic and repeated ones), Substitute ends for every lifetime with exactly one answer; a variable just added is replaced by what its substitution stands for, and lifetimes not involved are untouched.", "quantifier": "all histories of Add, all lifetimes", "why_tests_cant": "a loop could need a long chain of additions", "anchors": ["lifetime_annotations/lifetime_substitutions.cc::LifetimeSubstitutions::Add", "lifetime_annotations/lifetime_substitutions.cc::LifetimeSubstitutions::Substitute"]}
{"id": "C48", "title": "applying lifetime constraints to a function is exact", "statement": "ApplyToFunctionLifetimes fails exactly when the constraints make a local lifetime outlive 'static; otherwise every lifetime of the signature becomes 'static if it has to outlive 'static, a local lifetime if a local has to outlive it, and two other lifetimes become the same exactly when constraints tie them together; all (implied) constraints hold afterwards. The outcome does not depend on hash-set iteration order.", "quantifier": "all constraint sets, all signatures, all iteration orders of the hash sets", "why_tests_cant": "all graphs and all iteration orders", "anchors": ["lifetime_analysis/lifetime_constraints.cc::LifetimeConstraints::ApplyToFunctionLifetimes", "lifetime_analysis/lifetime_constraints.cc::LifetimeDSU"]}
{"id": "C49", "title": "joining analysis states is a least upper bound with an exact effect", "statement": "Joining two states of the lifetime analysis gives their least upper bound (errors on top), reports Unchanged exactly when nothing changed, and in any history of joins over finitely many entities only boundedly many report Changed. (operator== agrees with this - refuted: it ignores single-valued objects.)", "quantifier": "all states, all histories of joins", "why_tests_cant": "termination of a fixpoint iteration is about all histories", "anchors": ["lifetime_analysis/lifetime_lattice.cc::LifetimeLattice::join", "lifetime_analysis/lifetime_lattice.cc::LifetimeLattice::operator=="]}
{"id": "C50", "title": "collecting a target's namespaces lists each one exactly once", "statement": "CollectNamespaces returns a hierarchy labelled with the current target that opens exactly the namespace paths opened by that target's declarations (declarations of other targets are ignored), siblings strictly ordered by name and so never repeated; the result depends only on which paths are opened, not on declaration order, reopening or ids; and it terminates whenever declarations are properly nested.", "quantifier": "all IRs (any declarations, ids, owners) and targets", "why_tests_cant": "the trie is built by mutation over arbitrary declaration graphs with reopened namespaces", "anchors": ["rs_bindings_from_cc/collect_namespaces.cc::CollectNamespaces", "rs_bindings_from_cc/collect_namespaces.cc::AllOpenNamespaces"]}
{"id": "C51", "title": "transformed items bind new lifetimes only", "statement": "The lifetimes that a transformed function, record or type alias binds are pairwise distinct and distinct from every lifetime bound by an enclosing item and from 'static and 'unknown; an alias's underlying type uses exactly the lifetimes the alias binds.", "quantifier": "all functions, records and aliases, any nesting of enclosing items, any binder names (also repeated ones)", "why_tests_cant": "unbounded nesting and arbitrary colliding names", "anchors": ["rs_bindings_from_cc/generate_bindings/lifetime_defaults_transform.rs::add_lifetime_to_func", "rs_bindings_from_cc/generate_bindings/lifetime_defaults_transform.rs::add_lifetime_to_record", "rs_bindings_from_cc/generate_bindings/lifetime_defaults_transform.rs::add_lifetime_to_type_alias", "rs_bindings_from_cc/generate_bindings/lifetime_defaults_transform.rs::bind_lifetime_inputs"]}
{"id": "C52", "title": "lifetime annotations are resolved lexically", "statement": "An annotated lifetime of a parameter or result stands for the innermost binder of that name (the function's own binders, then enclosing items inside out, then the built-in ones); an unbound name is bound once by a new binder of the function; equal annotations give equal lifetimes and different annotations different ones; an unannotated reference gets a lifetime of its own.", "quantifier": "all functions without Clang annotations, all nestings and names", "why_tests_cant": "unbounded nesting and arbitrary colliding names", "anchors": ["rs_bindings_from_cc/generate_bindings/lifetime_defaults_transform.rs::add_lifetime_to_input_type", "rs_bindings_from_cc/generate_bindings/lifetime_defaults_transform.rs::add_lifetime_to_output_type", "rs_bindings_from_cc/generate_bindings/lifetime_defaults_transform.rs::get_or_push_new_binding"]}
{"id": "C53", "title": "default lifetime of an unannotated result", "statement": "An unannotated returned reference or view gets the lifetime of this in member functions, otherwise the single lifetime that the parameters have; if there is none or more than one, a returned reference becomes a non-null raw pointer and a view gets no lifetime.", "quantifier": "all functions without Clang annotations, any number of parameters", "why_tests_cant": "all parameter lists", "anchors": ["rs_bindings_from_cc/generate_bindings/lifetime_defaults_transform.rs::add_lifetime_to_func", "rs_bindings_from_cc/generate_bindings/lifetime_defaults_transform.rs::add_lifetime_to_output_type"]}
{"id": "C54", "title": "references have bound lifetimes", "statement": "After the transformation every reference has a lifetime, and it is one that is bound.", "quantifier": "all functions", "why_tests_cant": "all functions", "anchors": ["rs_bindings_from_cc/generate_bindings/lifetime_defaults_transform.rs::add_lifetime_to_func", "rs_bindings_from_cc/generate_bindings/rs_type_kind.rs::LValueRef"]}
{"id": "C55", "title": "lifetimebound ties parameters to the result", "statement": "If some parameters are marked [[clang::lifetimebound]] and the result takes one lifetime, then the result has one lifetime and every marked parameter that takes a lifetime lends exactly that lifetime (for the implicit object parameter of a view type: the lifetime of the view).", "quantifier": "all non-constructor functions, any number and position of marked parameters, any annotation", "why_tests_cant": "all combinations of marked parameters and annotations", "anchors": ["rs_bindings_from_cc/generate_bindings/lifetime_defaults_transform.rs::lower_clang_annotations", "rs_bindings_from_cc/generate_bindings/lifetime_defaults_transform.rs::inject_lifetimes_into_this"]}
{"id": "C56", "title": "lifetimebound constructor parameters lend to the object", "statement": "What a [[clang::lifetimebound]] parameter of a constructor lends is the lifetime of the object constructed.", "quantifier": "all constructors of records with one lifetime, any nesting", "why_tests_cant": "all nestings and binder names", "anchors": ["rs_bindings_from_cc/generate_bindings/lifetime_defaults_transform.rs::lower_clang_annotations", "rs_bindings_from_cc/generate_bindings/lifetime_defaults_transform.rs::bind_lifetime_inputs"]}
{"id": "C57", "title": "String slices passed to Rust are exactly valid UTF-8", "statement": "Making an rs_std::StrRef from bytes succeeds exactly if the bytes are the concatenation of the UTF-8 encodings (Unicode D92, shortest form, no surrogates, at most U+10FFFF) of some scalar values, and then holds exactly those bytes; no other bytes ever reach Rust as a &str, and no valid text is refused. A valid text has one reading.", "quantifier": "all byte strings of any length", "why_tests_cant": "there are infinitely many byte strings and 2^32 four-byte ones; tests try a handful of boundaries", "anchors": ["support/rs_std/internal/is_utf8.h: IsUtf8, IsUtf8Char, kFirstByteToUtf8CharSize", "support/rs_std/str_ref.h: FromUtf8"]}
{"id": "C58", "title": "rs_std::char_ holds scalar values and encodes them correctly", "statement": "char_::from_u32 succeeds exactly for Unicode scalar values; encode_utf8 writes the unique UTF-8 encoding of the value at the start of the buffer, leaves the rest of the buffer alone, and stops with a failed check exactly if the buffer is too short; different characters never share an encoding.", "quantifier": "all 32-bit values and all buffers of any length and contents", "why_tests_cant": "1.1 million scalar values times all buffers", "anchors": ["support/rs_std/char.h: from_u32, IsValidCodePoint, len_utf8", "support/rs_std/char.cc: encode_utf8"]}
{"id": "C59", "title": "String slices compare like Rust's str", "statement": "Two StrRefs are equal iff their texts are the same, and are ordered by their sequences of code points, as Rust orders &str: the byte-wise comparison agrees with comparison of code points for all valid texts, and is antisymmetric.", "quantifier": "all pairs of valid texts", "why_tests_cant": "all pairs of strings; UTF-16-style ordering bugs show only beyond the basic plane", "anchors": ["support/rs_std/str_ref.h: operator==, operator<=>"]}
{"id": "C60", "title": "Slices passed to Rust are never null and round-trip", "statement": "An rs_std::SliceRef made from any pointer and length holds a non-null word, aligned if the pointer was; it keeps pointer and length unless either is zero, in which case it is the empty slice; converting to a span and back gives the same slice; two slices are equal iff they have equal elements; for the aliasing check a slice covers exactly its elements' bytes.", "quantifier": "all pointers, lengths, alignments, element widths and memories", "why_tests_cant": "pointers and memory contents are unbounded", "anchors": ["support/rs_std/slice_ref.h: SliceRef, data, to_span, EqualImpl, AsPtrData"]}
{"id": "C61", "title": "rs_std::Option means the same to C++ and Rust", "statement": "After any constructor and any history of assignments (from nullopt, values, std::optional), conversions to std::optional, accesses, writes through pointers and uses by Rust code, Rust reads the option's bytes as exactly the value std::optional would have, every call returns what std::optional's would, and accesses stop with a failed check exactly if there is no value. (Little-endian targets, or tags of one byte.)", "quantifier": "all layouts rustc may choose (direct tag or niche, any tag size and offsets), all payload types and values, all histories, all contents of uninitialized or destroyed memory", "why_tests_cant": "layouts, values and histories are unbounded; tests use a few types with a few calls", "anchors": ["support/rs_std/option.h: OptionBase", "cc_bindings_from_rs/generate_bindings/generate_template_specialization.rs: specialize_option, OptionApiGenerator"]}
{"id": "C62", "title": "rs_std::Option constructs and destroys each payload once", "statement": "In any such history no payload is constructed over a live one, destroyed twice, leaked or used after its end, whatever the payload's moves and destructors do to its bytes; conversions hand over ownership; the destructor ends the payload iff there is one. This includes assigning an option's own value to it.", "quantifier": "all layouts, payload types, histories and junk left by destructors", "why_tests_cant": "a use of a dead payload is visible only for some histories and some junk bytes", "anchors": ["support/rs_std/option.h: OptionBase", "support/internal/move_assign.h: MoveAssignOrDestroyAndConstruct", "cc_bindings_from_rs/generate_bindings/generate_template_specialization.rs: OptionApiGenerator"]}
{"id": "C63", "title": "rs_std::Result means the same to C++ and Rust, and manages its payloads", "statement": "After any constructor and any history of assignments of values and errors, accesses, writes and uses by Rust, Rust reads the bytes as exactly the value std::expected would have; results and failed checks agree; payloads are constructed and destroyed once. This includes values made from the result's own error.", "quantifier": "all layouts (direct, or a niche in either variant), payload types, values, histories and junk", "why_tests_cant": "as for C61 and C62, for both variants", "anchors": ["support/rs_std/result.h: ResultBase", "cc_bindings_from_rs/generate_bindings/generate_template_specialization.rs: specialize_result, ResultApiGenerator"]}
{"id": "C64", "title": "Generated tag accessors agree with Rust", "statement": "The generated tag() reads, and set_tag() writes, the enum's tag exactly as Rust does, and set_tag changes no other byte, on every target.", "quantifier": "all tag sizes, offsets, values, memories and byte orders", "why_tests_cant": "tests run on one little-endian target", "anchors": ["cc_bindings_from_rs/generate_bindings/generate_template_specialization.rs: specialize_option, specialize_result (tag_method, endian_index)"]}
{"id": "C65", "title": "Generated rs_std::Vec finds and reads Rust's pointer and length", "statement": "For every Vec layout with one top-level usize and one raw pointer in the other fields, however nested, the generated accessors use exactly their offsets; for any type, found offsets are those of a usize and a raw pointer. Indexing gives element i iff i is below the length and otherwise fails a check; iterating visits every element once in order.", "quantifier": "all type trees and field offsets, all pointers, lengths and element widths", "why_tests_cant": "standard library layouts change; type trees are unbounded", "anchors": ["cc_bindings_from_rs/generate_bindings/generate_template_specialization.rs: compute_vec_layout_offsets, find_pointer_field_offset_impl, specialize_vec"]}
{"id": "C66", "title": "Generated rs_std::Tuple holds, returns and destroys every element", "statement": "A tuple made from a std::tuple holds each element at Rust's offset, converting it back gives all the elements, and each is constructed once and destroyed once, for any number of elements and any non-overlapping layout.", "quantifier": "all numbers of elements, sizes, offsets and values", "why_tests_cant": "arity and layouts are unbounded", "anchors": ["cc_bindings_from_rs/generate_bindings/generate_template_specialization.rs: TupleApiGenerator"]}
{"id": "C67", "title": "cc_std vector behaves like Vec, from both languages", "statement": "For every program over cc_std::std::vector objects (creation, every mutating method, append, split_off, indexing, slices, iteration, conversion, and changes and reads made by C++ in between), each result and each vector's contents are those of the same calls on Rust's Vec; no memory is read or written out of bounds, uninitialised, freed or poisoned; and at every point the object is laid out as C++'s std::vector expects. After reserve(n) there is room for n more elements.", "quantifier": "all programs, element types of non-zero size, allocator addresses, growth decisions, both object layouts, with and without AddressSanitizer", "why_tests_cant": "histories and allocator placements are unbounded; a stale pointer shows only in some orders", "anchors": ["support/cc_std_impl/vector.rs: mutate_self_as_vec, set_begin_len_capacity, create_vec_from_raw_parts, append, split_off, into_vec, as_slice, Deref, Clone, IntoIter, From", "support/cc_std_impl/cpp_std_allocator.rs"]}
{"id": "C68", "title": "cc_std vector owns each element and buffer exactly once", "statement": "Every element moved or cloned into a vector is, at any time, in exactly one live variable, or was handed back to the caller, or was destroyed, once; live allocations are exactly the buffers of live variables, each freed once with its own size. When all variables are gone nothing is left.", "quantifier": "all programs as in C67", "why_tests_cant": "leaks and double frees depend on the whole history", "anchors": ["support/cc_std_impl/vector.rs: Drop, into_vec, IntoIter, mutate_self_as_vec", "support/cc_std_impl/std_allocator.h"]}
{"id": "C69", "title": "A panic leaves a cc_std vector valid", "statement": "If a vector operation panics - because of an index or in code supplied by the caller (iterator, clone, closure) - the vector is still valid: it can be used and dropped.", "quantifier": "all vectors, methods, callbacks, points of panic and growth decisions", "why_tests_cant": "tests cover few panic points", "anchors": ["support/cc_std_impl/vector.rs: mutate_self_as_vec"]}
{"id": "C70", "title": "AddressSanitizer annotations match the vector", "statement": "With AddressSanitizer, the elements of a vector are always accessible from both languages and, between operations, the unused rest of its buffer is poisoned.", "quantifier": "all programs as in C67", "why_tests_cant": "needs every history, and ASan runs see only one", "anchors": ["support/cc_std_impl/vector.rs: asan_poison_tail, asan_unpoison_tail, set_len"]}
{"id": "C71", "title": "cc_std shared_ptr is memory safe on any number of threads", "statement": "For every program that creates, clones, projects, takes apart, reassembles, dereferences, compares, drops and weakly references shared_ptrs from Rust and C++, and every interleaving of the calls' atomic steps: no freed control block and no destroyed value is touched, whatever a live shared_ptr points into is alive (also after projection through pointers owned by the value), no value is destroyed twice, no block freed twice, and a block is freed only after its value was destroyed.", "quantifier": "all programs, any number of threads, all interleavings at the granularity of one atomic access, all allocation addresses", "why_tests_cant": "races need particular interleavings; projections can chain arbitrarily", "anchors": ["support/cc_std_impl/shared_ptr.rs: new, project, project_unchecked, from_box, from_arc, from_ptr_and_deleter, release, into_raw_parts, try_as_ref, Clone, Drop, SharedInner::deleter", "support/cc_std_impl/std_allocator.h: shared_ptr_ref, shared_ptr_unref, shared_ptr_use_count, DynControlBlock"]}
{"id": "C72", "title": "Reference counts are exact", "statement": "A value is alive as long as it has an owner (variable, parts taken apart, pointer inside a live value, or a drop that has not decremented yet); use_count returns the number of these at every moment; once the last owner is gone no owner ever appears again, and weak_ptr::lock gives a pointer to a live value with one owner more, or null only if no owner was left.", "quantifier": "all programs and interleavings as in C71", "why_tests_cant": "a lost count shows only under contention", "anchors": ["support/cc_std_impl/shared_ptr.rs: use_count, Clone, Drop", "support/cc_std_impl/std_allocator.h: shared_ptr_ref, shared_ptr_unref, shared_ptr_use_count, DynControlBlock"]}
{"id": "C73", "title": "Nothing is left behind and calls end", "statement": "When no call is in progress every control block is held by a live pointer (directly or through values) or, with its value gone, by a weak_ptr; when all pointers are gone every value created was destroyed and freed exactly once. Calls in progress are never stuck and finish within a bounded number of steps. Ownership is lost only by a panicking projection.", "quantifier": "all programs and interleavings as in C71", "why_tests_cant": "leaks depend on the whole history; livelock cannot be observed", "anchors": ["support/cc_std_impl/shared_ptr.rs: Drop, SharedInner::deleter", "support/cc_std_impl/std_allocator.h: shared_ptr_ref, shared_ptr_unref, shared_ptr_use_count, DynControlBlock"]}
{"id": "C74", "title": "from_ptr_and_deleter accepts null, and a panicking projection does not leak", "statement": "from_ptr_and_deleter may be called with a null pointer, and if the closure given to project panics the value is still destroyed when its last owner is gone.", "quantifier": "all calls", "why_tests_cant": "documented contract, never exercised by tests", "anchors": ["support/cc_std_impl/shared_ptr.rs: from_ptr_and_deleter, project_unchecked"]}
{"id": "C75", "title": "A Rust value held by a generated C++ class is dropped exactly once", "statement": "For every Rust type with a C++ class and every C++ program that default-constructs, converts, copies, moves, assigns (also to itself), destroys, passes to and receives from Rust functions objects of it: no uninitialised memory is used as a value, every value made has at every moment exactly one owner (a C++ object or Rust code), and when all owners are gone each value was dropped exactly once.", "quantifier": "all combinations of needs_drop/Default/Copy/Clone/Unpin/ABI, all finite histories of operations on any number of objects", "why_tests_cant": "histories are unbounded; double drops need a destructor with an effect and the right combination of traits", "anchors": ["cc_bindings_from_rs/generate_bindings/lib.rs: generate_default_ctor, copy_ctor_style_to_snippets, move_ctor_style_to_snippets", "cc_bindings_from_rs/generate_bindings/database/adt_core_bindings.rs: CopyCtorStyle, MoveCtorStyle", "cc_bindings_from_rs/generate_bindings/generate_struct_and_union.rs: generate_adt (destructor), generate_constructor_impls, generate_relocating_ctor", "cc_bindings_from_rs/generate_bindings/generate_function.rs: cc_param_to_c_abi, cc_return_value_from_c_abi", "support/internal/slot.h: Slot, Slot<std::array>", "support/internal/memswap.h: MemSwap"]}
{"id": "C76", "title": "Moves, copies and calls transfer the right data", "statement": "Every constructor, assignment and call gives the target the data of its source, leaves a copied-from object alone, leaves a moved-from object either unchanged, or default, or (move assignment) with the old value of the target, changes no other object, and self-assignment changes nothing; a Rust function receives the data of its argument.", "quantifier": "all combinations of traits, all reachable states, all operations, all other objects", "why_tests_cant": "the absence of a change to any other object, and self-assignment in every state, cannot be enumerated", "anchors": ["cc_bindings_from_rs/generate_bindings/lib.rs: generate_default_ctor, copy_ctor_style_to_snippets, move_ctor_style_to_snippets", "cc_bindings_from_rs/generate_bindings/database/adt_core_bindings.rs: CopyCtorStyle, MoveCtorStyle", "cc_bindings_from_rs/generate_bindings/generate_struct_and_union.rs: generate_adt (destructor), generate_constructor_impls, generate_relocating_ctor", "cc_bindings_from_rs/generate_bindings/generate_function.rs: cc_param_to_c_abi, cc_return_value_from_c_abi", "support/internal/slot.h: Slot, Slot<std::array>", "support/internal/memswap.h: MemSwap"]}
{"id": "C77", "title": "MemSwap exchanges two objects", "statement": "For every memory, size and pair of objects that are the same or do not overlap, MemSwap never calls memcpy on overlapping ranges, exchanges their bytes and changes no other byte.", "quantifier": "all memories, sizes, addresses", "why_tests_cant": "addresses and sizes are unbounded", "anchors": ["support/internal/memswap.h: MemSwap"]}
{"id": "C78", "title": "Code generated for accepted functions and constructors can be used", "statement": "If the generator accepts a function with a by-value parameter of some type, or emits a default or copy constructor, then C++ code can call it in every reachable state (the generated body does not use a deleted function).", "quantifier": "all combinations of traits, all reachable states", "why_tests_cant": "goldens cover a few combinations and inline bodies are only compiled when used", "anchors": ["cc_bindings_from_rs/generate_bindings/lib.rs: generate_default_ctor, copy_ctor_style_to_snippets, move_ctor_style_to_snippets", "cc_bindings_from_rs/generate_bindings/database/adt_core_bindings.rs: CopyCtorStyle, MoveCtorStyle", "cc_bindings_from_rs/generate_bindings/generate_function.rs: cc_param_to_c_abi, cc_return_value_from_c_abi", "cc_bindings_from_rs/generate_bindings/generate_function_thunk.rs: generate_thunk_decl", "cc_bindings_from_rs/generate_bindings/format_type.rs: format_ty_for_cc"]}
{"id": "C79", "title": "The C++ declaration of a thunk is the Rust definition of it", "statement": "For every function signature accepted, the extern \"C\" declaration emitted for C++ has the same parameter kinds (by value or pointer, in the same order, with the return pointer in the same place) and the same return as the Rust extern \"C\" function it is linked to, be it a generated thunk or the Rust function itself, and the C++ wrapper passes what is declared.", "quantifier": "all signatures over all nested types, constructors and functions, all configurations", "why_tests_cant": "the linker does not check; a mismatch is undefined behaviour that may still work on one machine", "anchors": ["cc_bindings_from_rs/generate_bindings/generate_function_thunk.rs: generate_thunk_decl, generate_thunk_impl, c_abi_for_param_type, convert_value_from_c_abi_to_rust, write_rs_value_to_c_abi_ptr, is_thunk_required", "cc_bindings_from_rs/generate_bindings/generate_function.rs: cc_param_to_c_abi, cc_return_value_from_c_abi, generate_thunk_call", "cc_bindings_from_rs/generate_bindings/query_compiler.rs: is_c_abi_compatible_by_value", "cc_bindings_from_rs/generate_bindings/format_type.rs: format_ty_for_cc, is_bridged_type"]}
{"id": "C80", "title": "Arguments arrive in Rust", "statement": "For every function accepted and every list of C++ arguments, the Rust function receives for each parameter, in order, the Rust value of that argument: tuples element by element at every depth, bridged types through their conversion, all else bit by bit; no pointer in the exchange is read as anything but what it points to.", "quantifier": "all nested types, all argument values, all conversion functions", "why_tests_cant": "types nest without bound and the generated code is recursive in them", "anchors": ["cc_bindings_from_rs/generate_bindings/generate_function_thunk.rs: generate_thunk_decl, generate_thunk_impl, c_abi_for_param_type, convert_value_from_c_abi_to_rust, write_rs_value_to_c_abi_ptr, is_thunk_required", "cc_bindings_from_rs/generate_bindings/generate_function.rs: cc_param_to_c_abi, cc_return_value_from_c_abi, generate_thunk_call", "support/internal/slot.h: Slot", "cc_bindings_from_rs/generate_bindings/query_compiler.rs: is_c_abi_compatible_by_value", "cc_bindings_from_rs/generate_bindings/format_type.rs: format_ty_for_cc, is_bridged_type"]}
{"id": "C81", "title": "Results arrive in C++", "statement": "For every return type accepted and every Rust result, the C++ wrapper returns the C++ value of it (so a value that goes to Rust and comes back is unchanged if the conversions of its types are inverses), and a constructor implemented by a Rust function leaves that value in the object.", "quantifier": "all nested types, all values, all conversion functions", "why_tests_cant": "types nest without bound and the generated code is recursive in them", "anchors": ["cc_bindings_from_rs/generate_bindings/generate_function_thunk.rs: generate_thunk_decl, generate_thunk_impl, c_abi_for_param_type, convert_value_from_c_abi_to_rust, write_rs_value_to_c_abi_ptr, is_thunk_required", "cc_bindings_from_rs/generate_bindings/generate_function.rs: cc_param_to_c_abi, cc_return_value_from_c_abi, generate_thunk_call", "support/internal/slot.h: Slot", "cc_bindings_from_rs/generate_bindings/query_compiler.rs: is_c_abi_compatible_by_value", "cc_bindings_from_rs/generate_bindings/format_type.rs: format_ty_for_cc, is_bridged_type", "cc_bindings_from_rs/generate_bindings/lib.rs: generate_default_ctor, copy_ctor_style_to_snippets"]}
{"id": "C82", "title": "Ownership of arguments moves to Rust exactly for what Rust takes", "statement": "After a call, every part of an argument that has drop glue or is bridged by encoding has been moved from or released on the C++ side, and every other part is untouched.", "quantifier": "all nested types, all argument values", "why_tests_cant": "double drops and leaks need types with effects in destructors at every nesting", "anchors": ["cc_bindings_from_rs/generate_bindings/generate_function.rs: cc_param_to_c_abi, cc_return_value_from_c_abi, generate_thunk_call", "support/internal/slot.h: Slot", "cc_bindings_from_rs/generate_bindings/generate_function_thunk.rs: generate_thunk_decl, generate_thunk_impl, c_abi_for_param_type, convert_value_from_c_abi_to_rust, write_rs_value_to_c_abi_ptr, is_thunk_required"]}
{"id": "C83", "title": "The wrapper of an accepted function compiles for its types", "statement": "If the generator accepts a type as parameter or return type, the C++ code generated for moving it uses no special member function its C++ class lacks.", "quantifier": "all nested types, all combinations of special member functions", "why_tests_cant": "goldens cover a few combinations", "anchors": ["cc_bindings_from_rs/generate_bindings/generate_function_thunk.rs: generate_thunk_decl, generate_thunk_impl, c_abi_for_param_type, convert_value_from_c_abi_to_rust, write_rs_value_to_c_abi_ptr, is_thunk_required", "cc_bindings_from_rs/generate_bindings/generate_function.rs: cc_param_to_c_abi, cc_return_value_from_c_abi, generate_thunk_call", "support/internal/slot.h: Slot", "cc_bindings_from_rs/generate_bindings/format_type.rs: format_ty_for_cc, is_bridged_type", "cc_bindings_from_rs/generate_bindings/database/type_location.rs: TypeLocation"]}
{"id": "C84", "title": "Locals of a wrapper have distinct names", "statement": "For every accepted function no two parameters or local variables of the generated C++ wrapper have the same name.", "quantifier": "all signatures and parameter names", "why_tests_cant": "names and nesting are unbounded", "anchors": ["cc_bindings_from_rs/generate_bindings/generate_function.rs: cc_param_to_c_abi, cc_return_value_from_c_abi, generate_thunk_call"]}
{"id": "C85", "title": "Bindings that compile have the layout of C++", "statement": "For every C++ struct, class or union with bindings: if the generated Rust code compiles, the Rust type has the size and the alignment of the C++ type and every member that is not a bit-field and takes up space is a field at its C++ offset.", "quantifier": "all classes and unions a compiler following the Itanium ABI can lay out: all member lists, offsets, bases, bit-fields, [[no_unique_address]] members, alignas", "why_tests_cant": "layouts are unbounded and a field that is missed by the assertions would be silent memory corruption", "anchors": ["rs_bindings_from_cc/generate_bindings/generate_struct_and_union.rs: generate_record, field_definition, get_field_rs_type_kind_for_layout", "rs_bindings_from_cc/generate_bindings/generate_struct_and_union.rs: rs_size_align_assertions, cc_struct_no_unique_address_impl", "rs_bindings_from_cc/generate_bindings/database/code_snippet.rs: Record, FieldDefinition, BitPadding, NoUniqueAddressAccessor", "rs_bindings_from_cc/importers/cxx_record.cc: ImportFields"]}
{"id": "C86", "title": "Generating the fields of a record does not panic", "statement": "For every class or union the compiler can lay out, the assertions, subtractions and expectations in the generator of its fields hold: code is generated.", "quantifier": "all classes and unions, whichever members have Rust types", "why_tests_cant": "the interplay of offsets of bit-fields, overlapping and unknown members is unbounded", "anchors": ["rs_bindings_from_cc/generate_bindings/generate_struct_and_union.rs: generate_record, field_definition, get_field_rs_type_kind_for_layout", "rs_bindings_from_cc/importers/cxx_record.cc: ImportFields"]}
{"id": "C87", "title": "The generated struct compiles", "statement": "For every C++ class, the size, alignment and field offsets rustc gives to the generated repr(C) struct satisfy the static assertions in the generated code.", "quantifier": "all classes a compiler following the Itanium ABI can lay out", "why_tests_cant": "the generator pads and merges fields depending on their neighbours; goldens cover some combinations", "anchors": ["rs_bindings_from_cc/generate_bindings/generate_struct_and_union.rs: generate_record, field_definition, get_field_rs_type_kind_for_layout", "rs_bindings_from_cc/generate_bindings/database/code_snippet.rs: Record, FieldDefinition, BitPadding, NoUniqueAddressAccessor", "rs_bindings_from_cc/importers/cxx_record.cc: ImportFields"]}
{"id": "C88", "title": "The generated union compiles", "statement": "For every C++ union, the size, alignment and field offsets rustc gives to the generated repr(C) union satisfy the static assertions in the generated code.", "quantifier": "all unions", "why_tests_cant": "as C87", "anchors": ["rs_bindings_from_cc/generate_bindings/generate_struct_and_union.rs: generate_record, field_definition, get_field_rs_type_kind_for_layout", "rs_bindings_from_cc/generate_bindings/database/code_snippet.rs: Record, FieldDefinition, BitPadding, NoUniqueAddressAccessor", "rs_bindings_from_cc/importers/cxx_record.cc: ImportFields"]}
{"id": "C89", "title": "Thread-safe records have the layout of C++", "statement": "For every class annotated as thread-safe, the opaque struct generated for it has the size and the alignment of the class.", "quantifier": "all classes", "why_tests_cant": "as C87", "anchors": ["rs_bindings_from_cc/generate_bindings/generate_struct_and_union.rs: generate_record, field_definition, get_field_rs_type_kind_for_layout", "rs_bindings_from_cc/generate_bindings/database/code_snippet.rs: Record, FieldDefinition, BitPadding, NoUniqueAddressAccessor"]}
{"id": "C90", "title": "Accessors of [[no_unique_address]] members are memory safe and total", "statement": "For every object, the reference returned by the accessor generated for a [[no_unique_address]] member lies within the object, is aligned for the type, and is where C++ has that member; and a record with such members has bindings.", "quantifier": "all classes, all members, all addresses", "why_tests_cant": "overlapping members are reached by pointer arithmetic in unsafe code", "anchors": ["rs_bindings_from_cc/generate_bindings/generate_struct_and_union.rs: rs_size_align_assertions, cc_struct_no_unique_address_impl", "rs_bindings_from_cc/generate_bindings/database/code_snippet.rs: Record, FieldDefinition, BitPadding, NoUniqueAddressAccessor"]}
{"id": "C91", "title": "Constants keep their value", "statement": "For every C++ integer constant or enumerator for which bindings are generated, the Rust constant has the same value; and every constant whose value fits in 64 bits gets bindings.", "quantifier": "all targets, all primitive integer types, all values", "why_tests_cant": "the value crosses LLVM's APSInt, a (sign, 64 bit) pair, a literal and rustc's typing of it, with a type that depends on the target", "anchors": ["rs_bindings_from_cc/ir.h: IntegerConstant", "rs_bindings_from_cc/generate_bindings/database/code_snippet.rs: integer_constant_to_token_stream", "rs_bindings_from_cc/generate_bindings/database/rs_snippet.rs: PrimitiveName::from_primitive", "support/ffi_11/src/lib.rs"]}
{"id": "C92", "title": "ffi_11 types are one to one", "statement": "On every supported target: distinct C++ fundamental types have distinct ffi_11 types; an ffi_11 type is iN or uN exactly if the C++ type is intN_t or uintN_t; widths (and, but for char and wchar_t, signs) are those of C++; new types have the CFI encoding of the C++ type.", "quantifier": "all targets distinguished by the crate, all fundamental types, all N", "why_tests_cant": "a test runs on one target only", "anchors": ["support/ffi_11/src/lib.rs"]}
{"id": "C93", "title": "ffi_11 conversions", "statement": "Every From conversion between ffi_11 types and builtin ones compiles on its target and preserves every value; c_char converts to and from i8 and u8 without loss; every lossless conversion is provided.", "quantifier": "all targets, all pairs of types, all values", "why_tests_cant": "pairs of types times targets times values", "anchors": ["support/ffi_11/src/lib.rs", "support/ffi_11/src/newtype.rs: new_integer, wrapped_to_wrapped"]}
{"id": "C94", "title": "ffi_11 values compare and widen as in C++", "statement": "For all values that came from C++, comparing two of them in Rust and converting one to a wider type gives what C++ gives.", "quantifier": "all targets, all integer types, all bit patterns", "why_tests_cant": "depends on the signedness of char and wchar_t of the target", "anchors": ["support/ffi_11/src/lib.rs", "support/ffi_11/src/newtype.rs: new_integer, wrapped_to_wrapped"]}
{"id": "C95", "title": "Dropping runs every C++ destructor exactly once, in C++ order", "statement": "For every C++ class with a usable destructor whose bindings compile: dropping the Rust value runs the destructors that destroying the C++ object runs, on the same subobjects, in the same order, each once.", "quantifier": "all classes and unions, all nestings of members and bases, all kinds of destructors", "why_tests_cant": "fields are destroyed by C++ or by Rust's drop glue depending on traits of nested types; a mistake is a double free or a leak", "anchors": ["rs_bindings_from_cc/ir.rs: should_implement_drop, should_derive_copy, check_by_value", "rs_bindings_from_cc/generate_bindings/generate_struct_and_union.rs: field_definition, needs_manually_drop, generate_derives, get_field_rs_type_kind_for_layout", "rs_bindings_from_cc/generate_bindings/generate_function.rs: api_func_shape_for_destructor, api_func_shape_for_operator_assign, api_func_shape_for_constructor", "rs_bindings_from_cc/ast_convert.cc: GetSpecialMemberFunc"]}
{"id": "C96", "title": "Derived traits compile", "statement": "For every C++ class, the derive(Clone, Copy) attribute generated for it is accepted by rustc.", "quantifier": "all classes and unions, all member types", "why_tests_cant": "traits of the members are predicted from C++ facts about the class alone", "anchors": ["rs_bindings_from_cc/ir.rs: should_implement_drop, should_derive_copy, check_by_value", "rs_bindings_from_cc/generate_bindings/database/rs_snippet.rs: should_derive_clone, implements_copy", "rs_bindings_from_cc/generate_bindings/generate_struct_and_union.rs: field_definition, needs_manually_drop, generate_derives, get_field_rs_type_kind_for_layout", "rs_bindings_from_cc/ast_convert.cc: GetSpecialMemberFunc"]}
{"id": "C97", "title": "Unions only have fields that unions may have", "statement": "For every C++ union, rustc accepts the types of the fields of the generated union.", "quantifier": "all unions, all member types", "why_tests_cant": "as C96", "anchors": ["rs_bindings_from_cc/generate_bindings/generate_struct_and_union.rs: field_definition, needs_manually_drop, generate_derives, get_field_rs_type_kind_for_layout", "rs_bindings_from_cc/generate_bindings/database/code_snippet.rs: FieldType, BitPadding, Record"]}
{"id": "C98", "title": "Copying and assigning from Rust does what C++ does", "statement": "A type is Copy or has a derived Clone only if copying it, and all subobjects, is bitwise in C++; assignment from Rust runs the assignment operator unless it is trivial.", "quantifier": "all classes, all subobjects", "why_tests_cant": "depends on all nested types", "anchors": ["rs_bindings_from_cc/ir.rs: should_implement_drop, should_derive_copy, check_by_value", "rs_bindings_from_cc/generate_bindings/database/rs_snippet.rs: should_derive_clone, implements_copy", "rs_bindings_from_cc/generate_bindings/generate_function.rs: api_func_shape_for_destructor, api_func_shape_for_operator_assign, api_func_shape_for_constructor"]}
{"id": "C99", "title": "Structs with lifetime parameters parse", "statement": "For every class and any number of lifetime parameters, the body of the generated struct is well-formed.", "quantifier": "all numbers of fields and lifetime parameters", "why_tests_cant": "goldens have one lifetime only", "anchors": ["rs_bindings_from_cc/generate_bindings/database/code_snippet.rs: FieldType, BitPadding, Record"]}
{"id": "C100", "title": "Each record's nested items have one module of their own", "statement": "For every set of C++ declarations of a scope: the module generated for the nested items of a class is the one that paths to these items name, no other class uses it, and nothing else in the scope has its name.", "quantifier": "all lists of declarations of a scope, all spellings", "why_tests_cant": "two separate passes compute the name from maps built in declaration order", "anchors": ["rs_bindings_from_cc/generate_bindings/has_bindings.rs: resolve_type_names, resolve_names", "rs_bindings_from_cc/generate_bindings/database/db.rs: record_to_associated_module_name", "rs_bindings_from_cc/generate_bindings/database/code_snippet.rs: ResolvedName::coalesce, MainApi"]}
{"id": "C101", "title": "Naming never crashes the generator", "statement": "For every set of declarations that C++ accepts in one scope, names are resolved without a panic.", "quantifier": "all lists of declarations, in any order", "why_tests_cant": "collisions depend on combinations of kinds of declarations", "anchors": ["rs_bindings_from_cc/generate_bindings/has_bindings.rs: resolve_type_names, resolve_names", "rs_bindings_from_cc/generate_bindings/database/code_snippet.rs: ResolvedName::coalesce, MainApi", "rs_bindings_from_cc/generate_bindings/database/db.rs: record_to_associated_module_name"]}
{"id": "C102", "title": "Nothing is defined twice in one Rust module", "statement": "For every C++ scope, the modules and types generated in the Rust module for it have pairwise different names.", "quantifier": "all lists of declarations, all ways to reopen a namespace", "why_tests_cant": "as C101", "anchors": ["rs_bindings_from_cc/generate_bindings/has_bindings.rs: resolve_type_names, resolve_names", "rs_bindings_from_cc/generate_bindings/database/code_snippet.rs: ResolvedName::coalesce, MainApi", "rs_bindings_from_cc/generate_bindings/database/db.rs: record_to_associated_module_name"]}
{"id": "C103", "title": "Public bindings do not expose crate-private types", "statement": "For every C++ declaration whose binding is `pub`: no type in its signature is a `pub(crate)` struct of the crate (which rustc rejects under the generated deny(warnings)).", "quantifier": "all functions, variables, aliases and fields, all types nested to any depth, all feature sets", "why_tests_cant": "visibility is decided by a traversal of the type; every type constructor must be covered", "anchors": ["rs_bindings_from_cc/generate_bindings/has_bindings.rs: has_bindings, func_has_bindings, type_target_restriction", "rs_bindings_from_cc/generate_bindings/database/db.rs: type_visibility", "rs_bindings_from_cc/generate_bindings/database/rs_snippet.rs: RsTypeKindIter, missing_feature_descriptions_of_type, UniformReprTemplateType, to_token_stream", "rs_bindings_from_cc/generate_bindings/generate_struct_and_union.rs: field_definition"]}
{"id": "C104", "title": "Generated paths resolve", "statement": "Every struct or alias named in generated code is public or belongs to the crate that names it.", "quantifier": "all types, all assignments of declarations to targets", "why_tests_cant": "depends on pairs of targets; tests look at one", "anchors": ["rs_bindings_from_cc/generate_bindings/has_bindings.rs: has_bindings, func_has_bindings, type_target_restriction", "rs_bindings_from_cc/generate_bindings/database/db.rs: type_visibility", "rs_bindings_from_cc/generate_bindings/database/rs_snippet.rs: RsTypeKindIter, missing_feature_descriptions_of_type, UniformReprTemplateType, to_token_stream"]}
{"id": "C105", "title": "Unsupported types are opt-in", "statement": "A target that has not enabled :wrapper gets no bindings that mention unsupported, incomplete or template types, and bindings that mention unsupported types are `pub(crate)`.", "quantifier": "all declarations, all types nested to any depth, all feature sets", "why_tests_cant": "as C103", "anchors": ["rs_bindings_from_cc/generate_bindings/has_bindings.rs: has_bindings, func_has_bindings, type_target_restriction", "rs_bindings_from_cc/generate_bindings/database/db.rs: type_visibility", "rs_bindings_from_cc/generate_bindings/database/rs_snippet.rs: RsTypeKindIter, missing_feature_descriptions_of_type, UniformReprTemplateType, to_token_stream", "rs_bindings_from_cc/generate_bindings/database/code_snippet.rs: missing_feature_descriptions, Visibility"]}
{"id": "C106", "title": "Overload sets", "statement": "A C++ function gets bindings exactly when it is the only choice for its Rust name: no other function asks for the name, or all the others are deprecated and it is not. No Rust name is defined twice, and the order of the C++ declarations does not matter.", "quantifier": "all sets of functions, all orders, any number of overloads", "why_tests_cant": "ranges over all overload sets and their permutations", "anchors": ["rs_bindings_from_cc/generate_bindings/generate_function.rs: overload_sets, get_binding, api_func_shape_for_operator_eq, api_func_shape_for_operator_ne, api_func_shape_for_operator_lt, generate_function", "rs_bindings_from_cc/generate_bindings/database/db.rs: is_ambiguous_function", "rs_bindings_from_cc/generate_bindings/lib.rs: generate_item_impl"]}
{"id": "C107", "title": "Comparison operators mean the same in Rust", "statement": "`a == b` and `a != b` in Rust are the C++ operator== (or, only if no usable one exists, the negation of operator!=) on the same operands, `a < b` is the C++ operator<, and if these form a partial order then partial_cmp, >, <=, >= satisfy the contract of PartialOrd.", "quantifier": "all classes, all operator semantics, all operands", "why_tests_cant": "quantifies over every C++ implementation of the operators and all operands", "anchors": ["rs_bindings_from_cc/generate_bindings/generate_function.rs: overload_sets, get_binding, api_func_shape_for_operator_eq, api_func_shape_for_operator_ne, api_func_shape_for_operator_lt, generate_function"]}
{"id": "C108", "title": "PartialOrd comes with PartialEq", "statement": "Whenever `impl PartialOrd` is generated for a type, a usable `impl PartialEq` is generated too, as rustc demands.", "quantifier": "all sets of operators with all parameter passing styles and return types", "why_tests_cant": "one impl depends on the fate of another function; combinations are unbounded", "anchors": ["rs_bindings_from_cc/generate_bindings/generate_function.rs: overload_sets, get_binding, api_func_shape_for_operator_eq, api_func_shape_for_operator_ne, api_func_shape_for_operator_lt, generate_function", "rs_bindings_from_cc/generate_bindings/database/db.rs: is_ambiguous_function"]}
{"id": "C109", "title": "Upcast targets", "statement": "The base classes a Rust user can upcast a C++ object to are exactly its public, unambiguous base classes (with bindings), each once.", "quantifier": "all class hierarchies, with virtual, private and repeated bases", "why_tests_cant": "quantifies over all inheritance graphs", "anchors": ["rs_bindings_from_cc/importers/cxx_record.cc: GetUnambiguousPublicBases"]}
{"id": "C110", "title": "Upcasting gives the base subobject", "statement": "Upcasting a pointer or reference in Rust gives the address of the C++ base class subobject, as the C++ conversion would, for every path and layout; a null pointer stays null.", "quantifier": "all hierarchies, layouts, objects and paths", "why_tests_cant": "addresses depend on the layout and on the dynamic type", "anchors": ["rs_bindings_from_cc/importers/cxx_record.cc: GetUnambiguousPublicBases", "rs_bindings_from_cc/generate_bindings/generate_struct_and_union.rs: cc_struct_upcast_impl, filter_out_ambiguous_member_functions, collect_unqualified_member_functions_from_all_bases", "support/oops.rs: Inherits, Upcast, UnsafeUpcast", "rs_bindings_from_cc/generate_bindings/database/code_snippet.rs: UpcastImplBody"]}
{"id": "C111", "title": "Inherited methods", "statement": "A method available on a derived class in Rust calls the function that C++ finds under this name for the derived class.", "quantifier": "all hierarchies, all names", "why_tests_cant": "name lookup in arbitrary inheritance graphs", "anchors": ["rs_bindings_from_cc/generate_bindings/generate_struct_and_union.rs: cc_struct_upcast_impl, filter_out_ambiguous_member_functions, collect_unqualified_member_functions_from_all_bases"]}
{"id": "C112", "title": "The contract of Ctor", "statement": "For every constructor written with the Ctor API, however combined: if it returns Ok the destination is completely initialised, it never touches memory outside the destination, and a constructor with error type Infallible never returns an error.", "quantifier": "all nestings of the combinators, all failing and panicking closures and destructors", "why_tests_cant": "combinators nest without bound and can fail anywhere", "anchors": ["support/ctor.rs: Ctor, CtorThen, CtorOrElse, CtorMapErr, CtorErrInto, CtorMakeFallible, CtorExpect, CtorUnwrap, CtorUnwrapOrDefault, CtorError, FnCtor, RustMoveCtor, UnreachableCtor", "support/ctor.rs: ctor!, unsafe_ctor_impl!, init_field, UnsafeDropGuard"]}
{"id": "C113", "title": "A failed construction leaves nothing behind", "statement": "If a constructor returns an error or panics at any point, no object stays alive in the destination and every object it constructed was destroyed exactly once; if it succeeds, no live object was overwritten on the way.", "quantifier": "all nestings, all failure and panic points", "why_tests_cant": "the number of failure points is unbounded", "anchors": ["support/ctor.rs: Ctor, CtorThen, CtorOrElse, CtorMapErr, CtorErrInto, CtorMakeFallible, CtorExpect, CtorUnwrap, CtorUnwrapOrDefault, CtorError, FnCtor, RustMoveCtor, UnreachableCtor", "support/ctor.rs: ctor!, unsafe_ctor_impl!, init_field, UnsafeDropGuard"]}
{"id": "C114", "title": "ctor! builds and unwinds in order", "statement": "ctor!{T{a: x, b: y}} constructs the fields in the order written, each once; if the constructor of a field panics, exactly the fields already constructed are destroyed, in that order, and later ones are not touched.", "quantifier": "all structs, field constructors, panic points", "why_tests_cant": "every field of every struct is a possible panic point", "anchors": ["support/ctor.rs: ctor!, unsafe_ctor_impl!, init_field, UnsafeDropGuard"]}
{"id": "C115", "title": "Ctor combinators act like Result", "statement": "ctor_then, ctor_map_err, ctor_or_else, ctor_expect, ctor_unwrap, ctor_unwrap_or_default, ctor_err_into and ctor_make_fallible return what the Result method they are named after would.", "quantifier": "all nestings and closures", "why_tests_cant": "combinators nest without bound", "anchors": ["support/ctor.rs: Ctor, CtorThen, CtorOrElse, CtorMapErr, CtorErrInto, CtorMakeFallible, CtorExpect, CtorUnwrap, CtorUnwrapOrDefault, CtorError, FnCtor, RustMoveCtor, UnreachableCtor"]}
{"id": "C116", "title": "Slots", "statement": "Through every history of replace, try_replace and clear, with constructors that fail or panic, as_opt tells whether a live value is there; once the slot is dropped every value ever put in it was destroyed exactly once.", "quantifier": "all histories of slot operations", "why_tests_cant": "histories are unbounded", "anchors": ["support/ctor.rs: Slot, emplace!, try_emplace!"]}
{"id": "C117", "title": "Owners of constructed values", "statement": "A value emplaced in Box, Rc or Arc is destroyed exactly once, with its owner; reconstruct destroys the old value before constructing the new one and never leaves the place empty.", "quantifier": "all constructors, values and panics", "why_tests_cant": "ranges over all constructors and panicking destructors", "anchors": ["support/ctor.rs: construct, Emplace, reconstruct, abort_on_unwind"]}
{"id": "C118", "title": "Rust closures in C++ end exactly once", "statement": "Every Rust closure given to C++ as a DynCallable is dropped, consumed by a call, or given back to Rust exactly once, through any history of moves, assignments, swaps, calls and destructions of DynCallable objects.", "quantifier": "all histories of operations on any number of handles, for Fn, FnMut and FnOnce closures", "why_tests_cant": "histories are unbounded and the bug classes (double drop, leak) depend on the order of moves", "anchors": ["support/rs_std/dyn_callable.h: DynCallable", "support/rs_std/dyn_callable.rs: DynCallable, TypeErasedState", "rs_bindings_from_cc/generate_bindings/lib.rs: generated manager and invoker"]}
{"id": "C119", "title": "DynCallable behaves as documented", "statement": "A DynCallable runs the closure it owns when called, is empty after being moved from, terminates the program when called while empty or a second time (FnOnce), and converts to bool accordingly.", "quantifier": "all histories of operations, closures of the three kinds, panicking closures", "why_tests_cant": "histories are unbounded", "anchors": ["support/rs_std/dyn_callable.h: DynCallable", "rs_bindings_from_cc/generate_bindings/lib.rs: generated manager and invoker"]}
{"id": "C120", "title": "rs::Movable is an optional value", "statement": "For every C++ type, relocatable or only movable, an rs::Movable behaves as an optional value through any history of copies, moves, assignments (also to itself), also with throwing copies; valueless_after_move is exact; every object is destroyed exactly once and uninitialised bytes are never used.", "quantifier": "all types, all histories, all points where a copy throws", "why_tests_cant": "histories are unbounded", "anchors": ["support/movable.h: rs::Movable"]}
{"id": "C121", "title": "Values cross the boundary exactly once", "statement": "A C++ value passed by value to a Rust function is handed over exactly once and not destroyed by the caller; a value returned from Rust arrives as the value of the result object and is destroyed exactly once.", "quantifier": "all types and histories of calls", "why_tests_cant": "quantifies over all types and histories", "anchors": ["support/internal/slot.h: crubit::Slot", "cc_bindings_from_rs/generate_bindings/generate_function.rs: arguments and return values passed through Slot"]}
{"id": "C122", "title": "Futures returned to C++", "statement": "A Rust future returned to C++ is polled only through the handle that owns it, Poll returns whether it was ready and writes its output exactly then, moved-from handles are pending forever, and every future is dropped (or given back) exactly once and never polled afterwards.", "quantifier": "all future behaviours, all histories of polls, moves, discards, destructions, interleaved with threads using wakers", "why_tests_cant": "futures are arbitrary state machines and histories are unbounded", "anchors": ["support/rs_std/dyn_erased_future.h: DynErasedFuture", "support/rs_std/dyn_erased_future.rs", "support/rs_std/erased_future.rs: ErasedFuture::poll_erased", "support/rs_std/dyn_future.rs: DynFuture"]}
{"id": "C123", "title": "Wakers given to Rust", "statement": "Waking a Waker that Rust obtained from a C++ waker wakes the right C++ task exactly once per wake; no C++ waker is used after it was destroyed, and each is destroyed exactly once when its last reference is gone, whatever Rust code does with its Wakers and when.", "quantifier": "all executors (counting or copying Clone), all future behaviours, all interleavings of wakes, clones and drops", "why_tests_cant": "interleavings and numbers of clones are unbounded", "anchors": ["support/rs_std/waker.h: Waker", "support/rs_std/waker.cc", "support/rs_std/cpp_waker.h", "support/rs_std/cpp_waker.cc", "support/rs_std/dyn_erased_future.rs: RS_STD_WAKER_VTABLE"]}
{"id": "C124", "title": "C++ loops over Rust iterators", "statement": "A C++ range-based for over rs::IteratorAdapter visits the same items, calls next equally often, and leaves the iterator in the same state as the Rust for loop with the same body, whether it breaks or reaches the end, for values and for pointers to iterators.", "quantifier": "all iterators (fused or not), all loop bodies, all lengths", "why_tests_cant": "iterators and bodies are arbitrary", "anchors": ["support/rs_std/iterator_adapter.h: IteratorAdapter, impl<T*, Iterator>"]}
{"id": "C125", "title": "Nullability verdicts mean what they say", "statement": "At any program point, a pointer is reported nullable exactly if it is provably null in reachable code or comes from a nullable source and may be null there, and non-null exactly if it is null in no execution that reaches the point; declared nullability alone decides for a new pointer; nothing is reported nullable in unreachable code; a solver that gives up never makes a wrong non-null verdict.", "quantifier": "all flow conditions, invariants, pointer states, additional constraints, and all sound solvers", "why_tests_cant": "formulas and solver behaviours are unbounded", "anchors": ["nullability/pointer_nullability.cc: isNullable, getNullability, initPointerNullState, getNullabilityForNullptrT"]}
{"id": "C126", "title": "Merging control flow keeps pointer states exact", "statement": "After a merge point the null state of a pointer is, in every execution, that of the branch the execution took: no nullable pointer is lost, no non-null pointer is invented, and no warning appears that no branch justifies.", "quantifier": "all pairs of branches, flow conditions and pointer states", "why_tests_cant": "quantifies over all formulas and executions", "anchors": ["nullability/pointer_nullability_analysis.cc: mergeFormulas, join"]}
{"id": "C127", "title": "Widening is safe and makes loops converge", "statement": "Widening a pointer in a loop gives a state that covers the current one, reports no change only if the previous state already covers the current one, and can report a change only a bounded number of times.", "quantifier": "all previous and current states, all sequences of loop iterations", "why_tests_cant": "sequences of iterations are unbounded", "anchors": ["nullability/pointer_nullability_analysis.cc: widenNullabilityProperty, widen, compare"]}
{"id": "C128", "title": "The nullability of a type is what was written", "statement": "The nullability vector of a C++ type has, for each pointer of the canonical type in order, the outermost annotation written on it, seen through typedefs, alias templates, class template arguments and qualifiers, with unannotated pointers taking the default of the file that wrote them; no annotation is left over; and the length of the vector depends only on the canonical type, so vectors of the same type written in two ways can be compared slot by slot.", "quantifier": "all types, all sugar nestings, all files and pragmas", "why_tests_cant": "types nest to any depth and combine sugar in unboundedly many ways", "anchors": ["nullability/type_nullability.cc: NullabilityWalker, getTypeNullability, countPointersInType"]}
{"id": "C129", "title": "\"Unknown\" never fights with another annotation", "statement": "Reading a type never trips the assertion about Unknown wrapped around nullability sugar: Unknown around an alias or an annotated pointer is ignored.", "quantifier": "all types", "why_tests_cant": "quantifies over all nestings of aliases", "anchors": ["nullability/type_nullability.cc: sawNullability, isUnknownValidOn, unwrapAlias"]}
{"id": "C130", "title": "Rebuilding a type with a nullability is exact", "statement": "Rebuilding a canonical type with a nullability vector gives a type with the same canonical type whose nullability, read back, is that vector, and is refused exactly if the vector has the wrong length.", "quantifier": "all types and vectors", "why_tests_cant": "types and vectors are unbounded", "anchors": ["nullability/type_nullability.cc: Rebuilder, rebuildWithNullability"]}
{"id": "C131", "title": "cpp_cast is available exactly for the same C++ type", "statement": "x.cpp_cast() compiles from T to U exactly when T and U bind the same C++ class or are the same kind of pointer, reference (&, Pin<&> and CRef are one kind, &mut, Pin<&mut> and CMut another), array of the same length, slice or Vec of references to such types, with the same lifetimes, and an unpinned exclusive reference only over Unpin; casts are symmetric and compose.", "quantifier": "all pairs of types built from bindings, pointers, references, arrays, slices and Vec", "why_tests_cant": "type nesting is unbounded and the negative cases are compile errors", "anchors": ["support/forward_declare.rs: CppType, CppCoerce, Incomplete, unsafe_define", "support/forward_declare_proc_macros.rs: symbol"]}
{"id": "C132", "title": "cpp_cast keeps referring to the same C++ objects", "statement": "A successful cast keeps the bytes of the value, and whatever memory they point into, reading them at the new type reaches the same C++ objects at the same addresses and indices; a cast of a pointer, reference or Vec never panics.", "quantifier": "all castable pairs of types, all memories", "why_tests_cant": "quantifies over all memories and nestings", "anchors": ["support/forward_declare.rs: cpp_coerce, size_of assertion, Incomplete (type Unsized = ())"]}
{"id": "C133", "title": "cpp_cast is sound for pinning and exclusivity", "statement": "No cast yields an unpinned exclusive reference to a class that is not Unpin, a pinned reference to an unpinned object, or two exclusive references from one duplicable value.", "quantifier": "all castable pairs of types", "why_tests_cant": "quantifies over all types", "anchors": ["support/forward_declare.rs: ref_transmutability, mut_ref_transmutability", "support/cref.rs: CRef, CMut"]}
{"id": "C134", "title": "Generated forward declarations and definitions of one class match", "statement": "The symbol written for a forward declaration of a C++ class in one target equals the symbol written for its definition in another, and symbols of different classes differ.", "quantifier": "all classes in nested namespaces and records, with template arguments, and all pairs of targets", "why_tests_cant": "involves two targets and all qualified names", "anchors": ["rs_bindings_from_cc/generate_bindings/generate_struct_and_union.rs: generate_incomplete_record", "rs_bindings_from_cc/generate_bindings/cpp_type_name.rs: cpp_tagless_type_name_for_record", "common/code_gen_utils.rs: NamespaceQualifier::format_for_cc", "rs_bindings_from_cc/generate_bindings/database/db.rs: namespace_qualifier_from_id"]}
{"id": "C135", "title": "Owned C++ strings in Rust are values", "statement": "In every interleaving of creating, cloning, moving, comparing, dropping, bridging (both ABIs) and mutating std::string between Rust and C++, each variable reads the bytes value semantics predicts whatever C++ leaves in a moved-from string, no string is read after delete or deleted twice, each heap string has one owner, and none leaks.", "quantifier": "all sequences of string operations in both languages, all contents, all leftovers of moves", "why_tests_cant": "histories are unbounded and moved-from contents are unspecified", "anchors": ["support/cc_std_impl/string.rs: string_wrapper, BoxedCppStringAbi, rust_string_to_cpp_string, cpp_string_to_rust_string, new_string", "support/cc_std_impl/conversion_function_helpers.h", "support/bridge.h: BoxedAbi", "cc_bindings_from_rs/generate_bindings/generate_function_thunk.rs"]}
{"id": "C136", "title": "string_view and slices convert both ways", "statement": "Converting a Rust byte slice to raw_string_view keeps its length and (unless empty) its pointer, and gives the null view for the empty slice; converting back never yields a null slice pointer and keeps length and pointer; the debug assertion fires exactly for a null view with nonzero size.", "quantifier": "all pointers and lengths", "why_tests_cant": "all pointers and sizes, including the empty and null corner cases", "anchors": ["support/cc_std_impl/string_view.rs: From<*const [u8]> for raw_string_view, From<raw_string_view> for *const [u8]", "support/cc_std_impl/slice_ptr.rs: get_raw_parts"]}
{"id": "C137", "title": "unique_ptr destroys and frees its object exactly once", "statement": "However unique_ptrs are made from C++ objects, moved, released, used and dropped, each object is either alive and held by exactly one pointer or was destroyed once and then freed once with its type's size and alignment (also when its destructor panics).", "quantifier": "all well-typed sequences of unique_ptr operations, all sizes and alignments", "why_tests_cant": "histories are unbounded", "anchors": ["support/cc_std_impl/unique_ptr.rs: unique_ptr, new, get, release, as_ref, Drop", "support/cc_std_impl/std_allocator.h: cpp_delete"]}
{"id": "C138", "title": "Rust's declaration of a C++ function matches what it links to", "statement": "For every C++ function that gets bindings, the extern \"C\" declaration in Rust and the generated C++ thunk have the same number of parameters and agree on how each one and the result travel; when no thunk is generated, the declaration agrees with the C++ function itself, which is then neither virtual, inline nor a template member and uses the C convention.", "quantifier": "all functions: all parameter and result types with any nesting of aliases, all kinds of members", "why_tests_cant": "types and signatures are unbounded; a mismatch links and corrupts the stack only at run time", "anchors": ["rs_bindings_from_cc/generate_bindings/generate_function_thunk.rs: can_skip_cc_thunk, generate_function_thunk, generate_cc_thunk_parts", "rs_bindings_from_cc/generate_bindings/database/rs_snippet.rs: passing_convention, is_c_abi_compatible_by_value"]}
{"id": "C139", "title": "A call from Rust reaches the C++ function once with the given arguments", "statement": "Calling a bound C++ function from Rust invokes exactly that function once (dynamically dispatched iff virtual, on an rvalue iff &&-qualified), each parameter receives the argument passed (references bind to the very object with the right value category, values arrive unchanged), and the caller gets the result the function returned.", "quantifier": "all accepted functions, all well-typed arguments and results, all prior states", "why_tests_cant": "signatures, values and states are unbounded", "anchors": ["rs_bindings_from_cc/generate_bindings/generate_function.rs: generate_func_body, function_signature", "rs_bindings_from_cc/generate_bindings/generate_function_thunk.rs: generate_cc_thunk_parts"]}
{"id": "C140", "title": "A call from Rust leaves no temporary behind", "statement": "Every temporary object and bridge buffer that a call makes (arguments by value, emplaced constructors, return slots, encoded values) is ended or consumed exactly once, and no other object changes.", "quantifier": "all accepted functions, all well-typed arguments and results, all prior states", "why_tests_cant": "leaks and double destruction depend on the combination of conventions", "anchors": ["rs_bindings_from_cc/generate_bindings/generate_function.rs: generate_func_body, function_signature", "support/bridge.h"]}
{"id": "C141", "title": "Names in generated thunks and bodies mean what they should", "statement": "Whatever the C++ parameters are called (also unnamed or expanded from a pack), all variables of a generated C++ thunk are different, the called name denotes the bound function, Rust constructor bodies pass each parameter, types are spelled by their C++ names, and thunk symbols are identifiers that differ for different functions.", "quantifier": "all parameter lists with distinct unreserved names, all function and type names, all mangled names", "why_tests_cant": "names are unbounded; clashes break the whole generated crate", "anchors": ["rs_bindings_from_cc/generate_bindings/generate_function_thunk.rs: generate_cc_thunk_parts, generate_function_thunk_impl, ident_fragment_from_mangled_name, thunk_ident", "rs_bindings_from_cc/generate_bindings/generate_function.rs: generate_func_body", "rs_bindings_from_cc/generate_bindings/cpp_type_name.rs: tagless_cpp_type_name_for_item", "rs_bindings_from_cc/importers/function.cc: GetTranslatedParamName"]}
{"id": "C142", "title": "Accessors that bypass C++ touch the right field", "statement": "With thunkless accessors, a getter returns the bytes of, and a setter overwrites exactly, the field that the C++ accessor would return or assign.", "quantifier": "all classes with nested bases, all fields, all memory contents", "why_tests_cant": "layouts and memories are unbounded; a wrong offset silently reads other memory", "anchors": ["rs_bindings_from_cc/importers/function.cc: GetPropertyFieldInfo, GetMemberFuncSemantic", "rs_bindings_from_cc/generate_bindings/generate_function.rs: generate_func_body"]}
{"id": "C143", "title": "Every embedded C++ block is found where it is", "statement": "For every Rust file, the blocks that the extractor reports are invocations of inline_cpp!, global_cpp! or DO_NOT_SUBMIT_CPP_DECL! that are in the file, with their exact offset, line, column and body, in source order, without overlap; every invocation is reported (or is text inside a reported block); and it fails exactly when a block is not closed.", "quantifier": "all token sequences of a Rust file", "why_tests_cant": "files are unbounded; a block that is missed or cut wrongly only shows up as a C++ error or a link error", "anchors": ["support/extract_cpp_from_rust/parse_inline_cpp_macros.rs: parse_inline_cpp_macros, MacroParser"]}
{"id": "C144", "title": "C++ diagnostics point to the Rust source", "statement": "Every character of an embedded block has, in the generated header, after the #line directive that precedes it, the file, line and column that it has in the Rust file.", "quantifier": "all files, all blocks, all characters of a block (any UTF-8 text)", "why_tests_cant": "positions depend on all the text before", "anchors": ["support/extract_cpp_from_rust/extract_cpp_from_rust.rs: extract_global_cpp, extract_inline_cpp", "support/extract_cpp_from_rust/parse_inline_cpp_macros.rs: MacroParser"]}
{"id": "C145", "title": "Each inline block has its own function name, known to both sides", "statement": "Two inline blocks never get the same thunk name, the name is a valid identifier, and the name that the Rust macro expands to is the one in the header.", "quantifier": "all targets, paths, lines and columns", "why_tests_cant": "names come from a hash of unbounded input", "anchors": ["support/extract_cpp_from_rust/inline_cpp_utils.rs: compute_thunk_name, Fnv1aHasher", "support/extract_cpp_from_rust/inline_cpp_macro.rs: inline_cpp"]}
{"id": "C146", "title": "The header of a library has all its blocks", "statement": "The generated header has, for every source file, each global block and each inline function exactly once and in order; no header is written if a file is in error; a program that uses the headers of several libraries sees all of them; and global declarations come before the functions that use them.", "quantifier": "all lists of source files", "why_tests_cant": "number of files and blocks is unbounded", "anchors": ["support/extract_cpp_from_rust/extract_cpp_from_rust.rs: extract_cpp_from_rust, extract_global_cpp, extract_inline_cpp"]}
{"id": "C147", "title": "Formatting changes only the layout of the blocks", "statement": "The formatter replaces only the text of the embedded blocks, re-indents it relative to the macro, keeps the C++ code (white space apart) and string literals, and formatting twice is the same as once.", "quantifier": "all files, all behaviours of clang-format", "why_tests_cant": "files and formatter outputs are unbounded", "anchors": ["support/extract_cpp_from_rust/rust_with_cpp_fmt.rs: format_rust_source, run_clang_format"]}
{"id": "C148", "title": "Only well-formed inline functions are accepted", "statement": "An inline block is accepted exactly if it is one C++ function without name: parameter list, arrow, return type, body.", "quantifier": "all block texts", "why_tests_cant": "bodies are unbounded", "anchors": ["support/extract_cpp_from_rust/extract_cpp_from_rust.rs: validate_inline_cpp_syntax, extract_inline_cpp"]}
{"id": "C149", "title": "The editor placeholder has the arity of the function", "statement": "Without a build, inline_cpp! expands to a closure with as many parameters as the C++ signature has.", "quantifier": "all parameter lists", "why_tests_cant": "parameter lists are unbounded", "anchors": ["support/extract_cpp_from_rust/inline_cpp_macro.rs: inline_cpp"]}
{"id": "C150", "title": "The constraints for substituting a callable say when it fits", "statement": "The lifetime constraints computed for a callable and its replacement hold exactly when, by the variance rules for pointers, template arguments, lifetime parameters and functions, the one can be used where the other is required.", "quantifier": "all pairs of functions of one type (any nesting of pointers, classes and functions) and all meanings of their lifetimes", "why_tests_cant": "types nest without bound and the claim is about all assignments of lifetimes", "anchors": ["lifetime_analysis/lifetime_constraints.cc: ForCallableSubstitutionFull, CollectLifetimeConstraints, Compose, AddConstraint", "lifetime_analysis/lifetime_constraints.h"]}
{"id": "C151", "title": "Restricting the constraints to the callable loses nothing", "statement": "The constraints on the callable's lifetimes alone are fulfilled exactly by those lifetimes that can be completed with lifetimes of the replacement so that the two fit.", "quantifier": "all pairs of functions of one type, all meanings of the callable's lifetimes", "why_tests_cant": "existence of a completion over arbitrarily many lifetimes", "anchors": ["lifetime_analysis/lifetime_constraints.cc: ForCallableSubstitution", "lifetime_analysis/lifetime_constraints.h"]}
{"id": "C152", "title": "Isomorphic function lifetimes mean the same", "statement": "Two sets of function lifetimes are reported isomorphic exactly when each function can be used for the other; the fixed point of the analysis of recursive functions relies on it.", "quantifier": "all pairs of functions of one type", "why_tests_cant": "over all functions and all lifetimes", "anchors": ["lifetime_analysis/analyze.cc: IsIsomorphic, AnalyzeRecursiveFunctions"]}
{"id": "C153", "title": "A virtual function's lifetimes hold for all overrides", "statement": "After a virtual function's lifetimes have been constrained by its overrides, every override can be used through it; it is changed only if needed.", "quantifier": "all functions, all lists of overrides, all hash-set orders", "why_tests_cant": "number of overrides and lifetimes is unbounded", "anchors": ["lifetime_analysis/analyze.cc: ConstrainLifetimes, UpdateFunctionLifetimesWithOverrides", "lifetime_analysis/lifetime_constraints.cc: ApplyToFunctionLifetimes"]}
{"id": "C154", "title": "Traversals reach every lifetime with its variance", "statement": "Traversing, testing and substituting the lifetimes of a function reach exactly the lifetimes that occur in it, keep its type, and report a lifetime covariant only where shortening it is safe.", "quantifier": "all functions and values, all visitors", "why_tests_cant": "types nest without bound", "anchors": ["lifetime_annotations/type_lifetimes.cc: ValueLifetimes::Traverse, HasAny, SubstituteLifetimes, ObjectLifetimes::Traverse", "lifetime_annotations/function_lifetimes.cc: FunctionLifetimes::Traverse, HasAny, SubstituteLifetimes"]}
{"id": "C155", "title": "Names and lifetimes correspond one to one", "statement": "In a symbol table, whatever names and lifetimes have been looked up and declared, a name stands for a lifetime exactly when the lifetime has that name; bound names stay bound; a generated name is the first of a, b, ..., z, aa, ... that is not taken.", "quantifier": "all histories of look-ups, declarations and creations of lifetimes", "why_tests_cant": "histories are unbounded", "anchors": ["lifetime_annotations/lifetime_symbol_table.cc: LookupName, LookupNameAndMaybeDeclare, LookupLifetime, LookupLifetimeAndMaybeDeclare, Add, Rebind, NameFromIndex", "lifetime_annotations/lifetime_symbol_table.h"]}
{"id": "C156", "title": "A declaration gets the lifetimes that are written or elided", "statement": "Each place for a lifetime in the parameters and the result of a declaration gets the lifetime of the name written there; an unnamed input gets a lifetime of its own; an unnamed result gets that of this, or else the only input lifetime; otherwise, and for badly formed annotations, the documented error is reported.", "quantifier": "all declarations over all types, all prior symbol tables, elision on or off", "why_tests_cant": "types nest without bound", "anchors": ["lifetime_annotations/lifetime_annotations.cc: GetLifetimeAnnotationsInternal, ParamLifetimeFactory, GetSingleInputLifetime, CreateReturnLifetimes", "lifetime_annotations/type_lifetimes.cc: ValueLifetimes::Create, GetAttributeLifetimes", "lifetime_annotations/function_lifetimes.cc: FunctionLifetimes::Create"]}
{"id": "C157", "title": "Printed lifetimes read back", "statement": "The string that describes a function's lifetimes, used as an annotation of the same declaration, gives the same lifetimes back.", "quantifier": "all declarations, all lifetimes with names", "why_tests_cant": "types nest without bound", "anchors": ["lifetime_annotations/function_lifetimes.cc: FunctionLifetimes::DebugString", "lifetime_annotations/type_lifetimes.cc: ValueLifetimes::DebugString", "lifetime_annotations/lifetime_annotations.cc: ParseLifetimeAnnotations"]}
{"id": "C158", "title": "Annotation strings give names to places in order", "statement": "A string of lifetimes is accepted for a declaration exactly when it has as many names as the declaration has places, and then the i-th name is the lifetime of the i-th place.", "quantifier": "all declarations, all strings, all prior symbol tables", "why_tests_cant": "strings and types are unbounded", "anchors": ["lifetime_annotations/lifetime_annotations.cc: ParseLifetimeAnnotations"]}
{"id": "C159", "title": "The computed points-to sets describe every run", "statement": "Once the lifetime analysis of a function has converged, then on every path through the function and for every memory, each pointer stored in memory and each evaluated expression points to something that its computed points-to set contains.", "quantifier": "all programs of the supported statements, all layouts of memory, all runs, all converged results", "why_tests_cant": "runs and memories are unbounded", "anchors": ["lifetime_analysis/lifetime_analysis.cc: LifetimeAnalysis::transfer, TransferStmtVisitor, TransferInitializer, HandlePointsToSetExtension", "lifetime_analysis/object_repository.cc"]}
{"id": "C160", "title": "Whatever is stored behind a parameter is constrained", "statement": "In every state the analysis computes, a pointer that the function does not own keeps its initial pointees, and everything else it may point to is constrained to outlive them.", "quantifier": "all programs, all orders and numbers of transfers and joins; with C159: all runs", "why_tests_cant": "schedules of the worklist are unbounded", "anchors": ["lifetime_analysis/lifetime_analysis.cc: HandlePointsToSetExtension, GenerateConstraintsForAssignment, VisitBinaryOperator, VisitCallExpr", "lifetime_analysis/lifetime_lattice.cc"]}
{"id": "C161", "title": "Whatever is returned is constrained", "statement": "If a run returns a pointer or reference, then what it points to is constrained to outlive the lifetime in the function's return type.", "quantifier": "all programs, all runs, all converged results", "why_tests_cant": "runs are unbounded", "anchors": ["lifetime_analysis/lifetime_analysis.cc: VisitReturnStmt"]}
{"id": "C162", "title": "Assignments constrain every level of a pointer", "statement": "Assigning a pointer constrains, at every level of pointers below it and through fields and base classes, the new pointee to outlive the old one, and conversely where the position is invariant; and nothing else.", "quantifier": "all types, all points-to maps, all sets of pointers and pointees", "why_tests_cant": "types nest and points-to graphs are unbounded, with cycles", "anchors": ["lifetime_analysis/lifetime_analysis.cc: GenerateConstraintsForAssignmentRecursive, GenerateConstraintsForAssignmentNonRecursive, GenerateConstraintsForSingleAssignment"]}
{"id": "C163", "title": "The analysis of a statement terminates", "statement": "Generating the constraints of an assignment or of the initialization of a variable by a call takes finitely many steps, and the latter makes the lifetimes of both objects equal, place by place.", "quantifier": "all types, all points-to maps", "why_tests_cant": "points-to graphs are unbounded, with cycles", "anchors": ["lifetime_analysis/lifetime_analysis.cc: GenerateConstraintsForAssignmentRecursive, GenerateConstraintsForObjectLifetimeEquality, VisitCallExpr"]}
{"id": "C164", "title": "Every function that is needed is analyzed, callees first", "statement": "Analyzing a translation unit terminates without a failed assertion, gives a result to exactly the functions that are defined in it or called (directly or not) from there and are not builtins, and each result is the one the function's body gives with the final results of its callees: exactly if no recursive function is called from it, otherwise up to the names of the lifetimes, or an error.", "quantifier": "all call graphs, of any size and with any cycles; all orders of definitions and callees", "why_tests_cant": "call graphs are unbounded", "anchors": ["lifetime_analysis/analyze.cc: AnalyzeFunctionRecursive, FindAndMarkCycleWithFunc, AnalyzeRecursiveFunctions, AnalyzeTranslationUnitAndCollectTemplates"]}
{"id": "C165", "title": "The order of definitions does not matter", "statement": "The lifetimes inferred for a function do not depend on the order in which the functions are defined or in which its callees are visited, and only recursive functions are analyzed by iteration.", "quantifier": "all call graphs, all pairs of orders", "why_tests_cant": "call graphs and orders are unbounded", "anchors": ["lifetime_analysis/analyze.cc: AnalyzeFunctionRecursive, AnalyzeRecursiveFunctions, GetCallees"]}
{"id": "C166", "title": "Virtual methods take their overriders into account", "statement": "Every virtual method defined in the translation unit gets a result: the lifetimes of its own body, constrained by the results of all methods that override it.", "quantifier": "all hierarchies of methods, of any depth and width, all orders of definitions", "why_tests_cant": "hierarchies are unbounded", "anchors": ["lifetime_analysis/analyze.cc: AnalyzeFunctionRecursive, UpdateFunctionLifetimesWithOverrides, GetBaseMethods, BuildBaseToOverrides"]}
{"id": "C167", "title": "CRUBIT_MUST_BIND binds or fails", "statement": "A function or type annotated with CRUBIT_MUST_BIND in the current target either gets bindings or the whole run fails; a malformed annotation, one that contradicts CRUBIT_DO_NOT_BIND and one on an inaccessible declaration fail the run.", "quantifier": "all translation units: all nestings of namespaces and classes, all declarations mentioning each other in any way, all outcomes of the conversions", "why_tests_cant": "declarations, nestings and causes of failure are unbounded; the annotation passes through three data structures", "anchors": ["rs_bindings_from_cc/importer.cc: ImportDecl, SetMustBindItem, HardError, ImportUnsupportedItem", "rs_bindings_from_cc/generate_bindings/lib.rs: generate_item, generate_item_impl, generate_constant", "rs_bindings_from_cc/generate_bindings/generate_comment.rs: generate_unsupported", "rs_bindings_from_cc/src_code_gen.cc: GenerateBindings", "support/annotations.h: CRUBIT_MUST_BIND"]}
{"id": "C168", "title": "Unannotated declarations do not fail the run", "statement": "A declaration without annotations that cannot be bound is skipped with a comment; it never makes the run fail.", "quantifier": "all translation units and orders of declarations", "why_tests_cant": "orders of declarations are unbounded; the flag is shared between nested imports", "anchors": ["rs_bindings_from_cc/decl_importer.h: DeclImporterBase::ImportDecl, must_bind_", "rs_bindings_from_cc/importers/function.cc: FunctionDeclImporter::Import", "rs_bindings_from_cc/importer.cc: GetDeclItem, ImportDecl"]}
{"id": "C169", "title": "Inaccessible and excluded declarations leave no trace", "statement": "A declaration that is private or protected, or is a member of something that is, and one excluded with CRUBIT_DO_NOT_BIND, gets neither bindings nor a comment and causes no failure.", "quantifier": "all chains of enclosing classes, all translation units", "why_tests_cant": "nesting depth is unbounded", "anchors": ["rs_bindings_from_cc/importer.cc: IsTransitivelyInPrivate, ImportDecl"]}
{"id": "C170", "title": "The import terminates and imports each declaration once", "statement": "However declarations mention each other, the import ends, no declaration is imported twice, and every top-level declaration is considered.", "quantifier": "all translation units with any cycles", "why_tests_cant": "cyclic graphs of any size", "anchors": ["rs_bindings_from_cc/importer.cc: GetDeclItem, ImportDeclsFromDeclContext"]}
{"id": "C171", "title": "Every item of a reopened namespace is printed once, in its module", "statement": "However namespaces are nested and reopened, and wherever their first block is, the generated module of a namespace contains exactly the items of all of its blocks in this target, each once and in source order; no item ends up in another module and Crubit does not abort.", "quantifier": "all IRs whose blocks carry no unknown attribute (and, more generally, those where neither the last nor the canonical block does): all nestings, all numbers of blocks, all targets", "why_tests_cant": "nesting and reopening are unbounded; the merge goes through a map keyed by block and a separate numbering of blocks", "anchors": ["rs_bindings_from_cc/generate_bindings/lib.rs: generate_namespace, generate_item", "rs_bindings_from_cc/generate_bindings/database/code_snippet.rs: ApiSnippets::append, GeneratedItem::merge, generated_items_to_tokens", "rs_bindings_from_cc/ir.rs: make_ir, ItemsIterator, is_last_reopened_namespace"]}
{"id": "C172", "title": "One module per namespace", "statement": "The output has one `pub mod` per namespace that has a bindable block in the current target, inside the module of its enclosing namespace, and none for any other; its name and the re-export of an inline namespace are those of the canonical block, even if that is in another target.", "quantifier": "all well-formed IRs as in C171, all paths of namespaces", "why_tests_cant": "unboundedly many blocks and levels", "anchors": ["rs_bindings_from_cc/generate_bindings/database/code_snippet.rs: generated_items_to_tokens", "rs_bindings_from_cc/ir.rs: is_last_reopened_namespace"]}
{"id": "C173", "title": "An unknown attribute on one block of a namespace stays local", "statement": "If one block of a namespace carries an attribute Crubit does not know, only what is in that block is missing; the other blocks keep their bindings and Crubit does not abort.", "quantifier": "all well-formed IRs, all positions of the block", "why_tests_cant": "the existing test has the block in the middle of three; first, last and nested positions behave differently", "anchors": ["rs_bindings_from_cc/generate_bindings/lib.rs: generate_item, generate_namespace", "rs_bindings_from_cc/generate_bindings/database/code_snippet.rs: missing_feature_descriptions, GeneratedItem::merge, generated_items_to_tokens", "rs_bindings_from_cc/ir.rs: make_ir"]}
{"id": "C174", "title": "Deprecation notes of reopened namespaces", "statement": "The module of a namespace is deprecated exactly if one of its bindable blocks is; its note contains the message of every deprecated block and nothing else, and is that message if all agree; no message is repeated.", "quantifier": "all well-formed IRs, all messages including the empty one", "why_tests_cant": "the merge is not associative and the grouping depends on the nesting", "anchors": ["rs_bindings_from_cc/generate_bindings/database/code_snippet.rs: GeneratedItem::merge, merge_deprecated_text"]}
{"id": "C175", "title": "Hash order does not show in the modules", "statement": "The generated items do not depend on the iteration order of the hash map in which they are collected.", "quantifier": "all IRs, all iteration orders at every merge", "why_tests_cant": "iteration orders are randomised per process", "anchors": ["rs_bindings_from_cc/generate_bindings/database/code_snippet.rs: ApiSnippets, ApiSnippets::append, generated_items_to_tokens"]}
{"id": "C176", "title": "Bindings appear in source order", "statement": "The items of a class, a namespace or the top level of a target are listed in the order of the source: what begins first comes first, then what ends first, then by kind (class, default / copy / move / other constructor, destructor, copy / move assignment, method, rest), then by mangled name; comments keep their place. The comparison is a strict weak order, so the sort is well defined.", "quantifier": "all lists of declarations and comments, all source ranges including invalid ones, all names", "why_tests_cant": "the order must hold for all pairs of ranges, kinds and names; a comparator that is not a strict weak order is undefined behaviour only for some inputs", "anchors": ["rs_bindings_from_cc/importer.cc: GetDeclOrder, SourceOrderKey::isBefore, SourceLocationComparator, GetNameForSourceOrder, GetItemIdsInSourceOrder, GetTopLevelItemIdsInSourceOrder"]}
{"id": "C177", "title": "Hash order does not show in the IR", "statement": "The IR does not depend on the iteration order of the hash tables the importer uses (import cache, children, items, template instantiations).", "quantifier": "all IRs, all iteration orders of the four tables", "why_tests_cant": "iteration orders are randomised per process and unboundedly many", "anchors": ["rs_bindings_from_cc/importer.cc: Import, GetOrderedItemIdsOfTemplateInstantiations", "rs_bindings_from_cc/decl_importer.h: child_item_ids_", "rs_bindings_from_cc/importer.h: import_cache_, class_template_instantiations_"]}
{"id": "C178", "title": "Every declaration and every free comment is listed once", "statement": "A container lists exactly its imported children that are neither unsupported and foreign nor members of another class, and exactly the comments in its range that are not boilerplate and neither document nor lie inside one of its children; each once; a comment inside a listed declaration is not also listed around it.", "quantifier": "all containers, all lists of children, all positions of comments", "why_tests_cant": "positions of comments relative to nested declarations are unbounded", "anchors": ["rs_bindings_from_cc/importer.cc: GetDeclItems, GetItemIdsInSourceOrder, GetTopLevelItemIdsInSourceOrder, IsFilteredComment"]}
{"id": "C179", "title": "Every item in the IR is complete", "statement": "Every class and namespace in the IR contains complete copies of all its children that have an item, in order, at every depth, although items are copied by value and the traversal starts from a hash table.", "quantifier": "all nestings of containers, all iteration orders", "why_tests_cant": "depth and iteration order are unbounded; a child copied too early would be silently incomplete", "anchors": ["rs_bindings_from_cc/importer.cc: Import"]}
{"id": "C180", "title": "A member is listed by its class, and only there", "statement": "A declaration whose class was imported is listed by that class, once and after what was listed there before, even if it is defined out of line; it is not also listed where it is defined.", "quantifier": "all caches, all classes, all out-of-line definitions", "why_tests_cant": "the tests have out-of-line classes only", "anchors": ["rs_bindings_from_cc/importer.cc: Import, GetItemIdsInSourceOrder, GetTopLevelItemIdsInSourceOrder"]}
{"id": "C181", "title": "What a call passes flows into the callee's objects", "statement": "When the lifetime analysis has interpreted a call, then for every function the call may reach (the named one, or any a function pointer may point to): its lifetimes are tied to those of the call; whatever an argument may refer to, the object of that parameter may point to, also inside braced initializers of structs and array elements; whatever the receiver may be (the implicit object argument, or the first argument of a member operator), this may point to; no pointer loses a pointee; and the call's value is what its return object may point to. A constructor's this may point to the object being constructed.", "quantifier": "all calls, direct and indirect, all argument lists and initializers, all analysis states", "why_tests_cant": "argument lists, initializer nesting and points-to sets are unbounded", "anchors": ["lifetime_analysis/lifetime_analysis.cc: TransferStmtVisitor::VisitCallExpr, VisitCXXConstructExpr, TransferInitializer, HandlePointsToSetExtension"]}
{"id": "C182", "title": "A class is one item per target", "statement": "Whichever of its redeclarations a class or enumeration is reached through, within one target it gets one and the same item: its definition if the target has it, otherwise its first declaration there. There always is one; different targets get different items; and that declaration's own item is itself.", "quantifier": "all chains of redeclarations over any targets, all starting points", "why_tests_cant": "chains and starting points are unbounded; Clang's iteration starts at the declaration one asks about, so the result could depend on it", "anchors": ["rs_bindings_from_cc/importer.cc: CanonicalizeDecl, GenerateItemId"]}
{"id": "C183", "title": "A function is one item", "statement": "Whichever of its redeclarations a function is reached through, it gets one and the same item.", "quantifier": "all chains of redeclarations of functions, in and outside classes", "why_tests_cant": "the one golden test has a single redeclaration", "anchors": ["rs_bindings_from_cc/importer.cc: CanonicalizeDecl, GenerateItemId"]}
