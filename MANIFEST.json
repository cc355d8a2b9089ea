{
 "claims": [
  {
   "property": "C01",
   "status": "proved",
   "theorems": [
    "C01_toposort_partition"
   ],
   "note": "Both directions: partition when every dependency names known nodes, and a panic at one of the two documented sites otherwise (internal unwraps/assert never fire)."
  },
  {
   "property": "C02",
   "status": "proved",
   "theorems": [
    "C02_toposort_respects_deps"
   ],
   "note": ""
  },
  {
   "property": "C03",
   "status": "proved",
   "theorems": [
    "C03_toposort_failed_iff_behind_cycle"
   ],
   "note": ""
  },
  {
   "property": "C04",
   "status": "proved",
   "theorems": [
    "C04_toposort_greedy",
    "C04_toposort_deterministic",
    "C04_toposort_keeps_preferred"
   ],
   "note": "For lawful (total preorder) comparators and any heap layout meeting the BinaryHeap contract."
  },
  {
   "property": "C05",
   "status": "proved",
   "theorems": [
    "C05_toposort_failed_sorted",
    "C05_toposort_failed_deterministic",
    "C05_toposort_failed_ties_refuted"
   ],
   "note": "Sortedness and determinism without ties proved; with ties the code is not deterministic (refuted with a witness)."
  },
  {
   "property": "C06",
   "status": "proved",
   "theorems": [
    "C06_memoization_transparent"
   ],
   "note": "Also covers histories that contain cyclic queries."
  },
  {
   "property": "C07",
   "status": "proved",
   "theorems": [
    "C07_cached_values_are_fresh_answers",
    "C07_cache_monotone"
   ],
   "note": ""
  },
  {
   "property": "C08",
   "status": "proved",
   "theorems": [
    "C08_cycle_bookkeeping_exact",
    "C08_repeat_call_is_cached"
   ],
   "note": "u32 overflow is not modelled: the counter never exceeds the number of nested calls in progress."
  },
  {
   "property": "C09",
   "status": "partial",
   "theorems": [
    "C09_memoized_tables_separate_partial",
    "C09_memoized_tables_separate_refuted"
   ],
   "note": "True for up to 256 databases per process; false from the 257th on (u8 index wraps), refuted with a witness. Model: one thread, non-recursive memoized function."
  },
  {
   "property": "C10",
   "status": "partial",
   "theorems": [
    "C10_order_independent_partial",
    "C10_order_independence_refuted"
   ],
   "note": "True for queries whose plain evaluation terminates; false for cyclic queries (witness)."
  },
  {
   "property": "C11",
   "status": "partial",
   "theorems": [
    "C11_interned_eq_iff_values_eq_partial",
    "C11_interned_eq_iff_values_eq_nonempty",
    "C11_interned_deref_forever",
    "C11_interned_str_deref_forever",
    "C11_interned_eq_iff_values_eq_refuted"
   ],
   "note": "True unless one of the two values is zero-sized; false for the empty string/slice against a neighbour (witness with a downward bump arena). Arena assumed to hand out disjoint regions."
  },
  {
   "property": "C12",
   "status": "partial",
   "theorems": [
    "C12_bridge_round_trip_partial",
    "C12_bridge_sides_agree",
    "C12_bridge_encoding_injective",
    "C12_bridge_round_trip_any_evaluation_order_refuted"
   ],
   "note": "Proved for all schemas and language pairs provided the C++ compiler evaluates the arguments of std::make_tuple left to right; false for a right-to-left compiler (bridge.h:279)."
  },
  {
   "property": "C13",
   "status": "proved",
   "theorems": [
    "C13_bridge_encode_in_bounds",
    "C13_bridge_decode_in_bounds",
    "C13_bridge_decode_reads_only_buffer"
   ],
   "note": ""
  },
  {
   "property": "C14",
   "status": "proved",
   "theorems": [
    "C14_cc_identifier_valid",
    "C14_cc_identifier_injective"
   ],
   "note": "Over all Unicode strings (UTF-8 encoding modelled and proved injective)."
  },
  {
   "property": "C15",
   "status": "proved",
   "theorems": [
    "C15_label_eq_iff_same_full_label",
    "C15_label_eq_ord_hash_agree",
    "C15_label_order_total",
    "C15_shorthand_label",
    "C15_equal_labels_equal_identifiers_refuted"
   ],
   "note": "The parenthetical claim (equal labels have equal identifiers) is refuted."
  },
  {
   "property": "C16",
   "status": "proved",
   "theorems": [
    "C16_crate_name_chars",
    "C16_crate_name_length",
    "C16_crate_name_identity",
    "C16_core_crate_name",
    "C16_crate_name_legal_refuted",
    "C16_crate_name_injective_refuted"
   ],
   "note": "Statement proved; the stronger reading of the title (always a legal, unique crate name) is refuted for an empty target name and for a-b/a_b."
  },
  {
   "property": "C17",
   "status": "proved",
   "theorems": [
    "C17_escape_injective",
    "C17_escape_yields_identifier"
   ],
   "note": "Unicode XID tables are parameters; injectivity holds for any tables."
  },
  {
   "property": "C18",
   "status": "partial",
   "theorems": [
    "C18_unkeyword_never_reserved",
    "C18_unkeyword_injective_refuted",
    "C18_format_cc_ident_rejects_reserved",
    "C18_check_name_rejects_reserved",
    "C18_format_cc_ident_output_partial",
    "C18_format_cc_ident_output_refuted"
   ],
   "note": "All stated parts proved against the full word lists and an independent C++20 keyword list; that the identifier format_cc_ident returns is not reserved holds only for names without surrounding white space (syn drops it after the check): refuted otherwise."
  },
  {
   "property": "C19",
   "status": "proved",
   "theorems": [
    "C19_features_deserialize",
    "C19_features_order_irrelevant",
    "C19_feature_names",
    "C19_resolved_idempotent"
   ],
   "note": ""
  },
  {
   "property": "C38",
   "status": "proved",
   "theorems": [
    "C38_format_cc_includes",
    "C38_from_path"
   ],
   "note": ""
  },
  {
   "property": "C39",
   "status": "proved",
   "theorems": [
    "C39_hyphen_to_underscore"
   ],
   "note": ""
  },
  {
   "property": "C40",
   "status": "partial",
   "theorems": [
    "C40_pointer_type_single_level",
    "C40_non_pointer",
    "C40_pointer_type_refuted",
    "C40_const_pointer_refuted"
   ],
   "note": "Single-level pointers and non-pointers proved; false for const int** and int* const."
  },
  {
   "property": "C41",
   "status": "proved",
   "theorems": [
    "C41_format_parse_and_substitute",
    "C41_format_equality",
    "C41_format_escape_round_trip"
   ],
   "note": ""
  },
  {
   "property": "C20",
   "status": "proved",
   "theorems": [
    "C20_report_complete",
    "C20_no_error_lost",
    "C20_scope_restores",
    "C20_item_id_zero_refuted"
   ],
   "note": "Full functional specification of the report for all nested histories whose items agree on names; the anonymous item (id 0, empty name) counts as an item when something is reported outside all scopes, and the refuted theorem shows the panic this causes for a real item with id 0."
  },
  {
   "property": "C21",
   "status": "partial",
   "theorems": [
    "C21_display",
    "C21_display_dynamic",
    "C21_recorded_display",
    "C21_display_empty_refuted",
    "C21_context_refuted"
   ],
   "note": "Holds for non-empty messages; refuted for an empty message, and the report drops contexts of formatted errors."
  },
  {
   "property": "C42",
   "status": "partial",
   "theorems": [
    "C42_hide_def_id",
    "C42_hide_hash",
    "C42_hide_keeps_rest",
    "C42_hide_twice_refuted"
   ],
   "note": "Stability proved in full for any Unicode digit table; complete removal is refuted."
  },
  {
   "property": "C43",
   "status": "proved",
   "theorems": [
    "C43_fatal_conserved",
    "C43_fatal_never_dropped_silently"
   ],
   "note": ""
  },
  {
   "property": "C44",
   "status": "partial",
   "theorems": [
    "C44_root_cause",
    "C44_messages",
    "C44_round_trip",
    "C44_round_trip_twice_refuted",
    "C44_list_not_split_refuted"
   ],
   "note": "Proved for stacks of contexts; false after a trip through anyhow::Error followed by a context."
  },
  {
   "property": "C22",
   "status": "partial",
   "theorems": [
    "C22_words_and_colons_kept_apart_partial",
    "C22_neighbouring_words",
    "C22_undelimited_group_fuses_refuted",
    "C22_capture_fuses_colons_refuted",
    "C22_punctuation_fuses_refuted"
   ],
   "note": "Proved for streams without undelimited groups and without a capture between :: and :; the statement for all token trees is refuted by three concrete streams."
  },
  {
   "property": "C23",
   "status": "partial",
   "theorems": [
    "C23_literally_round_trip_partial",
    "C23_trailing_quote_refuted"
   ],
   "note": "Proved for every name not ending in a double quote; refuted for every name that does."
  },
  {
   "property": "C24",
   "status": "partial",
   "theorems": [
    "C24_comment_stays_comment_partial",
    "C24_raw_newline_refuted",
    "C24_trailing_backslash_refuted"
   ],
   "note": "Proved for every literal without a raw line break; with one the text becomes code, and a trailing backslash swallows the next C++ line (both refuted)."
  },
  {
   "property": "C25",
   "status": "partial",
   "theorems": [
    "C25_records_are_the_captures",
    "C25_slice_is_the_captured_text",
    "C25_captured_identifier",
    "C25_index_finds_the_token_partial",
    "C25_no_panic_partial",
    "C25_straddling_match_panics_refuted",
    "C25_formatted_spans_spell_tokens",
    "C25_formatted_span_is_exact_partial"
   ],
   "note": "Offsets are proved exact for every stream; finding the token again is proved when no occurrence of it can straddle its start (else the printer panics, refuted). rustfmt/clang-format are not modelled."
  },
  {
   "property": "C26",
   "status": "proved",
   "theorems": [
    "C26_output_is_lossy_decoding",
    "C26_splitting_is_irrelevant",
    "C26_decoding_exists_and_is_unique"
   ],
   "note": "For every sequence of calls (including flushes in between) on every sink; the decoding is Unicode's table 3-7 / D93b. utf8_chunks and from_utf8 of the Rust library are modelled from their documentation."
  },
  {
   "property": "C27",
   "status": "proved",
   "theorems": [
    "C27_no_panic_and_honest_counts",
    "C27_failures_are_reported"
   ],
   "note": "For every sequence of calls on every sink (any state, failing at any point)."
  },
  {
   "property": "C45",
   "status": "proved",
   "theorems": [
    "C45_display_is_lossy_decoding"
   ],
   "note": "For all byte strings and sinks."
  },
  {
   "property": "C28",
   "status": "proved",
   "theorems": [
    "C28_exact",
    "C28_check_stops_iff_aliased",
    "C28_ranges_are_proper",
    "C28_empty_range_ties_refuted"
   ],
   "note": "Exact for every range a pointer, reference or slice argument produces (empty slices are [0,0)), any sort order of ties, both algorithms. Other empty ranges at non-null addresses depend on tie order (refuted), but no argument produces them."
  },
  {
   "property": "C46",
   "status": "proved",
   "theorems": [
    "C46_wrapper_stops_iff_violation",
    "C46_interior_mutability_is_not_checked_refuted"
   ],
   "note": "The type questions (zero size, Freeze) are inputs. The exemption of interior-mutable types lets a mutable and a shared reference to one cell through (shown as refuted)."
  },
  {
   "property": "C29",
   "status": "proved",
   "theorems": [
    "C29_verdict_depends_on_counts",
    "C29_order_and_grouping_are_irrelevant",
    "C29_repetition_is_irrelevant",
    "C29_always_concludes",
    "C29_merge_evidence_agrees",
    "C29_2_to_32_pieces_count_as_none_refuted"
   ],
   "note": "For every merge tree, every iteration order of the protobuf maps. Counters are 32 bit: 2^32 pieces of one kind count as none (refuted part)."
  },
  {
   "property": "C30",
   "status": "proved",
   "theorems": [
    "C30_verdict",
    "C30_no_evidence",
    "C30_flips_are_reported"
   ],
   "note": "Complete characterisation of verdict, conflict and trivial flags for all evidence with fewer than 2^32 pieces per kind."
  },
  {
   "property": "C31",
   "status": "proved",
   "theorems": [
    "C31_samples",
    "C31_finalize_is_deterministic",
    "C31_merging_samples_is_not_commutative_refuted"
   ],
   "note": "Exact number of samples, distinct places, provenance and order; which samples are kept depends on merge order (merge.h's comment that merging is commutative is refuted for samples)."
  },
  {
   "property": "C32",
   "status": "partial",
   "theorems": [
    "C32_object_sets",
    "C32_equality_is_semantic",
    "C32_union_is_exact",
    "C32_union_is_least_upper_bound",
    "C32_union_laws",
    "C32_updates",
    "C32_many_pointers",
    "C32_pointers_with_lifetime",
    "C32_expressions_partial",
    "C32_two_pairs_of_parentheses_refuted"
   ],
   "note": "The statement itself is proved for all maps the operations build; reading an expression's set agrees with ExprHasObjectSet only up to one pair of parentheses (refuted for two: GetExprObjectSet strips one pair, ExprHasObjectSet all)."
  },
  {
   "property": "C33",
   "status": "proved",
   "theorems": [
    "C33_outliving_is_transitive_closure",
    "C33_depends_on_the_set"
   ],
   "note": ""
  },
  {
   "property": "C34",
   "status": "proved",
   "theorems": [
    "C34_join_is_union",
    "C34_join_laws"
   ],
   "note": ""
  },
  {
   "property": "C47",
   "status": "proved",
   "theorems": [
    "C47_always_terminates",
    "C47_add_replaces_the_variable",
    "C47_untouched"
   ],
   "note": ""
  },
  {
   "property": "C48",
   "status": "proved",
   "theorems": [
    "C48_error_exactly_when_local_outlives_static",
    "C48_what_each_lifetime_becomes",
    "C48_identified_exactly_when_connected",
    "C48_constraints_hold_afterwards"
   ],
   "note": "Signatures contain variable lifetimes and 'static (hypothesis `signature`). The loops are relations covering every iteration order of the hash sets."
  },
  {
   "property": "C49",
   "status": "partial",
   "theorems": [
    "C49_join_is_least_upper_bound",
    "C49_effect_is_exact",
    "C49_finitely_many_changes",
    "C49_equality_otherwise",
    "C49_equality_ignores_single_valued_objects_refuted"
   ],
   "note": "Everything but the parenthetical claim, which is refuted."
  },
  {
   "property": "C35",
   "status": "partial",
   "theorems": [
    "C35_paths_exact",
    "C35_imports_sound",
    "C35_labels_exact_partial",
    "C35_outermost_complete",
    "C35_no_empty_module",
    "C35_labels_refuted",
    "C35_duplicate_siblings_refuted"
   ],
   "note": "Paths exact; imports sound; label sets characterised exactly, and the claim that every opening target is kept is refuted (a later target that reopens a nested namespace without nesting anything in it is dropped)."
  },
  {
   "property": "C50",
   "status": "proved",
   "theorems": [
    "C50_collect_exact",
    "C50_collect_canonical",
    "C50_collect_deterministic",
    "C50_collect_terminates",
    "C50_collect_ordered"
   ],
   "note": ""
  },
  {
   "property": "C36",
   "status": "proved",
   "theorems": [
    "C36_fresh_name",
    "C36_names_never_reused",
    "C36_lookup",
    "C36_panics_exactly",
    "C36_pop_restores",
    "C36_fresh_binding_found"
   ],
   "note": "For every history of operations on the context. The 32-bit counter of the search is modelled without overflow."
  },
  {
   "property": "C37",
   "status": "proved",
   "theorems": [
    "C37_unseen",
    "C37_single",
    "C37_unknown",
    "C37_order_irrelevant",
    "C37_grouping_irrelevant"
   ],
   "note": ""
  },
  {
   "property": "C51",
   "status": "proved",
   "theorems": [
    "C51_function_binders_never_shadow",
    "C51_record_binders_never_shadow",
    "C51_alias_binders_never_shadow"
   ],
   "note": "The lifetime arities of records and declarations are inputs; the hypothesis explicit_arity says a record with explicit lifetime parameters has that arity (lines 79-82)."
  },
  {
   "property": "C52",
   "status": "partial",
   "theorems": [
    "C52_lexical_scoping",
    "C52_parameters_well_scoped",
    "C52_annotations_injective",
    "C52_own_binder_wins",
    "C52_unannotated_is_fresh",
    "C52_no_capture_refuted",
    "C52_rvalue_references_refuted"
   ],
   "note": "Proved at the top level of parameters and result for references, views and this; refuted: a lifetime invented for parameter x captures a later unbound annotation 'x, and annotations of rvalue references are not resolved at all."
  },
  {
   "property": "C53",
   "status": "proved",
   "theorems": [
    "C53_this_rule",
    "C53_single_lifetime_rule",
    "C53_this_becomes_reference"
   ],
   "note": ""
  },
  {
   "property": "C54",
   "status": "partial",
   "theorems": [
    "C54_returned_reference_has_lifetime",
    "C52_parameters_well_scoped",
    "C54_unknown_reference_refuted"
   ],
   "note": "A returned reference always has a lifetime and parameters' lifetimes are bound; refuted for 'unknown: a parameter reference loses its lifetime, a returned one keeps the unbound 'unknown."
  },
  {
   "property": "C55",
   "status": "proved",
   "theorems": [
    "C55_lifetimebound",
    "C55_contradictions_rejected"
   ],
   "note": "For annotations of at most one lifetime other than 'unknown and records with at most one lifetime."
  },
  {
   "property": "C56",
   "status": "partial",
   "theorems": [
    "C56_constructor_partial",
    "C56_nested_record_refuted",
    "C56_own_binder_refuted"
   ],
   "note": "Proved when the record's lifetime keeps its name; refuted when it is renamed or shadowed (nested record with the same name, constructor with its own binder of that name)."
  },
  {
   "property": "C57",
   "status": "proved",
   "theorems": [
    "C57_is_utf8_exact",
    "C57_from_utf8",
    "C57_reading_unique"
   ],
   "note": "is_utf8.h, with the table verbatim, against Unicode's definition."
  },
  {
   "property": "C58",
   "status": "proved",
   "theorems": [
    "C58_from_u32",
    "C58_encode_utf8",
    "C58_decoding_unique"
   ],
   "note": "char.h, char.cc."
  },
  {
   "property": "C59",
   "status": "proved",
   "theorems": [
    "C59_order_is_code_point_order",
    "C59_equality",
    "C59_order_laws"
   ],
   "note": "str_ref.h; std::string_view's comparison modelled as lexicographic on unsigned bytes."
  },
  {
   "property": "C60",
   "status": "proved",
   "theorems": [
    "C60_slice_of",
    "C60_equality",
    "C60_ptr_data"
   ],
   "note": "slice_ref.h; addresses unbounded."
  },
  {
   "property": "C61",
   "status": "proved",
   "theorems": [
    "C61_option_histories"
   ],
   "note": "Byte-level storage; payload values are byte strings."
  },
  {
   "property": "C62",
   "status": "partial",
   "theorems": [
    "C61_option_histories",
    "C62_option_destructor",
    "C62_own_value_refuted"
   ],
   "note": "Proved for arguments other than the option's own value and, for types with assignment, for that too. For types without assignment, assigning the option's own value reads it after destroying it (refuted)."
  },
  {
   "property": "C63",
   "status": "partial",
   "theorems": [
    "C63_result_histories",
    "C63_result_destructor",
    "C63_own_error_refuted"
   ],
   "note": "Proved except that assigning a value made from the result's own error reads the error after destroying it (refuted)."
  },
  {
   "property": "C64",
   "status": "partial",
   "theorems": [
    "C64_tag_read",
    "C64_tag_write",
    "C64_big_endian_refuted"
   ],
   "note": "Holds for little-endian targets and one-byte tags. On big-endian targets, longer tags are written reversed (refuted)."
  },
  {
   "property": "C65",
   "status": "proved",
   "theorems": [
    "C65_vec_offsets",
    "C65_vec_offsets_sound",
    "C65_vec_accessors"
   ],
   "note": "Types as trees; layout queries assumed to succeed."
  },
  {
   "property": "C66",
   "status": "proved",
   "theorems": [
    "C66_tuple_construct",
    "C66_tuple_convert",
    "C66_tuple_destroy"
   ],
   "note": ""
  },
  {
   "property": "C67",
   "status": "proved",
   "theorems": [
    "C67_vector_histories",
    "C67_methods_go_through",
    "C67_reserve"
   ],
   "note": "Memory model with cells, allocations and ASan shadow; Vec itself is specified from its documentation. Zero-sized elements not modelled."
  },
  {
   "property": "C68",
   "status": "proved",
   "theorems": [
    "C68_ownership",
    "C68_no_leaks"
   ],
   "note": "For panic-free callbacks (see C69)."
  },
  {
   "property": "C69",
   "status": "partial",
   "theorems": [
    "C67_vector_histories",
    "C69_callback_panic_partial",
    "C69_callback_panic_refuted"
   ],
   "note": "Index panics are covered by C67 (programs continue after them). A panic in the caller's code is safe when the buffer did not move; after a reallocation the vector keeps pointing to freed memory (refuted)."
  },
  {
   "property": "C70",
   "status": "partial",
   "theorems": [
    "C67_vector_histories",
    "C70_tail_poisoned",
    "C70_after_panic_refuted"
   ],
   "note": "Elements always accessible (cpp_vector in C67); tail poisoned in panic-free programs; after a panic it stays unpoisoned (refuted)."
  },
  {
   "property": "C71",
   "status": "proved",
   "theorems": [
    "C71_no_undefined_behaviour",
    "C71_pointee_alive",
    "C71_destroyed_once"
   ],
   "note": "Sequentially consistent memory; libc++'s counting modelled from its source. Null pointers given to from_ptr_and_deleter excluded (C74)."
  },
  {
   "property": "C72",
   "status": "proved",
   "theorems": [
    "C72_alive_while_owned",
    "C72_use_count",
    "C72_no_resurrection",
    "C72_lock"
   ],
   "note": "Count overflow not modelled."
  },
  {
   "property": "C73",
   "status": "proved",
   "theorems": [
    "C73_no_garbage",
    "C73_all_released",
    "C73_calls_finish",
    "C73_lost_only_by_panics"
   ],
   "note": "Values own a fixed list of pointers (no interior mutability), so ownership cycles cannot be built."
  },
  {
   "property": "C74",
   "status": "partial",
   "theorems": [
    "C74_null_with_deleter_refuted",
    "C74_panic_leaks"
   ],
   "note": "Both halves are false: a null pointer is dereferenced by the constructor itself (undefined behaviour) although the documentation allows it, and a panicking projection leaks the value for good (safe, but never destroyed). For non-null pointers the deleter runs exactly once: C71, C73."
  },
  {
   "property": "C75",
   "status": "partial",
   "theorems": [
    "C75_ownership_partial",
    "C75_dropped_exactly_once_partial",
    "C75_no_uninitialised_use_partial",
    "C75_default_ctor_by_value_refuted",
    "C75_copy_ctor_by_value_refuted",
    "C75_array_param_refuted"
   ],
   "note": "Proved for all types not passed by value through the C ABI and programs that pass no arrays; for the rest it is false: a repr(transparent) type with a destructor gets constructors that drop uninitialised memory, and an array parameter whose elements have a destructor is dropped by Rust and again by C++."
  },
  {
   "property": "C76",
   "status": "partial",
   "theorems": [
    "C76_values_partial",
    "C76_argument_received_partial"
   ],
   "note": "Same restriction as C75 (types with a destructor that are passed by value)."
  },
  {
   "property": "C77",
   "status": "proved",
   "theorems": [
    "C77_memswap"
   ],
   "note": ""
  },
  {
   "property": "C78",
   "status": "partial",
   "theorems": [
    "C78_accepted_usable_partial",
    "C78_by_value_move_only_refuted",
    "C78_by_value_default_unmovable_refuted"
   ],
   "note": "False for types passed by value through the C ABI that are movable but not copyable (the wrapper passes an lvalue) or Default but not movable (the constructor assigns to *this)."
  },
  {
   "property": "C79",
   "status": "partial",
   "theorems": [
    "C79_declaration_matches_definition",
    "C79_call_matches_declaration",
    "C79_extern_c_partial",
    "C79_extern_c_refuted"
   ],
   "note": "Proved for all generated thunks; false for extern \"C\" functions called without a thunk when a repr(transparent) type is bridged: declared as pointer, defined by value."
  },
  {
   "property": "C80",
   "status": "proved",
   "theorems": [
    "C80_arguments_arrive"
   ],
   "note": ""
  },
  {
   "property": "C81",
   "status": "partial",
   "theorems": [
    "C81_return_values",
    "C81_round_trip",
    "C81_constructor_partial",
    "C81_constructor_refuted"
   ],
   "note": "Results are proved; constructors are wrong for Option (copy and default constructors of rs_std::Option when it is bridged by encoding: the encoded form is written over the object)."
  },
  {
   "property": "C82",
   "status": "proved",
   "theorems": [
    "C82_ownership"
   ],
   "note": ""
  },
  {
   "property": "C83",
   "status": "partial",
   "theorems": [
    "C83_parameters_full_partial",
    "C83_returns_full_partial",
    "C83_simple_parameters_partial",
    "C83_parameter_refuted",
    "C83_return_default_refuted",
    "C83_return_array_refuted"
   ],
   "note": "Proved for types all of whose classes have all special member functions, and for parameters not in tuples; false for tuples of the rest."
  },
  {
   "property": "C84",
   "status": "partial",
   "theorems": [
    "C84_names_partial",
    "C84_names_refuted"
   ],
   "note": "Proved if no parameter name is another one followed by an underscore and more, or starts with __r; false for fn f(x: (i32,), x_0: i32)."
  },
  {
   "property": "C85",
   "status": "proved",
   "theorems": [
    "C85_compiled_struct_has_cpp_layout",
    "C85_compiled_union_has_cpp_layout"
   ],
   "note": "rustc's repr(C) rules and its evaluation of the assertions are modelled."
  },
  {
   "property": "C86",
   "status": "proved",
   "theorems": [
    "C86_struct_generated",
    "C86_union_generated"
   ],
   "note": ""
  },
  {
   "property": "C87",
   "status": "partial",
   "theorems": [
    "C87_struct_compiles_partial",
    "C87_zero_width_bit_field_refuted",
    "C87_trailing_zero_width_bit_field_refuted",
    "C87_empty_first_member_of_derived_refuted",
    "C87_only_empty_members_refuted",
    "C87_virtual_base_refuted",
    "C87_alignas_refuted",
    "C87_aligned_empty_member_refuted"
   ],
   "note": "Proved for all classes but those with one of seven features, each of which is refuted: the code generated for them is rejected by its own assertions."
  },
  {
   "property": "C88",
   "status": "partial",
   "theorems": [
    "C88_union_compiles_partial",
    "C88_wide_bit_field_refuted",
    "C88_only_empty_members_refuted"
   ],
   "note": "Proved for unions with a sized member whose bit-fields are not wider than the union's alignment; refuted for the rest."
  },
  {
   "property": "C89",
   "status": "proved",
   "theorems": [
    "C89_thread_safe_compiles"
   ],
   "note": ""
  },
  {
   "property": "C90",
   "status": "partial",
   "theorems": [
    "C90_accessor_in_bounds_and_aligned",
    "C90_all_records_get_accessors_refuted"
   ],
   "note": "Bounds and alignment are proved for all; but one such member whose type has no bindings removes the bindings of the whole record."
  },
  {
   "property": "C91",
   "status": "partial",
   "theorems": [
    "C91_constant_has_same_value_partial",
    "C91_negative_char_refuted",
    "C91_every_negative_char_refuted",
    "C91_uint128_refuted",
    "C91_documented_range_refuted"
   ],
   "note": "Proved but for two kinds of constants, which are refuted: negative char (the generated code is rejected by rustc) and unsigned __int128 at least 2^128-2^63 (silently another value)."
  },
  {
   "property": "C92",
   "status": "proved",
   "theorems": [
    "C92_distinct_types_stay_distinct",
    "C92_builtin_iff_stdint",
    "C92_one_is_i64",
    "C92_width_and_sign",
    "C92_every_type",
    "C92_cfi_encoding"
   ],
   "note": "For the targets the crate distinguishes; macOS is documented as not supported."
  },
  {
   "property": "C93",
   "status": "partial",
   "theorems": [
    "C93_conversions_are_lossless",
    "C93_char_i8_round_trip",
    "C93_char_converts_to_i8_and_u8",
    "C93_documented_examples",
    "C93_to_builtin_complete_partial",
    "C93_from_builtin_complete_partial",
    "C93_all_lossless_conversions_refuted"
   ],
   "note": "Soundness is proved in full; completeness for builtin types of fixed width up to three pairs; refuted in general (for instance u32 to c_longlong)."
  },
  {
   "property": "C94",
   "status": "partial",
   "theorems": [
    "C94_numbers_agree_partial",
    "C94_signed_char_refuted",
    "C94_signed_wchar_refuted"
   ],
   "note": "False where char or wchar_t are signed: the Rust types are always unsigned."
  },
  {
   "property": "C95",
   "status": "proved",
   "theorems": [
    "C95_drop_is_destroy",
    "C95_each_destructor_once",
    "C95_private_destructor_refuted"
   ],
   "note": "For classes with a usable destructor. For one with a private or deleted destructor Rust's glue would still destroy members of a value built in Rust from its public fields (refuted)."
  },
  {
   "property": "C96",
   "status": "partial",
   "theorems": [
    "C96_derives_compile_partial",
    "C96_nested_mutable_refuted",
    "C96_mutable_of_mutable_refuted",
    "C96_nested_thread_safe_refuted",
    "C96_private_destructor_refuted",
    "C96_user_move_refuted",
    "C96_mutable_reference_refuted"
   ],
   "note": "Proved for members that are ordinary; each other kind of member is refuted: the generated derive is rejected."
  },
  {
   "property": "C97",
   "status": "partial",
   "theorems": [
    "C97_union_fields_partial",
    "C97_opaque_member_refuted",
    "C97_every_opaque_member_refuted",
    "C97_mutable_member_refuted",
    "C97_empty_refuted",
    "C97_thread_safe_refuted"
   ],
   "note": "Refuted for unions that are not Copy and have an opaque member, unions with mutable members, empty ones that are not Copy and thread-safe ones."
  },
  {
   "property": "C98",
   "status": "partial",
   "theorems": [
    "C98_copy_is_bitwise",
    "C98_clone_is_bitwise",
    "C98_assignment_partial",
    "C98_assignment_operator_refuted"
   ],
   "note": "Copying is proved; a user-provided operator= of a class that is otherwise trivial is not run."
  },
  {
   "property": "C99",
   "status": "partial",
   "theorems": [
    "C99_struct_body_parses_partial",
    "C99_two_lifetimes_refuted"
   ],
   "note": "Two or more lifetime parameters never parse: the marker fields are not separated."
  },
  {
   "property": "C100",
   "status": "proved",
   "theorems": [
    "C100_module_of_nested_items"
   ],
   "note": "For all to_snake_case functions."
  },
  {
   "property": "C101",
   "status": "partial",
   "theorems": [
    "C101_names_never_collide",
    "C101_renamed_like_namespace_refuted",
    "C101_renamed_types_refuted",
    "C101_class_crate_refuted"
   ],
   "note": "Proved for the collision of names; refuted for names chosen with CRUBIT_RUST_NAME, and for a class named Crate or Super, whose module name is a keyword that cannot be raw."
  },
  {
   "property": "C102",
   "status": "partial",
   "theorems": [
    "C102_no_duplicates_partial",
    "C102_methods_only_refuted",
    "C102_reopened_namespace_refuted",
    "C102_alias_refuted"
   ],
   "note": "Refuted for classes with methods but no nested items whose names differ in case, for a namespace opened twice, and for an alias that re-exports the module of a class."
  },
  {
   "property": "C103",
   "status": "partial",
   "theorems": [
    "C103_public_items_partial",
    "C103_arguments_refuted"
   ],
   "note": "Refuted for the arguments of std::vector, std::unique_ptr, std::shared_ptr, absl::Span, user-defined bridges and existing Rust types, which the traversal skips (visible in the golden file composable_bridging_template_type_rs_api.rs); proved for all other types."
  },
  {
   "property": "C104",
   "status": "partial",
   "theorems": [
    "C104_paths_partial",
    "C104_alias_of_other_target_refuted"
   ],
   "note": "Refuted for an alias in another target that stands for a pointer to a bridged type: it is pub(crate) there."
  },
  {
   "property": "C105",
   "status": "partial",
   "theorems": [
    "C105_opt_in_partial",
    "C105_unsupported_is_internal_partial",
    "C105_elements_refuted",
    "C105_variables_refuted",
    "C105_first_error_refuted"
   ],
   "note": "Refuted for elements of vocabulary types (std::vector<Unsupported*>), for global variables, and for function pointer types that mix proto messages with unsupported types."
  },
  {
   "property": "C106",
   "status": "proved",
   "theorems": [
    "C106_emitted_iff_unique_choice",
    "C106_no_name_defined_twice",
    "C106_declaration_order_irrelevant",
    "C106_deprecating_the_others"
   ],
   "note": "For all lists of functions with distinct ids."
  },
  {
   "property": "C107",
   "status": "partial",
   "theorems": [
    "C107_equality_is_cpp",
    "C107_less_is_cpp",
    "C107_partial_ord_contract",
    "C107_contract_needs_partial_order_refuted",
    "C107_own_not_equal_is_not_called_refuted"
   ],
   "note": "Proved for == and <; a C++ operator!= is not called when operator== is bound, so an inconsistent one differs; the PartialOrd contract needs C++ operators that form a partial order."
  },
  {
   "property": "C108",
   "status": "partial",
   "theorems": [
    "C108_partial_ord_has_partial_eq_partial",
    "C108_non_bool_equality_refuted",
    "C108_mixed_passing_refuted"
   ],
   "note": "Refuted when operator== does not return bool, and when operator!= takes its operands by value and operator== by reference (both are dropped as ambiguous, operator< is not); the generated crate does not compile. Proved when every operator== returns bool and no two functions ask for the same PartialEq impl."
  },
  {
   "property": "C109",
   "status": "partial",
   "theorems": [
    "C109_offered_bases_are_public_and_unambiguous",
    "C109_offered_once",
    "C109_exact_without_virtual_bases",
    "C109_public_bases_are_offered_partial",
    "C109_public_base_missing_refuted"
   ],
   "note": "Soundness for all hierarchies; exact without virtual bases. A base of a virtual base that is met first through a private base is missing although it is publicly inherited. clang's lookupInBases is modelled from its documented behaviour."
  },
  {
   "property": "C110",
   "status": "partial",
   "theorems": [
    "C110_upcast_is_the_cpp_conversion",
    "C110_constant_offset_iff_not_in_a_virtual_base",
    "C110_null_stays_null_partial",
    "C110_null_stays_null_refuted"
   ],
   "note": "Proved for objects. The documented contract for null pointers fails for every base at a non-zero offset: the offset is added to null."
  },
  {
   "property": "C111",
   "status": "partial",
   "theorems": [
    "C111_inherited_method",
    "C111_method_is_the_one_cpp_finds_partial",
    "C111_wrong_method_refuted",
    "C111_redeclared_method_lost_refuted"
   ],
   "note": "Refuted: if an intermediate class hides a base method with one that has no bindings, Rust calls the hidden base method; if it redeclares it with bindings, grandchildren lose the method. Proved when every declaration of the name is a bindable function of an offered base."
  },
  {
   "property": "C112",
   "status": "proved",
   "theorems": [
    "C112_ctor_contract"
   ],
   "note": "FnCtor's closure is assumed to satisfy its documented safety contract."
  },
  {
   "property": "C113",
   "status": "partial",
   "theorems": [
    "C113_failed_construction_leaves_nothing_partial",
    "C113_successful_construction_is_sound_partial",
    "C113_ctor_then_leaks_refuted",
    "C113_fallback_overwrites_live_object_refuted"
   ],
   "note": "Refuted: when the closure of ctor_then fails, the already constructed (pinned) value is never destroyed, and a following ctor_or_else / ctor_unwrap_or_default overwrites it. Proved for all programs without a failing ctor_then closure."
  },
  {
   "property": "C114",
   "status": "proved",
   "theorems": [
    "C114_ctor_macro_success",
    "C114_ctor_macro_unwinds_in_order"
   ],
   "note": "Order of destruction stated for destructors that do not panic (with a panicking one the process aborts)."
  },
  {
   "property": "C115",
   "status": "proved",
   "theorems": [
    "C115_combinators_act_like_result",
    "C115_no_abort"
   ],
   "note": "Except that the process aborts if a destructor panics during unwinding."
  },
  {
   "property": "C116",
   "status": "partial",
   "theorems": [
    "C116_slot_history_partial",
    "C116_slot_full_iff_replaced_partial",
    "C116_slot_destructor_panic_drops_twice_refuted"
   ],
   "note": "Refuted: clear resets the flag only after the destructor returned, so a panicking destructor is run a second time when the slot is dropped. Proved for destructors that do not panic and constructors without a failing ctor_then."
  },
  {
   "property": "C117",
   "status": "partial",
   "theorems": [
    "C117_emplaced_value_destroyed_once_partial",
    "C117_reconstruct_partial",
    "C117_reconstruct_destructor_panic_refuted"
   ],
   "note": "Refuted: if the old value's destructor panics, reconstruct unwinds with the place empty and its owner destroys it again. Proved for constructors without a failing ctor_then, reconstruct for destructors that do not panic."
  },
  {
   "property": "C118",
   "status": "partial",
   "theorems": [
    "C118_closures_end_exactly_once_partial",
    "C118_undefined_iff_misuse",
    "C118_self_move_assign_refuted"
   ],
   "note": "Refuted for move assignment of a handle to itself (the closure is dropped and the storage copied onto itself). Proved for all histories in which the specification gives every operation a meaning; C118_undefined_iff_misuse says those are exactly the histories without undefined behaviour in the model."
  },
  {
   "property": "C119",
   "status": "partial",
   "theorems": [
    "C119_behaves_as_documented",
    "C119_fn_once_called_at_most_once",
    "C119_fn_never_consumed",
    "C119_second_call_terminates",
    "C119_called_handle_sends_garbage_refuted",
    "C119_empty_call_terminates_refuted"
   ],
   "note": "Refuted: calling a default-constructed handle calls a null pointer instead of terminating; a FnOnce handle that was called still converts to true and, given to Rust, hands over a dangling box."
  },
  {
   "property": "C120",
   "status": "proved",
   "theorems": [
    "C120_every_object_destroyed_once",
    "C120_live_objects_are_the_values",
    "C120_movable_is_an_optional_value",
    "C120_valueless_flag_is_exact"
   ],
   "note": "For histories that do not read an empty Movable (documented as an error)."
  },
  {
   "property": "C121",
   "status": "proved",
   "theorems": [
    "C121_pass_hands_over_the_value",
    "C121_return_brings_the_value"
   ],
   "note": "Together with C120_every_object_destroyed_once, whose histories contain passes and returns."
  },
  {
   "property": "C122",
   "status": "proved",
   "theorems": [
    "C122_every_future_ends_once",
    "C122_poll_reports_the_future",
    "C122_scripts_are_followed_in_order",
    "C122_moved_from_is_pending",
    "C122_dyn_future_contract",
    "C122_dyn_future_moves",
    "C122_ends_only_by_polling_an_empty_handle"
   ],
   "note": "Futures whose poll panics (the process aborts at the extern \"C\" boundary) are not modelled."
  },
  {
   "property": "C123",
   "status": "proved",
   "theorems": [
    "C123_wakers_never_dangle_nor_leak",
    "C123_rust_wakers_wake_their_task",
    "C123_nothing_else_wakes",
    "C122_poll_reports_the_future"
   ],
   "note": "Operations of different threads interleave at the granularity of calls of the C++ waker's virtual functions, which the header requires to be thread safe."
  },
  {
   "property": "C124",
   "status": "proved",
   "theorems": [
    "C124_range_for_is_the_rust_loop",
    "C124_rust_loop_is_the_range_for",
    "C124_nth_item"
   ],
   "note": "Moved-from adapters are not modelled."
  },
  {
   "property": "C125",
   "status": "partial",
   "theorems": [
    "C125_is_nullable",
    "C125_non_null",
    "C125_nullable",
    "C125_unreachable",
    "C125_solver_gives_up",
    "C125_declared",
    "C125_symbolic",
    "C125_nullptr",
    "C125_constrained",
    "C125_inconsistent_constraints_refuted",
    "C125_timeout_unreachable_refuted"
   ],
   "note": "Exact for complete solvers. Refuted: additional constraints that contradict a reachable flow condition still give isNullable (the reachability test leaves them out), and a solver that gives up can make unreachable code be warned about."
  },
  {
   "property": "C126",
   "status": "partial",
   "theorems": [
    "C126_keeps_executions",
    "C126_adds_no_values",
    "C126_exclusive_branches",
    "C126_no_loss",
    "C126_warnings_kept",
    "C126_non_null",
    "C126_no_new_warnings",
    "C126_mixed_branches_refuted",
    "C126_provably_null_branch_refuted"
   ],
   "note": "Refuted where flow conditions of the branches do not exclude each other (the source of one branch can be mixed with the value of the other), and a pointer of unknown source that is certainly null on one branch is no longer nullable after the merge. Everything else is proved."
  },
  {
   "property": "C127",
   "status": "partial",
   "theorems": [
    "C127_covers_current",
    "C127_unchanged",
    "C127_one_pointer_ends",
    "C127_two_pointers_may_not_end_refuted",
    "C127_compare"
   ],
   "note": "Bounded (three changes) for a block with one pointer. Refuted for blocks with two: widen returns the current value, not top, for a pointer that is already top when nothing about it changes, so pointers can undo each other's widening."
  },
  {
   "property": "C128",
   "status": "partial",
   "theorems": [
    "C128_written_nullability",
    "C128_same_length",
    "C128_same_template_twice_refuted"
   ],
   "note": "Proved for all types in which no template is used again inside its own expansion and parameters have arguments. Refuted without: the walker continues in the argument context of the innermost template, not that of the template whose parameter it resolved, and finds the wrong argument. Packs and non-type arguments are not modelled."
  },
  {
   "property": "C129",
   "status": "partial",
   "theorems": [
    "C129_unknown_assertion",
    "C129_unknown_parameter_refuted"
   ],
   "note": "Proved when Unknown is not put directly around a template parameter or an annotated transparent alias. Refuted: in a class template, Unknown<T> instantiated with an annotated pointer fails the assertion, because the check looks at the desugared argument."
  },
  {
   "property": "C130",
   "status": "partial",
   "theorems": [
    "C130_rebuild_partial",
    "C130_smart_pointers_refuted"
   ],
   "note": "Proved for types without smart pointers and without pointers in the arguments of enclosing classes; with other defaults the unspecified slots take the default. Refuted for smart pointers: the vector of the right length is refused as too long."
  },
  {
   "property": "C131",
   "status": "partial",
   "theorems": [
    "C131_casts_are_documented_casts_partial",
    "C131_casts_compose",
    "C131_max_array_refuted",
    "C131_vec_of_other_elements_refuted"
   ],
   "note": "Proved for all types without an array of length usize::MAX. Refuted with one: it shares its Name with the slice type, so &&[Fwd; usize::MAX] casts silently to &&[Fwd]. Refuted: the documented Vec<T> cast exists only for Vec<&T>."
  },
  {
   "property": "C132",
   "status": "partial",
   "theorems": [
    "C132_bytes_kept_or_panic",
    "C132_same_objects_iff_same_strides",
    "C132_pointer_casts_keep_objects_partial",
    "C132_slices_of_forward_declared_refuted",
    "C132_by_value_to_forward_declared_panics"
   ],
   "note": "Exact characterisation: objects are kept iff strides agree. Proved when no array or slice of forward-declared classes is involved and definitions of one class agree in size. Refuted otherwise: Incomplete is Sized with size 0, so &[Foo] casts to &[Fwd] and its element 1 is object 0, although the comments say such casts are impossible."
  },
  {
   "property": "C133",
   "status": "partial",
   "theorems": [
    "C133_casts_never_unpin",
    "C133_unpinned_class_is_movable",
    "C133_pinning_needs_movable_refuted",
    "C133_stable_casts_do_not_duplicate_partial",
    "C133_cmut_duplicates_exclusive_refuted"
   ],
   "note": "Never unpinning: proved. Refuted: &T casts to Pin<&T> for T: !Unpin. Exclusivity: proved for the stable impls; refuted with the unstable feature (CMut is Copy and casts to &mut)."
  },
  {
   "property": "C134",
   "status": "partial",
   "theorems": [
    "C134_generated_symbols_match_iff",
    "C134_declarations_match_iff",
    "C134_same_class_always_casts_refuted"
   ],
   "note": "Symbols are equal exactly when the qualified names are and both targets agree on leading_colons_for_cpp_type; refuted: targets that differ in that feature produce bindings of one class that do not cast."
  },
  {
   "property": "C135",
   "status": "proved",
   "theorems": [
    "C135_owned_strings_are_values",
    "C135_no_string_leaks"
   ],
   "note": "Simulation of a heap model by value semantics, for every leftover function."
  },
  {
   "property": "C136",
   "status": "proved",
   "theorems": [
    "C136_slice_to_view",
    "C136_view_to_slice",
    "C136_round_trip",
    "C136_round_trip_from_cpp"
   ],
   "note": "All pointers and lengths."
  },
  {
   "property": "C137",
   "status": "partial",
   "theorems": [
    "C137_unique_ptr_ends_objects_once_partial",
    "C137_release_gives_up_ownership",
    "C137_panicking_destructor_leaks_refuted"
   ],
   "note": "Proved when no destructor panics. Refuted otherwise: Drop calls drop_in_place before cpp_delete without a guard, so the memory leaks (Box frees it)."
  },
  {
   "property": "C138",
   "status": "proved",
   "theorems": [
    "C138_thunk_declaration_matches_definition",
    "C138_direct_declaration_matches_function"
   ],
   "note": "Agreement of ABI classes parameter by parameter, for all types."
  },
  {
   "property": "C139",
   "status": "partial",
   "theorems": [
    "C139_call_delivers_arguments_and_result",
    "C139_alias_of_rvalue_reference_refuted",
    "C139_deleted_move_constructor_refuted"
   ],
   "note": "Proved unless a parameter's type is an alias of an rvalue reference or a class whose move constructor is deleted; there the generated thunk does not compile (refuted)."
  },
  {
   "property": "C140",
   "status": "proved",
   "theorems": [
    "C140_temporaries_end_exactly_once"
   ],
   "note": "Same call model; the final heap equals the initial one pointwise, and every end of life requires a live object. Same two exceptions as hypotheses (no program exists there)."
  },
  {
   "property": "C141",
   "status": "partial",
   "theorems": [
    "C141_thunk_variables_distinct_iff",
    "C141_callee_found_iff",
    "C141_constructor_arguments_iff",
    "C141_types_spelled_in_cpp",
    "C141_thunk_symbol_is_identifier",
    "C141_thunk_symbols_distinct",
    "C141_parameter_named_like_function_refuted",
    "C141_parameter_named_lvalue_refuted",
    "C141_constructor_parameter_tmp_refuted",
    "C141_renamed_enum_refuted",
    "C141_thunk_symbols_collide_refuted"
   ],
   "note": "Exact conditions proved. Refuted: a global function with a parameter of its own name, a parameter called lvalue when T&& is returned, a constructor parameter called tmp, enums renamed for Rust, mangled names with escaped characters."
  },
  {
   "property": "C142",
   "status": "partial",
   "theorems": [
    "C142_getter_reads_the_field",
    "C142_setter_writes_the_field",
    "C142_inherited_field_refuted",
    "C142_packed_class_refuted",
    "C142_overridden_getter_refuted"
   ],
   "note": "Proved for non-virtual accessors of aligned fields at their declared offset. Refuted: fields of bases at a nonzero offset, packed classes, overridden virtual getters."
  },
  {
   "property": "C143",
   "status": "partial",
   "theorems": [
    "C143_blocks_found_partial",
    "C143_no_silent_unclosed_partial",
    "C143_every_invocation_refuted"
   ],
   "note": "Soundness, order, completeness for invocations with braces and only white space between their tokens, and errors proved. Refuted for invocations with parentheses or brackets, and with a comment between ! and {: dropped silently."
  },
  {
   "property": "C144",
   "status": "proved",
   "theorems": [
    "C144_line_mapping"
   ],
   "note": "For every block of every file and every split of its body."
  },
  {
   "property": "C145",
   "status": "partial",
   "theorems": [
    "C145_names_distinct_partial",
    "C145_positions_separated_partial",
    "C145_valid_identifier_partial",
    "C145_distinct_targets_refuted",
    "C145_valid_identifier_refuted",
    "C145_macro_and_header_agree_refuted"
   ],
   "note": "Within a file (lines below 65536, columns below 256) names are proved distinct: FNV-1a is shown injective on such suffixes. Refuted: across targets (no separator hashed), for file names with other characters, and agreement with the macro when the path has white space."
  },
  {
   "property": "C146",
   "status": "partial",
   "theorems": [
    "C146_header_complete_partial",
    "C146_no_partial_header_partial",
    "C146_two_libraries_refuted",
    "C146_globals_first_refuted"
   ],
   "note": "Contents and order proved. Refuted: all headers share one include guard; the inline functions of a file come before the global blocks of the next."
  },
  {
   "property": "C147",
   "status": "partial",
   "theorems": [
    "C147_only_blocks_changed_partial",
    "C147_code_kept_partial",
    "C147_head_left_in_refuted",
    "C147_literals_and_idempotence_refuted"
   ],
   "note": "For every clang-format; code kept if clang-format only changes white space and does not touch the synthetic head. Refuted: multi-line string literals, idempotence, and head left in the file when it is re-wrapped."
  },
  {
   "property": "C148",
   "status": "partial",
   "theorems": [
    "C148_signature_partial",
    "C148_header_signatures_partial",
    "C148_one_function_refuted",
    "C148_comment_rejected_refuted"
   ],
   "note": "Exact form accepted proved. Refuted: two functions, an arrow without type are accepted; a leading comment is rejected."
  },
  {
   "property": "C149",
   "status": "partial",
   "theorems": [
    "C149_arity_partial",
    "C149_arity_refuted"
   ],
   "note": "Proved when no parameter has a top-level comma; refuted for template arguments and (void)."
  },
  {
   "property": "C150",
   "status": "partial",
   "theorems": [
    "C150_full_sound_partial",
    "C150_full_complete_partial",
    "C150_documented_direction_refuted",
    "C150_invariant_parameter_refuted",
    "C150_function_pointer_refuted"
   ],
   "note": "Exact for the direction the code implements (callable usable where the replacement is required). Refuted: the documented direction; sufficiency with a lifetime parameter used invariantly; necessity with pointers to functions."
  },
  {
   "property": "C151",
   "status": "partial",
   "theorems": [
    "C151_projection_partial",
    "C151_pairs",
    "C151_static_lost_refuted"
   ],
   "note": "Exact projection proved unless the replacement has 'static and the callable has not; then refuted."
  },
  {
   "property": "C152",
   "status": "partial",
   "theorems": [
    "C152_isomorphic_partial",
    "C152_static_refuted",
    "C152_renaming_refuted"
   ],
   "note": "Equivalence with mutual usability proved without 'static. Refuted with 'static, and as equality up to renaming."
  },
  {
   "property": "C153",
   "status": "partial",
   "theorems": [
    "C153_overrides_usable_partial",
    "C153_static_override_refuted"
   ],
   "note": "Usability, totality, monotonicity and no needless change proved without 'static in overrides; refuted with an override that demands 'static."
  },
  {
   "property": "C154",
   "status": "partial",
   "theorems": [
    "C154_visits",
    "C154_replaces",
    "C154_has_any",
    "C154_substitutes",
    "C154_variance_partial",
    "C154_const_pointer_refuted",
    "C154_parameters_refuted"
   ],
   "note": "Reach proved for all functions; variance for values without functions and const-qualified pointers. Refuted for const-qualified pointers and function parameters."
  },
  {
   "property": "C155",
   "status": "partial",
   "theorems": [
    "C155_names_and_lifetimes_are_one_to_one_partial",
    "C155_bound_names_stay_bound",
    "C155_generated_names_are_the_first_free_partial",
    "C155_one_to_one_always_refuted",
    "C155_rebinding_keeps_one_to_one_refuted",
    "C155_generated_names_are_not_keywords_refuted"
   ],
   "note": "Proved for all histories without Rebind while there are fewer names than the place of \"static\" in the sequence (234916997). Refuted: beyond that (the name static is generated), after Rebind, and that generated names are valid in Rust (as, do, fn, if, in)."
  },
  {
   "property": "C156",
   "status": "partial",
   "theorems": [
    "C156_places_get_the_declared_lifetimes",
    "C156_without_elision_all_must_be_written",
    "C156_errors",
    "C156_elision_fails_only_without_a_single_lifetime",
    "C156_bad_annotations_are_errors",
    "C156_unwritten_lifetimes_are_distinct_partial",
    "C156_unwritten_lifetimes_are_distinct_refuted"
   ],
   "note": "All proved except that unnamed inputs have lifetimes of their own: proved unless a written name is new and could be generated; then refuted (f(int* x, int* $a y))."
  },
  {
   "property": "C157",
   "status": "partial",
   "theorems": [
    "C157_printed_lifetimes_read_back_partial",
    "C157_parameters_and_template_arguments_read_back_refuted",
    "C157_nested_template_arguments_read_back_refuted"
   ],
   "note": "Proved unless a class has both lifetime parameters and template arguments with lifetimes, or nested template arguments; refuted for both."
  },
  {
   "property": "C158",
   "status": "partial",
   "theorems": [
    "C158_names_go_to_places_in_order",
    "C158_the_arrow_separates_results_refuted",
    "C158_names_are_identifiers_refuted"
   ],
   "note": "The statement is proved. Refuted: that the arrow separates results from parameters, and that names must be identifiers."
  },
  {
   "property": "C159",
   "status": "partial",
   "theorems": [
    "C159_every_run_is_described_partial",
    "C159_temporaries_refuted",
    "C159_nested_arrays_refuted"
   ],
   "note": "Proved for all statements except calls, constructor calls, temporaries that hold a pointer and initializers of nested arrays, when each location is represented by one object (so parameters do not alias each other's pointees) and declared variables have objects of their own. Refuted for temporaries that hold a pointer and for int* a[1][1] = {{p}}."
  },
  {
   "property": "C160",
   "status": "partial",
   "theorems": [
    "C160_whatever_is_stored_is_constrained",
    "C160_stores_of_every_run_partial"
   ],
   "note": "The statement about computed states is proved for all statements, calls included; the statement about runs with the restrictions of C159."
  },
  {
   "property": "C161",
   "status": "partial",
   "theorems": [
    "C161_whatever_is_returned_is_constrained_partial",
    "C161_temporaries_refuted"
   ],
   "note": "With the restrictions of C159. Refuted for int* const& r = p; return r;"
  },
  {
   "property": "C162",
   "status": "partial",
   "theorems": [
    "C162_every_level_partial",
    "C162_every_level_both_ways_partial",
    "C162_nothing_else",
    "C162_outermost_level",
    "C162_invariance_refuted",
    "C162_lists_refuted"
   ],
   "note": "The outermost level and the converse are proved. Inner levels are proved when a pointer and a pointee meet with one type, and in invariant positions when they meet in positions of one variance. Refuted otherwise: a const field before a non-const one, and lists."
  },
  {
   "property": "C163",
   "status": "partial",
   "theorems": [
    "C163_assignments_terminate",
    "C163_equality_is_exact",
    "C163_equality_terminates_partial",
    "C163_equality_terminates_refuted"
   ],
   "note": "Termination is proved for assignments; for initialization by a call if no class refers to itself, and refuted otherwise (Node n = make();)."
  },
  {
   "property": "C164",
   "status": "partial",
   "theorems": [
    "C164_needed_functions_are_analyzed_partial",
    "C164_without_recursion_results_are_exact_partial"
   ],
   "note": "Proved for units without virtual methods, for any analysis of single functions that depends only on the results of the callees; the number of functions is finite. Uninstantiated templates are not modelled."
  },
  {
   "property": "C165",
   "status": "partial",
   "theorems": [
    "C165_order_does_not_matter_without_recursion_partial",
    "C165_order_matters_with_recursion_refuted",
    "C165_bystanders_fail_refuted"
   ],
   "note": "Proved for functions from which no recursive function is called. Refuted with recursion: functions that merely call themselves are merged into one cycle, in the order of the visit, and the number of iterations (the largest number of parameters plus two) is then too small for one order and enough for another; functions that are not recursive are drawn in and fail too."
  },
  {
   "property": "C166",
   "status": "partial",
   "theorems": [
    "C166_overriders_are_taken_into_account_partial",
    "C166_overriders_of_declared_methods_refuted",
    "C166_recursive_base_refuted"
   ],
   "note": "Proved for methods that call nothing in hierarchies where every method is reached from its base through methods defined in the unit. Refuted: a base method that is only declared, or a pure method in between, leaves the overrider without a result (a failed assertion in debug builds); a recursive base method that is defined first ignores its overriders (a TODO in the code says so)."
  },
  {
   "property": "C167",
   "status": "partial",
   "theorems": [
    "C167_must_bind_or_fail_partial",
    "C167_impossible_requests_fail",
    "C167_uncallable_function_refuted",
    "C167_method_of_unbound_class_refuted",
    "C167_untracked_kinds_refuted"
   ],
   "note": "Proved for functions, classes, enums, aliases and namespaces whose enclosing scopes got bindings. Refuted: a function that can only be emitted with an unsatisfiable bound passes; a method of a class that gets no bindings or is bridged is dropped silently; SetMustBindItem forgets forward-declared classes, global variables, constants and existing Rust types."
  },
  {
   "property": "C168",
   "status": "partial",
   "theorems": [
    "C168_unannotated_declarations_do_not_fail_partial",
    "C168_stale_annotation_refuted"
   ],
   "note": "Proved up to functions that trigger the import of an annotated function while they are being imported. Refuted for those: must_bind_ is a field of the one function importer and is overwritten by nested imports, so a function that cannot be bound and mentions a class defined later with an annotated method fails the run (it passes if the class comes first)."
  },
  {
   "property": "C169",
   "status": "proved",
   "theorems": [
    "C169_excluded_declarations_leave_no_trace",
    "C169_accessible_declarations_are_considered"
   ],
   "note": "For any access chain and any translation unit; do_not_bind for functions and allowlisted names."
  },
  {
   "property": "C170",
   "status": "proved",
   "theorems": [
    "C170_import_terminates_and_imports_once"
   ],
   "note": "With the number of declarations plus one as the bound on the recursion depth; any larger bound gives the same verdict."
  },
  {
   "property": "C171",
   "status": "proved",
   "theorems": [
    "C171_every_item_in_its_module",
    "C171_every_item_in_its_module_regular"
   ],
   "note": "Equality of the printed entries with the source's, for every path of namespaces; the fuel of the model is shown to suffice. Hypotheses: ids unique, blocks stay in the target of their top-level item, blocks of one namespace have the same enclosing namespaces, the canonical block is in the IR."
  },
  {
   "property": "C172",
   "status": "proved",
   "theorems": [
    "C172_one_module_per_namespace",
    "C172_module_name"
   ],
   "note": "Modules are identified by the namespace they are printed for; that two namespaces have different names is C++'s business."
  },
  {
   "property": "C173",
   "status": "partial",
   "theorems": [
    "C173_unknown_attribute_is_local_partial",
    "C173_unknown_attribute_is_local_refuted",
    "C173_unknown_attribute_on_first_block_aborts_refuted",
    "C173_unknown_attribute_in_the_middle_refuted"
   ],
   "note": "Refuted: an unknown attribute on the last block silently drops the whole namespace, since only the last block in the target prints the module; on the first block it aborts Crubit, since a comment and a namespace cannot be merged; in the middle it drops nested namespaces last reopened there. Proved if neither the last nor the canonical block of a namespace is affected."
  },
  {
   "property": "C174",
   "status": "partial",
   "theorems": [
    "C174_deprecation_note",
    "C174_no_repeated_message_refuted"
   ],
   "note": "All but the last clause is proved; a message shared by two blocks can appear twice if a third block has another one."
  },
  {
   "property": "C175",
   "status": "proved",
   "theorems": [
    "C175_hash_order_is_irrelevant"
   ],
   "note": "The relation lets every append walk over any permutation and every map be handed on in any order; holds for any IR, aborts included."
  },
  {
   "property": "C176",
   "status": "proved",
   "theorems": [
    "C176_comparator_is_strict_weak",
    "C176_comparator_is_source_order",
    "C176_sort_is_stable",
    "C176_declarations_in_source_order",
    "C176_comments_in_source_order",
    "C176_top_level_in_source_order"
   ],
   "note": "Locations are positions; that Clang's isBeforeInTranslationUnit is a strict total order on different valid locations is assumed."
  },
  {
   "property": "C177",
   "status": "proved",
   "theorems": [
    "C177_instantiations",
    "C177_hash_orders_are_irrelevant"
   ],
   "note": "Hypotheses: instantiations have different mangled names, different members of one class do not tie in the source order, ids in the item table are unique (two cached declarations with one id would be resolved by hash order), containers are nested."
  },
  {
   "property": "C178",
   "status": "proved",
   "theorems": [
    "C178_container_lists",
    "C178_top_level_lists",
    "C178_listed_once",
    "C178_top_level_listed_once",
    "C178_comment_in_one_container",
    "C178_left_out",
    "C178_instantiations_come_last"
   ],
   "note": "The canonical children and the comment Clang attaches to a declaration are given."
  },
  {
   "property": "C179",
   "status": "proved",
   "theorems": [
    "C179_items_are_complete",
    "C179_complete_is_unique",
    "C179_children_first"
   ],
   "note": "For nested containers (a depth that grows along the child lists exists); the fuel of the traversal is shown to suffice."
  },
  {
   "property": "C180",
   "status": "partial",
   "theorems": [
    "C180_members_in_their_class",
    "C180_other_lists_unchanged",
    "C180_not_in_the_namespace",
    "C180_not_at_the_top_partial",
    "C180_not_at_the_top_refuted"
   ],
   "note": "Refuted for enumerations defined out of line at the top level: GetTopLevelItemIdsInSourceOrder skips nested classes only, so the enumeration is in the IR twice, at the top and in its class. Proved for classes, and in namespaces for everything."
  },
  {
   "property": "C181",
   "status": "proved",
   "theorems": [
    "C181_calls_pass_their_arguments",
    "C181_value_of_a_call",
    "C181_constructors_get_their_object"
   ],
   "note": "The object repository is a record of functions, as for C159 - C163; initializers of arrays of arrays store nothing (C159) and are not among what is passed; the statement is for every state from which the transfer function returns normally."
  },
  {
   "property": "C182",
   "status": "proved",
   "theorems": [
    "C182_definition_or_first",
    "C182_one_stands_for",
    "C182_one_item_per_target",
    "C182_targets_are_separate",
    "C182_idempotent"
   ],
   "note": "Owning targets are given. Assumes that different redeclarations begin at different places and that there is at most one definition."
  },
  {
   "property": "C183",
   "status": "partial",
   "theorems": [
    "C183_one_item_per_function_partial",
    "C183_friends_are_many_items",
    "C183_friends_refuted"
   ],
   "note": "Refuted for functions first declared as a friend and then declared twice outside classes: struct S { friend void f(S); }; void f(S); void f(S); each outer declaration is its own item. Proved for all others."
  }
 ]
}