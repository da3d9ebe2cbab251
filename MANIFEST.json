{
 "claims": [
  {
   "property": "C01",
   "status": "proved",
   "theorems": [
    "C01_infix_textbook",
    "C01_infix_total",
    "C01_entitled",
    "C01_total",
    "C01_expression"
   ],
   "note": "Infix soups: exact characterisation by the textbook precedence/associativity rule. Soups with prefix/postfix/nullary operators: exact characterisation provided no prefix operator is looser than the operator directly to its left; the expression produced is the meaning of that tree."
  },
  {
   "property": "C02",
   "status": "partial",
   "theorems": [
    "C02_no_token_lost",
    "C02_order_partial",
    "C02_order_refuted"
   ],
   "note": "No token is lost or duplicated for any complete soup that resolves. Order is preserved when no prefix operator binds looser than its left neighbour; without that proviso the property is false of the code (C02_order_refuted gives the soup)."
  },
  {
   "property": "C03",
   "status": "partial",
   "theorems": [
    "C03_terminates",
    "C03_no_empty_panic",
    "C03_resolves_partial",
    "C03_no_panic_refuted"
   ],
   "note": "Termination with a linear bound and absence of the empty-output panic for every non-empty soup. Absence of the call panic only when nothing binds tighter than a call; C03_no_panic_refuted shows the panic otherwise."
  },
  {
   "property": "C04",
   "status": "proved",
   "theorems": [
    "C04_filled",
    "C04_only_adds",
    "C04_no_gap_no_change",
    "C04_error_iff",
    "C04_fill_then_shunt"
   ],
   "note": ""
  },
  {
   "property": "C05",
   "status": "proved",
   "theorems": [
    "C05_open_close",
    "C05_open_close_lam",
    "C05_close_open",
    "C05_close_meaning",
    "C05_open_meaning",
    "C05_bind_free_meaning",
    "C05_substitution_meaning",
    "C05_verify_sound",
    "C05_verify_close",
    "C05_verify_open"
   ],
   "note": "closing/opening round trips, meaning under every compositional interpretation, binding verifier"
  },
  {
   "property": "C06",
   "status": "proved",
   "theorems": [
    "C06_pred_succ",
    "C06_succ_pred",
    "C06_succ_meaning",
    "C06_pred_meaning",
    "C06_succ_closed"
   ],
   "note": "shifting references up and down"
  },
  {
   "property": "C07",
   "status": "proved",
   "theorems": [
    "C07_total",
    "C07_meaning",
    "C07_keeps_reached",
    "C07_references_survive",
    "C07_verified",
    "C07_prune_and_compress",
    "C07_self_fallback_refuted"
   ],
   "note": "Pruning a verified expression ends without panic; every binding that can be reached is kept, what is kept is needed; no surviving reference is to an eliminated binding (so compression succeeds); meaning kept in every interpretation in which only uses matter. The meaning theorem excludes lookups that fall back to the block looked into: C07_self_fallback_refuted shows that block-level elimination changes those."
  },
  {
   "property": "C08",
   "status": "proved",
   "theorems": [
    "C08_meaning",
    "C08_accepts",
    "C08_no_panic",
    "C08_verified",
    "C08_no_empty_lets",
    "C08_unchanged"
   ],
   "note": "Compression of eliminated bindings: same meaning in every interpretation that ignores unused bindings; accepts exactly when no live reference is to an eliminated binding; no panic on verified input; output verified, no empty lets; unchanged when nothing is eliminated."
  },
  {
   "property": "C09",
   "status": "proved",
   "theorems": [
    "C09_components",
    "C09_total",
    "C09_meaning",
    "C09_minimal",
    "C09_verified"
   ],
   "note": "Components, totality, meaning under any compositional interpretation in which grouping and order of lets do not matter, minimality, verification; for every iteration order of the hash set."
  },
  {
   "property": "C10",
   "status": "partial",
   "theorems": [
    "C10_meaning_partial",
    "C10_flat",
    "C10_verified",
    "C10_after_split",
    "C10_shadowing_refuted"
   ],
   "note": "Meaning kept for every expression whose directly nested lets bind distinct names; with shadowing the claim is false of the code (C10_shadowing_refuted). Flatness, bindings with demands in order and verification are proved under the same condition."
  },
  {
   "property": "C11",
   "status": "proved",
   "theorems": [
    "C11_total",
    "C11_meaning",
    "C11_complete",
    "C11_idempotent",
    "C11_unchanged",
    "C11_verified"
   ],
   "note": "Folding of literal lookups, heads and tails: totality, meaning in every lawful interpretation, completeness, idempotence, verification"
  },
  {
   "property": "C12",
   "status": "proved",
   "theorems": [
    "C12_find_hole",
    "C12_hole_bytes"
   ],
   "note": "exact specification of the hole search, and the byte-level consequences"
  },
  {
   "property": "C13",
   "status": "proved",
   "theorems": [
    "C13_regions",
    "C13_complete",
    "C13_mark_region",
    "C13_largest_hole",
    "C13_stats",
    "C13_objects_apart",
    "C13_total_available",
    "C13_hole_count",
    "C13_density"
   ],
   "note": "regions from one block are disjoint, inside it and off marked lines; failure only without room; heap-wide disjointness of reachable objects"
  },
  {
   "property": "C14",
   "status": "proved",
   "theorems": [
    "C14_collection_invisible",
    "C14_same_without_collections"
   ],
   "note": "any program, with collections anywhere, runs without undefined behaviour and observes what an unlimited heap would show"
  },
  {
   "property": "C15",
   "status": "proved",
   "theorems": [
    "C15_allocation_succeeds",
    "C15_allocation_disjoint"
   ],
   "note": "allocation succeeds in every reachable heap state, and the new object overlaps nothing reachable"
  },
  {
   "property": "C16",
   "status": "proved",
   "theorems": [
    "C16_mark_exact"
   ],
   "note": "visited objects are exactly the reachable ones, once each; marked lines are exactly those they touch"
  },
  {
   "property": "C17",
   "status": "proved",
   "theorems": [
    "C17_isomorphism"
   ],
   "note": "collection is an isomorphism of the reachable graph that leaves pinned blocks in place"
  },
  {
   "property": "C18",
   "status": "proved",
   "theorems": [
    "C18_union_find"
   ],
   "note": "f64-to-usize conversion of the flat edge list happens before the model."
  },
  {
   "property": "C19",
   "status": "proved",
   "theorems": [
    "C19_topo_sort"
   ],
   "note": "Also characterises the partial result on cyclic graphs."
  },
  {
   "property": "C20",
   "status": "proved",
   "theorems": [
    "C20_kruskal",
    "C20_components_unique"
   ],
   "note": "Includes minimality of total weight for lists in weight order."
  },
  {
   "property": "C21",
   "status": "proved",
   "theorems": [
    "C21_outputs_distinct",
    "C21_outputs_cover",
    "C21_full_period",
    "C21_single_orbit"
   ],
   "note": "splitmix64 on N modulo 2^64: output map bijective, advance has one orbit of length 2^64."
  },
  {
   "property": "C22",
   "status": "proved",
   "theorems": [
    "C22_interning",
    "C22_stable"
   ],
   "note": "Histories of at most 2^32 interned strings; the u32 truncation is modelled."
  },
  {
   "property": "C23",
   "status": "partial",
   "theorems": [
    "C23_membership",
    "C23_rendered",
    "C23_canonical",
    "C23_canonical_exact",
    "C23_integers_distinct",
    "C23_zero_refuted",
    "C23_large_integers_refuted"
   ],
   "note": "Canonical rendering, membership and algebra proved for elements with a lawful order; refuted for +0.0/-0.0 (insertion order visible) and integers above 2^53 (identified through f64)."
  },
  {
   "property": "C24",
   "status": "proved",
   "theorems": [
    "C24_lists",
    "C24_clone_reads_prefix",
    "C24_clone_is_value_refuted"
   ],
   "note": "Every program over any number of arrays behaves as on lists with no undefined behaviour; clones with a length share storage (aliasing shown). Arithmetic overflow at 2^64 elements not modelled."
  },
  {
   "property": "C25",
   "status": "proved",
   "theorems": [
    "C25_constructed",
    "C25_get",
    "C25_indices",
    "C25_set",
    "C25_reshape",
    "C25_transpose",
    "C25_slice",
    "C25_binop",
    "C25_neighbours",
    "C25_neighbours_rank_refuted"
   ],
   "note": "Shape and row-major flat list; the ndarray crate is modelled by its documented meaning. The additional refutation shows wrong-rank offset lists are merged instead of skipped."
  },
  {
   "property": "C26",
   "status": "proved",
   "theorems": [
    "C26_round_trip",
    "C26_economical",
    "C26_appending",
    "C26_lossless",
    "C26_size",
    "C26_program_size",
    "C26_injective",
    "C26_program",
    "C26_prelude",
    "C26_overrides",
    "C26_overridden",
    "C26_partial_application",
    "C26_args_refuted",
    "C26_wide_table_refuted",
    "C26_location_refuted",
    "C26_unknown_reference"
   ],
   "note": "The encoder of encode.rs and the machine's operand reads are modelled byte by byte. Any program whose parts fit the wire widths decodes to itself from the returned offset, on its own, with globals and tables, onto a prelude image and with overrides. Outside the widths the encoding is wrong and not always guarded: an application of 256 arguments, a case on tags 0 and 255, and the location of a parameterless lambda are _refuted theorems."
  },
  {
   "property": "C27",
   "status": "proved",
   "theorems": [
    "C27_bijective",
    "C27_resolves",
    "C27_folded",
    "C27_operands",
    "C27_roots",
    "C27_runs",
    "C27_locations",
    "C27_location_sound",
    "C27_annotation",
    "C27_fuel",
    "C27_decodes",
    "C27_program",
    "C27_overrides",
    "C27_annotation_refuted"
   ],
   "note": "For every byte stream decode_program accepts, any recursion bounds: one instruction per offset, operands equal to the node's with offsets replaced by ordinals, annotations folded on to the node they wrap, and any program read at an offset is the program the instructions run; every well-formed code (shared or cyclic) is accepted, and so is everything the encoder emits. Pool sizes are assumed to fit in 32 bits (the code casts them). Locations in force agree when valid; C27_annotation_refuted: a lookup with no location clears the one in force in byte dispatch and keeps it in pre-decoded dispatch."
  },
  {
   "property": "C28",
   "status": "proved",
   "theorems": [
    "C28_round_trip"
   ],
   "note": "Info word packing/unpacking round trip for all arities below 2^8 and annotations below 2^32."
  },
  {
   "property": "C29",
   "status": "partial",
   "theorems": [
    "C29_terminates",
    "C29_decides",
    "C29_complete",
    "C29_reflexive",
    "C29_transitive_partial",
    "C29_sound_partial",
    "C29_union",
    "C29_subtract",
    "C29_membership",
    "C29_transitive_refuted",
    "C29_optional_refuted",
    "C29_contractive_refuted",
    "C29_sound_refuted",
    "C29_lens_refuted",
    "C29_widen_refuted"
   ],
   "note": "Subtyping is proved to terminate and to decide the coinductive reading of its rules for all types without gradual parts. Transitivity and soundness are proved for types with contractive recursion, records of required fields, and no closed records together with dictionaries (soundness: no recursion through functions). The unrestricted claims are refuted by C29_transitive_refuted, C29_optional_refuted, C29_contractive_refuted and C29_sound_refuted."
  },
  {
   "property": "C30",
   "status": "partial",
   "theorems": [
    "C30_unify_partial",
    "C30_apply_partial",
    "C30_most_general_partial",
    "C30_agree_is_equal",
    "C30_terminates_refuted",
    "C30_acyclic_refuted",
    "C30_fresh_refuted",
    "C30_own_name_refuted"
   ],
   "note": "Proved for first-order types (no recursive, quantified or type-level-function types, row variables or applied variables; dictionaries or records but not both), from every acyclic substitution: unification ends, keeps earlier bindings, leaves an acyclic substitution, success makes the two types agree once the substitution is applied (agreement is equality but for the documented widenings), and it finds a most general unifier where one exists. Outside that fragment the property is false of the code: renamed recursive types make unification diverge, records with row variables on both sides leave a cyclic substitution whose application diverges, and names chosen for quantified variables clash with others."
  },
  {
   "property": "C31",
   "status": "proved",
   "theorems": [
    "C31_branches_sound",
    "C31_branches_any_order",
    "C31_sequence_sound",
    "C31_nested_sound",
    "C31_skip_update_safe",
    "C31_lub_claims",
    "C31_lub_laws",
    "C31_lub_idempotent_known",
    "C31_lub_idempotent_refuted"
   ],
   "note": "Soundness of lub/plus/scale/skip_update against a use-count reading; idempotence on unknown demands refuted."
  },
  {
   "property": "C32",
   "status": "proved",
   "theorems": [
    "C32_sorted",
    "C32_deterministic",
    "C32_round_trip"
   ],
   "note": "Entries handed to the serializer; postcard's byte format is not modelled. Key order assumed to satisfy the Ord contract."
  },
  {
   "property": "C33",
   "status": "proved",
   "theorems": [
    "C33_innermost",
    "C33_absent",
    "C33_scoped",
    "C33_insert",
    "C33_encounter"
   ],
   "note": "Stack of frames; insert on an empty stack is the panic."
  },
  {
   "property": "C34",
   "status": "proved",
   "theorems": [
    "C34_order",
    "C34_mixed_rejected",
    "C34_order_independent",
    "C34_order_unique",
    "C34_order_lawful",
    "C34_positions",
    "C34_function",
    "C34_accepted",
    "C34_value",
    "C34_no_nesting",
    "C34_no_anaphora",
    "C34_all_bound",
    "C34_all_block_bound",
    "C34_block",
    "C34_block_positions",
    "C34_block_alias",
    "C34_numbers",
    "C34_list_items",
    "C34_comparison_refuted",
    "C34_negative_refuted",
    "C34_capture_refuted",
    "C34_block_alias_refuted",
    "C34_bare_refuted",
    "C34_block_scope_refuted",
    "C34_large_number_refuted"
   ],
   "note": "to_binding_pattern is proved for every set of anaphora; the cooker's functions (written anaphora, gaps next to operators, block anaphora) are shown to be the same expression with explicit parameters in the documented order, for every shunting yard. Departures from the documentation are proved as _refuted theorems: negative numbers crash, made-up parameter names capture, an anaphor as a whole declaration leaks into the next function, the single-alias block shortcut can leave the anaphor free, block scoping depends on the order of declarations, numbers beyond i32 are unnumbered."
  },
  {
   "property": "C35",
   "status": "proved",
   "theorems": [
    "C35_key_injective",
    "C35_labels_injective",
    "C35_fresh_iff"
   ],
   "note": "The byte stream hashed is injective; the hash function itself (blake3) is not modelled. Freshness test exact."
  },
  {
   "property": "C36",
   "status": "proved",
   "theorems": [
    "C36_covers",
    "C36_monotone"
   ],
   "note": "Sizes are unbounded naturals (no usize overflow at the very top of the address space)."
  },
  {
   "property": "C37",
   "status": "partial",
   "theorems": [
    "C37_int_in_range",
    "C37_int_large_refuted",
    "C37_float_below_one",
    "C37_split_distinct_refuted",
    "C37_split_injective"
   ],
   "note": "Range holds for n <= 2^63 and is refuted above; the two halves of a split can coincide (refuted with a witness state); splitting is injective in each half."
  },
  {
   "property": "C38",
   "status": "partial",
   "theorems": [
    "C38_nth_in_range",
    "C38_slice",
    "C38_nth_negative_refuted"
   ],
   "note": "In-range indexing and slicing proved; a negative index returns the first element instead of an error (refuted)."
  },
  {
   "property": "C39",
   "status": "partial",
   "theorems": [
    "C39_sample",
    "C39_sample_without_replacement",
    "C39_shuffle",
    "C39_shuffle_reaches_all",
    "C39_shuffle_empty_refuted"
   ],
   "note": "Sampling and shuffling proved for every pick function; shuffling the empty vector with any float in the stream panics (refuted)."
  },
  {
   "property": "C40",
   "status": "partial",
   "theorems": [
    "C40_apply_meaning",
    "C40_apply_calls",
    "C40_apply_verified",
    "C40_tag_only",
    "C40_distribute_refuted",
    "C40_metadata_refuted"
   ],
   "note": "Applying inlinable functions: meaning, verification, no duplicated calls proved. Distributing them is refuted: a function that refers to an enclosing function's parameter goes astray under another binder, and metadata of the function is dropped."
  },
  {
   "property": "C41",
   "status": "partial",
   "theorems": [
    "C41_machine_sound_partial",
    "C41_machine_complete_partial",
    "C41_by_name_deterministic",
    "C41_function_operand_refuted",
    "C41_copied_placeholder_refuted",
    "C41_wide_partial_application_refuted"
   ],
   "note": "Soundness and completeness hold when no function reaches the native fast path, no placeholder is copied, and no partial application holds or awaits over 16 arguments; each exclusion is shown necessary by a refutation."
  },
  {
   "property": "C42",
   "status": "proved",
   "theorems": [
    "C42_stages",
    "C42_surplus",
    "C42_partial_arity",
    "C42_three_stages",
    "C42_block_refuted"
   ],
   "note": "About the by-name semantics, which C41 relates to the machine. Applying a block (the merge shorthand) in stages differs: C42_block_refuted."
  },
  {
   "property": "C43",
   "status": "partial",
   "theorems": [
    "C43_loop_error_is_real_partial",
    "C43_loop_error_refuted"
   ],
   "note": "Holds for runs that copy no placeholder; a run that does may report a loop where there is none."
  },
  {
   "property": "C44",
   "status": "partial",
   "theorems": [
    "C44_slot_evaluated_once_partial",
    "C44_copied_expression_refuted",
    "C44_lazy_arguments_shared",
    "C44_looked_up_refuted"
   ],
   "note": "Per environment slot; an unevaluated expression that is copied to another slot, or found by looking up a literal key in a block, is evaluated again."
  },
  {
   "property": "C45",
   "status": "proved",
   "theorems": [
    "C45_add_exact",
    "C45_sub_exact",
    "C45_mul_exact",
    "C45_sub_signed",
    "C45_pow_exact",
    "C45_add_commutes",
    "C45_mul_commutes",
    "C45_float_add",
    "C45_float_sub",
    "C45_float_nearest",
    "C45_closed",
    "C45_mixed_refuted",
    "C45_avoidable_error_refuted",
    "C45_negative_difference_refuted",
    "C45_float_mul"
   ],
   "note": "Integers of the same kind: exact or RangeError. Mixed kinds go through doubles and are nearest doubles; the findings (_refuted) show a negative plus an integer above 2^63 is wrong, 2^63-1 + 1 and 2^63 - (2^63+1) are errors although representable."
  },
  {
   "property": "C46",
   "status": "proved",
   "theorems": [
    "C46_floored",
    "C46_truncated",
    "C46_division_by_zero",
    "C46_quotients_whole",
    "C46_floor",
    "C46_ceiling",
    "C46_float_remainder",
    "C46_lowest_refuted",
    "C46_float_mod_refuted",
    "C46_float_quotient_refuted",
    "C46_mixed_refuted",
    "C46_exact_division"
   ],
   "note": "The law is for integers of the same kind. Findings: lowest word mod -1 is an error, -1e-20 mod 1 is 1, the double 2^63 divided by 1 is 2^63-1, mixed kinds break the law."
  },
  {
   "property": "C47",
   "status": "proved",
   "theorems": [
    "C47_exact",
    "C47_small_integers_comparable",
    "C47_trichotomy",
    "C47_swap",
    "C47_less_is_less",
    "C47_less_transitive",
    "C47_reflexive",
    "C47_at_most_transitive_refuted",
    "C47_equal_transitive_refuted"
   ],
   "note": "Findings: at-most and equality are not transitive (2^53+1, the double 2^53, 2^53)."
  },
  {
   "property": "C48",
   "status": "proved",
   "theorems": [
    "C48_bits",
    "C48_shifts",
    "C48_shift_left_fits",
    "C48_refused",
    "C48_shift_range",
    "C48_double_refuted",
    "C48_shift_overflow_refuted"
   ],
   "note": "Findings: the double 2^63 is taken for 2^63-1; a left shift that overflows changes sign silently."
  },
  {
   "property": "C49",
   "status": "proved",
   "theorems": [
    "C49_sort",
    "C49_running_max",
    "C49_running_min",
    "C49_running_sum",
    "C49_sort_changes_refuted",
    "C49_running_sum_refuted"
   ],
   "note": "Values are those of the nearest doubles: findings show integers beyond 2^53 come back changed, and an overflowing running sum comes back as 0."
  },
  {
   "property": "C50",
   "status": "proved",
   "theorems": [
    "C50_first_match",
    "C50_no_match",
    "C50_not_a_block"
   ],
   "note": ""
  },
  {
   "property": "C51",
   "status": "proved",
   "theorems": [
    "C51_block_entries",
    "C51_elements",
    "C51_round_trip",
    "C51_block_lookup",
    "C51_entry_parts"
   ],
   "note": ""
  },
  {
   "property": "C52",
   "status": "proved",
   "theorems": [
    "C52_and",
    "C52_or",
    "C52_not",
    "C52_if",
    "C52_cond",
    "C52_lists"
   ],
   "note": ""
  },
  {
   "property": "C53",
   "status": "proved",
   "theorems": [
    "C53_wrapper_plain",
    "C53_wrapper_boxed",
    "C53_handed_unique"
   ],
   "note": ""
  },
  {
   "property": "C54",
   "status": "proved",
   "theorems": [
    "C54_numbers",
    "C54_strings",
    "C54_whole_list",
    "C54_spine"
   ],
   "note": ""
  },
  {
   "property": "C55",
   "status": "proved",
   "theorems": [
    "C55_metadata",
    "C55_no_metadata"
   ],
   "note": ""
  },
  {
   "property": "C56",
   "status": "partial",
   "theorems": [
    "C56_literal_lookup",
    "C56_literal_lookup_waits",
    "C56_literal_lookup_resumes",
    "C56_literal_unique",
    "C56_literal_order_refuted"
   ],
   "note": "The fast path takes the first entry known to have the key, or goes on to the default (the full lookup). Entries that are not evaluated pairs are passed over, so it is not always the first entry: C56_literal_order_refuted. Missing: agreement with the full lookup when every entry is an evaluated pair is by the wording of the two specifications, not one theorem."
  },
  {
   "property": "C57",
   "status": "proved",
   "theorems": [
    "C57_merge",
    "C57_not_blocks",
    "C57_override",
    "C57_associative",
    "C57_identity",
    "C57_metadata",
    "C57_merge_with",
    "C57_duplicates_refuted"
   ],
   "note": "On evaluated values. With repeated keys the lookup before and after a merge differ (C57_duplicates_refuted)."
  },
  {
   "property": "C58",
   "status": "proved",
   "theorems": [
    "C58_unfold",
    "C58_path",
    "C58_path_cases",
    "C58_meet",
    "C58_tidy",
    "C58_idempotent",
    "C58_unit",
    "C58_associative",
    "C58_associative_refuted",
    "C58_replaced_metadata_refuted"
   ],
   "note": "On evaluated values whose blocks have each key once. Associativity fails with a scalar in the middle (C58_associative_refuted); a replacing value takes over metadata (C58_replaced_metadata_refuted)."
  },
  {
   "property": "C59",
   "status": "proved",
   "theorems": [
    "C59_reflexive",
    "C59_symmetric",
    "C59_transitive",
    "C59_transitive_refuted",
    "C59_lookup",
    "C59_merge",
    "C59_deep_merge",
    "C59_metadata",
    "C59_same_data",
    "C59_order_refuted"
   ],
   "note": "On evaluated values. Transitivity is refuted in general (C59_transitive_refuted)."
  },
  {
   "property": "C60",
   "status": "proved",
   "theorems": [
    "C60_total",
    "C60_layers",
    "C60_layers_exist",
    "C60_none",
    "C60_opaque",
    "C60_attach",
    "C60_merge_meta",
    "C60_deep_refuted",
    "C60_merge_loses_refuted"
   ],
   "note": "On evaluated values. Layers are merged, not deep-merged as the code's comment says (C60_deep_refuted)."
  },
  {
   "property": "C61",
   "status": "proved",
   "theorems": [
    "C61_elements",
    "C61_sorted",
    "C61_unique",
    "C61_sort_by",
    "C61_again",
    "C61_at_most_refuted",
    "C61_max_of",
    "C61_min_of",
    "C61_max_of_by",
    "C61_min_of_by"
   ],
   "note": "qsort of the prelude as a total function on finite lists; an at-most comparison is shown not to keep ties"
  },
  {
   "property": "C62",
   "status": "proved",
   "theorems": [
    "C62_take",
    "C62_drop",
    "C62_split_at",
    "C62_rotate",
    "C62_rotate_far",
    "C62_rotate_refuted",
    "C62_drop_far",
    "C62_drop_refuted",
    "C62_negative",
    "C62_negative_refuted",
    "C62_nth",
    "C62_update_nth",
    "C62_while",
    "C62_until",
    "C62_update_first",
    "C62_tails",
    "C62_last"
   ],
   "note": "the claims hold inside the list; the three boundary cases that fail are theorems of their own"
  },
  {
   "property": "C63",
   "status": "proved",
   "theorems": [
    "C63_folds",
    "C63_reduce",
    "C63_scans",
    "C63_standard",
    "C63_zip",
    "C63_interleave",
    "C63_cross"
   ],
   "note": "each function equals the standard one"
  },
  {
   "property": "C64",
   "status": "proved",
   "theorems": [
    "C64_window",
    "C64_window_touching",
    "C64_window_gap_refuted",
    "C64_window_zero_refuted",
    "C64_window_all",
    "C64_partition",
    "C64_partition_all",
    "C64_pairs",
    "C64_transpose",
    "C64_transpose_twice",
    "C64_transpose_ragged_refuted"
   ],
   "note": "windows hold whenever no gap meets the end; the exact condition of the error is proved"
  },
  {
   "property": "C65",
   "status": "proved",
   "theorems": [
    "C65_discriminate",
    "C65_consecutive",
    "C65_uniq",
    "C65_nub",
    "C65_nub_member",
    "C65_split_on",
    "C65_group_by"
   ],
   "note": "on lists with an abstract key and equality"
  },
  {
   "property": "C66",
   "status": "proved",
   "theorems": [
    "C66_range",
    "C66_range_members",
    "C66_range_refuted",
    "C66_take",
    "C66_infinite",
    "C66_cycle",
    "C66_cycle_nothing"
   ],
   "note": "lists made on demand are a coinductive type; e < b is refuted"
  },
  {
   "property": "C67",
   "status": "proved",
   "theorems": [
    "C67_elements",
    "C67_keys_values",
    "C67_update_value",
    "C67_update_value_fails",
    "C67_alter_value",
    "C67_update",
    "C67_update_works",
    "C67_alter",
    "C67_update_value_or",
    "C67_update_value_or_works",
    "C67_set_value",
    "C67_merge_at",
    "C67_merge_at_works",
    "C67_deep_merge_at",
    "C67_deep_merge_at_works",
    "C67_tongue",
    "C67_select",
    "C67_dissoc",
    "C67_select_dissoc",
    "C67_map_values",
    "C67_map_values_works",
    "C67_map_keys",
    "C67_merge_all",
    "C67_sort_keys",
    "C67_zip_kv",
    "C67_lookup_path",
    "C67_lookup_or",
    "C67_has",
    "C67_lookup_alts",
    "C67_lookup_across"
   ],
   "note": ""
  },
  {
   "property": "C68",
   "status": "proved",
   "theorems": [
    "C68_find",
    "C68_find_values",
    "C68_find_is_query",
    "C68_find_paths",
    "C68_find_once",
    "C68_list_paths_refuted",
    "C68_query",
    "C68_query_values",
    "C68_query_paths",
    "C68_query_once",
    "C68_query_once_refuted",
    "C68_query_leaves_refuted",
    "C68_query_first"
   ],
   "note": "The refuted theorems mark where the documentation's reading fails: paths through lists, duplicates, ** at the end."
  },
  {
   "property": "C69",
   "status": "proved",
   "theorems": [
    "C69_transform",
    "C69_transform_nothing",
    "C69_matches",
    "C69_open",
    "C69_open_merge",
    "C69_itself",
    "C69_any_block",
    "C69_symmetric_refuted"
   ],
   "note": ""
  },
  {
   "property": "C70",
   "status": "proved",
   "theorems": [
    "C70_exact",
    "C70_errors",
    "C70_decides",
    "C70_one_value",
    "C70_every_text",
    "C70_ascii",
    "C70_append",
    "C70_scalar"
   ],
   "note": "Model of process_escapes and of the scanning of string literals; the specification is an inductive reading of escapes."
  },
  {
   "property": "C71",
   "status": "partial",
   "theorems": [
    "C71_shell_escape",
    "C71_dq_escape_exact",
    "C71_dq_escape_partial",
    "C71_dq_escape_refuted"
   ],
   "note": "shell-escape is proved for every text. dq-escape doubles backslashes (C71_dq_escape_exact), so the property holds exactly for the texts without one (C71_dq_escape_partial, C71_dq_escape_refuted)."
  },
  {
   "property": "C72",
   "status": "partial",
   "theorems": [
    "C72_template_partial",
    "C72_template_exact",
    "C72_brace_after_hole_refuted",
    "C72_cstring_partial",
    "C72_cstring_brace_refuted",
    "C72_cstring_backslash_refuted",
    "C72_total",
    "C72_tokens",
    "C72_lossless_partial",
    "C72_lossless_refuted"
   ],
   "note": "Refuted as stated: closing braces right after a hole are lost in plain and raw strings (C72_template_exact says exactly what happens), and c-strings misread a backslash at the start of a text chunk beside a hole. Proved under the provisos that exclude these. Whitespace in a hole is left out of the tokens."
  },
  {
   "property": "C73",
   "status": "partial",
   "theorems": [
    "C73_total",
    "C73_source",
    "C73_lossless",
    "C73_shapes",
    "C73_maximal",
    "C73_unclosed",
    "C73_application",
    "C73_quotes_partial",
    "C73_quotes_refuted"
   ],
   "note": "Everything but the report of unterminated quotations, which misses unclosed quoted symbols, a quote alone at the end and c-strings ending in an escaped quote (C73_quotes_refuted)."
  },
  {
   "property": "C74",
   "status": "partial",
   "theorems": [
    "C74_visible",
    "C74_newline",
    "C74_preserves_partial",
    "C74_idempotent_partial",
    "C74_whitespace_partial",
    "C74_columns",
    "C74_holes_refuted",
    "C74_returns_refuted",
    "C74_unclosed_refuted",
    "C74_trailing_refuted",
    "C74_line_ends_refuted"
   ],
   "note": "Tokens, idempotence and whitespace are proved for sources without unclosed quotations, without whitespace in holes of strings and without whitespace made of carriage returns only; each exception is refuted by a source. The other parts hold of all sources."
  },
  {
   "property": "C75",
   "status": "partial",
   "theorems": [
    "C75_total",
    "C75_lossless",
    "C75_parses_partial",
    "C75_sources_partial",
    "C75_text",
    "C75_panics_refuted",
    "C75_places_refuted"
   ],
   "note": "No panic and errors inside the source are proved for sources in which no colon is crowded (directly followed by a backtick, or by what can be a head and another colon) and every Unicode bracket is closed; refuted otherwise. Ending and losslessness hold for all."
  },
  {
   "property": "C76",
   "status": "proved",
   "theorems": [
    "C76_parses",
    "C76_sources",
    "C76_unambiguous"
   ],
   "note": "All trees of the grammar of Parser/Grammar.v; what the parser accepts beyond it is listed in DESIGN.md."
  },
  {
   "property": "C77",
   "status": "partial",
   "theorems": [
    "C77_heads",
    "C77_one_kind",
    "C77_complaints",
    "C77_accepted",
    "C77_accepts",
    "C77_accepts_expression",
    "C77_unclosed_refuted",
    "C77_dropped_refuted"
   ],
   "note": "Proved but for two claims: an unclosed list at the end of a source is accepted, and words after a comma in a bracket block or a parameter pattern are dropped (refuted)."
  },
  {
   "property": "C78",
   "status": "partial",
   "theorems": [
    "C78_total",
    "C78_keeps",
    "C78_adds_nothing",
    "C78_scoped",
    "C78_no_growth",
    "C78_known_refuted",
    "C78_checked_refuted",
    "C78_lookup_refuted"
   ],
   "note": "Proved for code in which no case is on a constructor written in place and (for the converse) no case only checks; refuted for both, and for literal lookups, which the pass does not renumber."
  },
  {
   "property": "C79",
   "status": "partial",
   "theorems": [
    "C79_sound_partial",
    "C79_complete_partial",
    "C79_strict_refuted",
    "C79_table_refuted"
   ],
   "note": "Proved for expressions without literal-key lookups (the machine's meaning does not cover SLookupLit). The converse holds if nothing is annotated strict, and is refuted otherwise."
  },
  {
   "property": "C80",
   "status": "partial",
   "theorems": [
    "C80_terminates",
    "C80_annotates_only",
    "C80_flags_exact",
    "C80_signatures_exact",
    "C80_sound_partial",
    "C80_strict_refuted",
    "C80_function_refuted",
    "C80_names_refuted",
    "C80_overused",
    "C80_signatures_recorded"
   ],
   "note": "Termination, exactness of unused/recursive marks and of signatures, at-most-once only outside cycles and blocks: proved for all expressions. No other result than without the analysis: proved (C80_sound_partial). That annotations never lose a result is false and refuted three ways: list elements, free variables of functions and shadowed names. Not shown: that a definition marked used-at-most-once is evaluated at most once (it is not: a function that uses it may be called many times)."
  },
  {
   "property": "C81",
   "status": "partial",
   "theorems": [
    "C81_same_partial",
    "C81_delimited",
    "C81_data",
    "C81_refused",
    "C81_raised",
    "C81_ends",
    "C81_layers_refuted",
    "C81_computed_refuted",
    "C81_stray_refuted",
    "C81_block_refuted",
    "C81_long_refuted"
   ],
   "note": "Proved for values with metadata in one layer on a value that is ready, blocks of pairs, texts and sizes below 2^32 and dates whose text parses back; for every other value that crosses, the data is the same but for metadata. The full claim is refuted: outer metadata layers, metadata on computations that force, stray metadata, blocks made from lists, strings of 4 GiB."
  },
  {
   "property": "C82",
   "status": "proved",
   "theorems": [
    "C82_same",
    "C82_strict",
    "C82_elements",
    "C82_outcome_exists"
   ],
   "note": "For every interleaving of the writes of workers that end cleanly and every memory after any failure; the shared mapping's size is below 2^64."
  },
  {
   "property": "C83",
   "status": "proved",
   "theorems": [
    "C83_reads_inside",
    "C83_writes_inside",
    "C83_chunks",
    "C83_counted",
    "C83_workers",
    "C83_join",
    "C83_reaped",
    "C83_killed_waited"
   ],
   "note": "Reads for arbitrary memory; writes of every worker; chunks; counts; waiting."
  },
  {
   "property": "C84",
   "status": "partial",
   "theorems": [
    "C84_full",
    "C84_short",
    "C84_shown",
    "C84_total_partial",
    "C84_path_refuted",
    "C84_total_refuted",
    "C84_bracket_refuted"
   ],
   "note": "Written in full, every part is read back for every path; short forms and what messages show likewise where no sign is ambiguous; no text without an opening bracket ends the process. Refuted: a bare path with an at or equals sign is misread, a lone opening bracket (or one before a multi-byte last character) panics, and an unclosed bracket loses a character. The url crate and white space are parameters."
  },
  {
   "property": "C85",
   "status": "partial",
   "theorems": [
    "C85_ends",
    "C85_loaded",
    "C85_cycle",
    "C85_unreadable",
    "C85_documented_partial",
    "C85_nearest_refuted",
    "C85_own_refuted",
    "C85_false_cycle_refuted"
   ],
   "note": "Loading ends, success means closed and acyclic, reported cycles and missing files are real. The documented order of search is proved where each path finds one file only and refuted otherwise: a file beside an outer importer wins over the one beside the importer, two directories with files of one name share the first, and a cycle is reported where there is none. Git imports, streams and absolute paths are not modelled."
  },
  {
   "property": "C86",
   "status": "partial",
   "theorems": [
    "C86_names_partial",
    "C86_scoped_partial",
    "C86_clash_refuted",
    "C86_scoped_refuted",
    "C86_alias_refuted"
   ],
   "note": "Proved for imports in unit metadata with any sharing and naming when no name means two things, and for imports in the main file's declarations of files that import nothing. Refuted: with a name in two files a file gets the name of one it does not import; an import in one declaration is dropped because of another declaration's import; an alias is bound only where the first name is."
  },
  {
   "property": "C87",
   "status": "partial",
   "theorems": [
    "C87_shown_partial",
    "C87_hidden",
    "C87_lost_refuted",
    "C87_leaked_refuted",
    "C87_function_refuted",
    "C87_infinite_refuted"
   ],
   "note": "Proved for all data of any depth in the four formats, hidden entries and functions included, where entries made from lists have a visible key and value and numbers in sets and arrays are finite. Refuted otherwise: in block([[:a, hidden], [:b, x]]) entries are lost or paired wrongly, a function in a block made from a list is an error, an infinite array element is written as 0."
  },
  {
   "property": "C88",
   "status": "proved",
   "theorems": [
    "C88_whole"
   ],
   "note": "For every value and format; failures of the output stream itself are not modelled."
  },
  {
   "property": "C89",
   "status": "proved",
   "theorems": [
    "C89_refused"
   ],
   "note": "If and only if, for all data."
  },
  {
   "property": "C90",
   "status": "partial",
   "theorems": [
    "C90_tagged_partial",
    "C90_plain_refuted",
    "C90_layer_refuted"
   ],
   "note": "Proved for numbers, strings, symbols, datetimes, lists and blocks with the tag a string in the outermost metadata; refuted for booleans, nulls, sets, inner layers and tags that are symbols."
  },
  {
   "property": "C91",
   "status": "partial",
   "theorems": [
    "C91_found_partial",
    "C91_last",
    "C91_order",
    "C91_first_refuted"
   ],
   "note": "Proved where no two entries show the same key; with repeated keys the document has the last value (proved) and the language finds the first (refuted)."
  },
  {
   "property": "C92",
   "status": "partial",
   "theorems": [
    "C92_text",
    "C92_refused",
    "C92_rest_refuted",
    "C92_constants_refuted",
    "C92_long_refuted"
   ],
   "note": "proved: what every well-formed specifier does to text, and that exactly the formats not beginning with a specifier are refused; refuted: text after the specifier is dropped silently, booleans and null ignore the format, text above 65535 bytes panics with Rust 1.87 or later"
  },
  {
   "property": "C93",
   "status": "partial",
   "theorems": [
    "C93_radix",
    "C93_refused",
    "C93_alternate_refuted"
   ],
   "note": "proved: numeral of the 64-bit word with sign and padding, and exactly which numbers are refused; refuted: the documented alternate form does nothing"
  },
  {
   "property": "C94",
   "status": "partial",
   "theorems": [
    "C94_field",
    "C94_decimal_partial",
    "C94_exact_refuted",
    "C94_letters_refuted"
   ],
   "note": "proved: field, sign and, up to 2^53 in size, the decimal numeral (given that Rust prints whole doubles in full); refuted: larger integers lose digits, and the letters d i u f F g G a A s c all mean the same"
  },
  {
   "property": "C95",
   "status": "partial",
   "theorems": [
    "C95_pass",
    "C95_exit",
    "C95_failure",
    "C95_skip_refuted",
    "C95_none_refuted",
    "C95_interrupted_refuted",
    "C95_names_refuted"
   ],
   "note": "Proved with evaluation, re-reading of output and the file's own validations as parameters, for files whose targets have distinct names. Refuted: a skipped file makes the run fail, an empty directory panics, a test interrupted before printing passes, and of two targets with one name only one counts."
  },
  {
   "property": "C96",
   "status": "partial",
   "theorems": [
    "C96_selected",
    "C96_some",
    "C96_order",
    "C96_order_refuted"
   ],
   "note": "Selection proved for all files, independence of the order for files whose targets have distinct names; refuted for two targets with the same name."
  },
  {
   "property": "C97",
   "status": "partial",
   "theorems": [
    "C97_sidecar",
    "C97_fails",
    "C97_block_refuted",
    "C97_space_refuted",
    "C97_bad_code",
    "C97_unvalidated"
   ],
   "note": "Proved for sidecars made of blank lines, comments, exit: and stderr: lines as documented. Refuted for other YAML: a block scalar matches everything and a space before the colon makes the line disappear."
  },
  {
   "property": "C98",
   "status": "partial",
   "theorems": [
    "C98_read",
    "C98_scope",
    "C98_data",
    "C98_reference",
    "C98_precedence",
    "C98_quoted_refuted",
    "C98_key_anchor_refuted",
    "C98_merge_scope_refuted"
   ],
   "note": "Proved: reading the events of any document gives its value by a separate denotation (structure, copies for aliases, documented merging) or an error, never a panic; references of embedded code stay within the document when nothing is merged and point at the entry of their name. Refuted: code in a merged mapping refers outside the document; a quoted << merges; anchors of keys are lost. Keys of documents are scalars; embedded code that is itself a block literal cannot be merged in the model; the YAML parser is outside the model."
  },
  {
   "property": "C99",
   "status": "partial",
   "theorems": [
    "C99_words",
    "C99_numbers",
    "C99_text_partial",
    "C99_quoted",
    "C99_true_refuted",
    "C99_false_refuted",
    "C99_nan_refuted",
    "C99_numbers_refuted",
    "C99_tags"
   ],
   "note": "Proved: the words, all JSON numbers, quoted scalars, and that texts outside the schema and outside four misanchored patterns are strings. Refuted: TRUE… and …FALSE are read as false, .nan… is refused, and octal, hexadecimal, signed, zero-padded and point-first numbers and infinities are refused. Timestamps are a parameter."
  },
  {
   "property": "C100",
   "status": "partial",
   "theorems": [
    "C100_yaml",
    "C100_formats_partial",
    "C100_jsonl_refuted"
   ],
   "note": "Proved for YAML and JSON from any events, for TOML and for EDN. Refuted for JSON Lines, whose lines are read with code enabled. The csv, xml and text importers, which make no code, are not modelled."
  },
  {
   "property": "C101",
   "status": "proved",
   "theorems": [
    "C101_run",
    "C101_deterministic",
    "C101_stash",
    "C101_not_allowed",
    "C101_log",
    "C101_laws",
    "C101_map",
    "C101_then",
    "C101_sequence",
    "C101_map_m",
    "C101_filter_m"
   ],
   "note": "The driver's result and effects are exactly those of a step-by-step semantics of IO programs, for every operating system and both permissions; programs may be endless. Evaluation by the machine is represented by its value."
  },
  {
   "property": "C102",
   "status": "partial",
   "theorems": [
    "C102_exec_partial",
    "C102_exec_with_partial",
    "C102_shell",
    "C102_shell_with_partial",
    "C102_tags",
    "C102_empty_argument_refuted",
    "C102_computed_arguments_refuted",
    "C102_other_arguments_refuted",
    "C102_nul_refuted",
    "C102_null_input_refuted",
    "C102_time_refuted",
    "C102_killed_refuted"
   ],
   "note": "Proved for evaluated argument lists of scalars other than the single empty text, without NUL; for input other than the text null; for whole-number times. Refuted for the single empty argument, arguments not evaluated yet, arguments without a text, NUL in an argument, the input null, fractional times, and killing at the time limit."
  },
  {
   "property": "C103",
   "status": "proved",
   "theorems": [
    "C103_checked",
    "C103_only",
    "C103_sequence"
   ],
   "note": "For every rendering of exit codes that writes 0 for zero only."
  },
  {
   "property": "C104",
   "status": "partial",
   "theorems": [
    "C104_position",
    "C104_offset",
    "C104_injective",
    "C104_clamped",
    "C104_beyond",
    "C104_alias",
    "C104_return_refuted"
   ],
   "note": "Proved for all texts, with lines ended by line feeds (alone or after a carriage return). Refuted for lone carriage returns, which end lines in the protocol."
  },
  {
   "property": "C105",
   "status": "partial",
   "theorems": [
    "C105_rename",
    "C105_references",
    "C105_fresh",
    "C105_capture_refuted",
    "C105_unchecked_refuted"
   ],
   "note": "Proved: the cursor, the edits and the references; names stay different if the new name is not in use. Refuted: new names that are in use, or are no names, are not refused."
  },
  {
   "property": "C106",
   "status": "partial",
   "theorems": [
    "C106_meaning",
    "C106_no_names",
    "C106_agree",
    "C106_operators_refuted",
    "C106_bound_refuted"
   ],
   "note": "The dynamic route is proved to mean a function of the block in which normal names are looked up with the outer meaning as fallback; an expression without such names is unchanged; both routes agree for blocks that declare normal names. Refuted: operators declared in the block are seen by the static route only; a fallback to an already bound outer reference points one scope too far (not reached by desugaring, where outer references are still free)."
  },
  {
   "property": "C107",
   "status": "partial",
   "theorems": [
    "C107_internal",
    "C107_internal_names",
    "C107_meaning",
    "C107_static",
    "C107_private",
    "C107_collision_refuted"
   ],
   "note": "Proved for all nested lets and every interpretation: which declaration a name means, that internal declarations are not seen and that their values do not matter; the static route of lookup. Refuted: an internal declaration hides a public declaration of the same name in another import from the importer."
  },
  {
   "property": "C108",
   "status": "partial",
   "theorems": [
    "C108_trim",
    "C108_total",
    "C108_tree_partial",
    "C108_no_root",
    "C108_refused",
    "C108_end_refuted",
    "C108_cdata_refuted",
    "C108_prefix_refuted"
   ],
   "note": "Proved for documents without CDATA sections whose attributes differ in their local names: they are read as their tree; misplaced text, unknown references and what the XML reader refuses are errors. Refuted: the text of CDATA sections is lost; of attributes that differ in prefix only the last is kept; a document without an element, or whose root is not closed, is read for ever (the reader gives the end of input again and again, and nothing stops at it). The tokenizing of the crate quick_xml is not modelled."
  },
  {
   "property": "C109",
   "status": "partial",
   "theorems": [
    "C109_import",
    "C109_text_partial",
    "C109_return_refuted",
    "C109_csv_values",
    "C109_csv_import",
    "C109_csv_stream_partial",
    "C109_order_refuted"
   ],
   "note": "Importing text gives its lines, for all texts; streaming gives the same when no line ends in a carriage return of its own. Both routes give every CSV column its last value; importing keeps the order of columns with different names, streaming only when they are ascending. Refuted: streams remove all carriage returns at the end of a line, also of the last; streamed rows have their columns sorted by name. The crate csv and JSON Lines streams are not modelled."
  },
  {
   "property": "C110",
   "status": "proved",
   "theorems": [
    "C110_independent",
    "C110_fresh"
   ],
   "note": "For all histories over the table of streams."
  },
  {
   "property": "C111",
   "status": "partial",
   "theorems": [
    "C111_tokens",
    "C111_lines_refuted",
    "C111_selection",
    "C111_folding"
   ],
   "note": "Semantic tokens, selections and foldings proved for every text and tree; that a token lies within its line is refuted (text over several lines is one token). The classification of tokens is taken as given."
  },
  {
   "property": "C112",
   "status": "partial",
   "theorems": [
    "C112_document",
    "C112_range",
    "C112_unique",
    "C112_cursor_refuted",
    "C112_agree_refuted",
    "C112_past"
   ],
   "note": "Both requests proved for every text, formatting and range of the text; what the formatter makes of declarations is given. Refuted: that a cursor at the start of a declaration formats it, and that positions within surrogate pairs are read as by the other requests."
  },
  {
   "property": "C113",
   "status": "partial",
   "theorems": [
    "C113_pair",
    "C113_others",
    "C113_after_refuted"
   ],
   "note": "Proved for a bracket after the cursor or around it, and for other tokens; refuted for a cursor just after a bracket, which highlights only at the end of the source."
  }
 ]
}
