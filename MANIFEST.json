{
 "claims": [
  {
   "property": "C01",
   "status": "proved",
   "theorems": [
    "C01_constants",
    "C01_insert_remove",
    "C01_algebra",
    "C01_extensional",
    "C01_closed"
   ],
   "note": "all operations, closure and extensional equality"
  },
  {
   "property": "C02",
   "status": "partial",
   "theorems": [
    "C02_iter",
    "C02_iter_increasing",
    "C02_len",
    "C02_empty_full",
    "C02_min",
    "C02_max_partial",
    "C02_max_refuted",
    "C02_bounds_refuted",
    "C02_span_refuted"
   ],
   "note": "len, is_empty, is_full, iter and min_elem proved in full; max_elem is proved only for sets with a member >= 192, and refuted otherwise (the code negates three of the four words), with bounds and span panicking as a consequence"
  },
  {
   "property": "C03",
   "status": "proved",
   "theorems": [
    "C03_range_inclusive",
    "C03_range",
    "C03_list",
    "C03_contains_range",
    "C03_find_enclosing_range"
   ],
   "note": "ranges, lists, contains_range and find_enclosing_range"
  },
  {
   "property": "C04",
   "status": "proved",
   "theorems": [
    "C04_serialize_denotes",
    "C04_serialize_injective"
   ],
   "note": ""
  },
  {
   "property": "C05",
   "status": "partial",
   "theorems": [
    "C05_contains",
    "C05_arith",
    "C05_union",
    "C05_clamp",
    "C05_bits_to_bytes",
    "C05_bitor_partial",
    "C05_bitor_refuted",
    "C05_bitand_partial",
    "C05_bitand_refuted",
    "C05_shl_partial",
    "C05_shl_refuted",
    "C05_exact"
   ],
   "note": "add, sub, mul, div, rem, shr, union, clamp, bits-to-bytes and exactness proved in full; bitor, bitand and shl proved with the stated restrictions and refuted without them"
  },
  {
   "property": "C06",
   "status": "partial",
   "theorems": [
    "C06_arithmetic",
    "C06_bounds_partial",
    "C06_bitand_refuted",
    "C06_shl_refuted",
    "C06_shr_refuted",
    "C06_no_panic_refuted"
   ],
   "note": "arithmetic without bit operators in full; shifts, | and & under stated conditions and refuted without them"
  },
  {
   "property": "C07",
   "status": "partial",
   "theorems": [
    "C07_new",
    "C07_read_byte",
    "C07_read_be",
    "C07_big_endian",
    "C07_seek",
    "C07_split_partial",
    "C07_split_refuted",
    "C07_remaining"
   ],
   "note": "reads, seek, remaining in full; split_at for offset + n below 2^64 and refuted without (overflow)"
  },
  {
   "property": "C08",
   "status": "partial",
   "theorems": [
    "C08_observers",
    "C08_dup",
    "C08_sub_seq",
    "C08_append",
    "C08_sub_range_refuted",
    "C08_sub_range_partial"
   ],
   "note": "SeqKind in full; the lazily represented range (EnumFromTo) is refuted: sub-ranges reaching its end panic"
  },
  {
   "property": "C09",
   "status": "proved",
   "theorems": [
    "C09_sorted_search_safe",
    "C09_sorted_search_complete"
   ],
   "note": "binary search over any key function and any key order for safety; ascending keys for completeness"
  },
  {
   "property": "C10",
   "status": "proved",
   "theorems": [
    "C10_unsorted_search"
   ],
   "note": ""
  },
  {
   "property": "C11",
   "status": "proved",
   "theorems": [
    "C11_inflate",
    "C11_determined",
    "C11_runtime_agrees"
   ],
   "note": "for distances 1..=length of history (distance 0 panics)"
  },
  {
   "property": "C12",
   "status": "proved",
   "theorems": [
    "C12_codes",
    "C12_canonical",
    "C12_consecutive",
    "C12_order",
    "C12_prefix_free",
    "C12_limits_refuted"
   ],
   "note": "tables within the limits of the construction (not empty, lengths at most 63, at most 65536 symbols) that satisfy Kraft; outside those limits the construction panics, as shown"
  },
  {
   "property": "C13",
   "status": "proved",
   "theorems": [
    "C13_decodes",
    "C13_never_misdecodes",
    "C13_built_only_without_collision",
    "C13_builds",
    "C13_code_values",
    "C13_collision_rejected"
   ],
   "note": "decoder of the generated-code runtime"
  },
  {
   "property": "C14",
   "status": "partial",
   "theorems": [
    "C14_read_byte",
    "C14_read_bit_partial",
    "C14_read_bit_refuted"
   ],
   "note": "byte mode in full, over every history; bit mode only at byte granularity and refuted at bit granularity"
  },
  {
   "property": "C15",
   "status": "partial",
   "theorems": [
    "C15_peek_partial",
    "C15_offset_peek_partial",
    "C15_peek_not_partial",
    "C15_peek_not_refuted"
   ],
   "note": "all peek forms over arbitrary inner programs except those with Permit, or with an alternation a branch of which itself leaves recovery points behind; refuted for those"
  },
  {
   "property": "C16",
   "status": "partial",
   "theorems": [
    "C16_alternatives_partial",
    "C16_alternatives_bits_partial",
    "C16_alternatives_refuted",
    "C16_peek_not_refuted",
    "C16_bits_refuted"
   ],
   "note": "every branch program that leaves no recovery point behind; refuted for branches containing an earlier successful alternation, a violated negative lookahead, or a bit-mode slice overrun"
  },
  {
   "property": "C17",
   "status": "proved",
   "theorems": [
    "C17_bits"
   ],
   "note": ""
  },
  {
   "property": "C18",
   "status": "partial",
   "theorems": [
    "C18_remaining_partial",
    "C18_remaining_refuted"
   ],
   "note": "every byte-mode history; refuted in bit mode"
  },
  {
   "property": "C19",
   "status": "proved",
   "theorems": [
    "C19_align",
    "C19_interpreter_agrees",
    "C19_succeeds"
   ],
   "note": ""
  },
  {
   "property": "C20",
   "status": "partial",
   "theorems": [
    "C20_open",
    "C20_inside",
    "C20_close_partial",
    "C20_close_any_partial",
    "C20_permit_refuted"
   ],
   "note": "byte mode, arbitrary inner programs without Permit or leaking alternations; refuted with Permit"
  },
  {
   "property": "C21",
   "status": "proved",
   "theorems": [
    "C21_cursor",
    "C21_run"
   ],
   "note": "every decoder program, whether or not produced by the compiler"
  },
  {
   "property": "C22",
   "status": "partial",
   "theorems": [
    "C22_described_partial",
    "C22_consumed_partial",
    "C22_permit_refuted",
    "C22_bitops_refuted"
   ],
   "note": "proved for formats without tolerated failures (Permit) and without bit operations in counts and sizes; refuted for each of these"
  },
  {
   "property": "C23",
   "status": "proved",
   "theorems": [
    "C23_slice",
    "C23_exact",
    "C23_independent"
   ],
   "note": "sizes for which offset + size stays below 2^64 (the addition overflows otherwise)"
  },
  {
   "property": "C24",
   "status": "proved",
   "theorems": [
    "C24_position",
    "C24_peek_not",
    "C24_peek"
   ],
   "note": ""
  },
  {
   "property": "C25",
   "status": "partial",
   "theorems": [
    "C25_belongs_partial",
    "C25_failures_partial",
    "C25_peek_not_partial",
    "C25_ordered_partial",
    "C25_tolerated_partial",
    "C25_peek_not_refuted",
    "C25_ordered_refuted"
   ],
   "note": "every format and module; a passed negative peek or tolerated failure means that nothing there belongs to the format when its lookahead is exact (peek) or its failure does not depend on what comes after (tolerated failure, ordered choice); refuted otherwise"
  },
  {
   "property": "C26",
   "status": "partial",
   "theorems": [
    "C26_decodes_partial",
    "C26_regular_partial",
    "C26_codes",
    "C26_prefix_refuted",
    "C26_item_refuted"
   ],
   "note": "for formats whose lookahead is also decided without approximation (decoders made from Huffman tables while decoding included), or regular formats and entirely matched inputs, without formats that depend on failure; refuted in general"
  },
  {
   "property": "C27",
   "status": "partial",
   "theorems": [
    "C27_unambiguous_partial",
    "C27_regular_partial",
    "C27_refuted"
   ],
   "note": "under the same conditions as C26; refuted in general"
  },
  {
   "property": "C28",
   "status": "partial",
   "theorems": [
    "C28_selects_regular_partial",
    "C28_selects_partial",
    "C28_unique_partial",
    "C28_open_refuted",
    "C28_align_refuted",
    "C28_count_refuted"
   ],
   "note": "for regular formats and entirely matched inputs; otherwise when the construction made to give up at the end of what it knows succeeds; refuted in general"
  },
  {
   "property": "C29",
   "status": "partial",
   "theorems": [
    "C29_terminates_partial",
    "C29_iterations_partial",
    "C29_until_refuted",
    "C29_permit_refuted"
   ],
   "note": "without tolerated failures and bit operations in counts, with non-nullable bodies in loops with a stopping condition; refuted without either condition"
  },
  {
   "property": "C30",
   "status": "partial",
   "theorems": [
    "C30_count_partial",
    "C30_none_or_max",
    "C30_refuted",
    "C30_compile_refuted"
   ],
   "note": "only that the number of elements is within the bounds, and in fact none or the maximum; the full claim is refuted"
  },
  {
   "property": "C31",
   "status": "proved",
   "theorems": [
    "C31_lsb_first",
    "C31_length",
    "C31_bits"
   ],
   "note": ""
  },
  {
   "property": "C32",
   "status": "proved",
   "theorems": [
    "C32_join",
    "C32_fold",
    "C32_map_lift",
    "C32_strict",
    "C32_downgrade"
   ],
   "note": ""
  },
  {
   "property": "C33",
   "status": "proved",
   "theorems": [
    "C33_value",
    "C33_decoder",
    "C33_view",
    "C33_listing"
   ],
   "note": ""
  },
  {
   "property": "C34",
   "status": "partial",
   "theorems": [
    "C34_free_variables",
    "C34_reported_is_free",
    "C34_conservative_partial",
    "C34_conservative_refuted"
   ],
   "note": "proved for expressions without a record having a field of that name; refuted with one"
  },
  {
   "property": "C35",
   "status": "partial",
   "theorems": [
    "C35_matching_meaning",
    "C35_outer_wrappers",
    "C35_provenance_partial",
    "C35_provenance_refuted"
   ],
   "note": "outer wrappers for every pattern, all wrappers for patterns that do not test below the outermost constructor; refuted for deeper tests"
  },
  {
   "property": "C36",
   "status": "partial",
   "theorems": [
    "C36_arith_partial",
    "C36_arith_usize_partial",
    "C36_shl_refuted",
    "C36_shift_amount_refuted",
    "C36_unary",
    "C36_comparisons",
    "C36_conversions",
    "C36_as_char",
    "C36_bytes",
    "C36_seq_length_partial",
    "C36_seq_length_refuted"
   ],
   "note": "every operator except left shifts that lose bits, shifts by the width or more, and lengths of 2^32 and more, which are refuted"
  },
  {
   "property": "C37",
   "status": "partial",
   "theorems": [
    "C37_display_partial",
    "C37_display_refuted"
   ],
   "note": "proved for sets with a member >= 192 not containing 255; refuted without either restriction"
  },
  {
   "property": "C38",
   "status": "proved",
   "theorems": [
    "C38_eval_exact",
    "C38_strict_value",
    "C38_strict_total",
    "C38_strict_flag",
    "C38_vars",
    "C38_no_panic_refuted"
   ],
   "note": "the result, strict flag and variable dependence in full; a bitwise cast of an unrepresentable value panics rather than failing, as shown"
  },
  {
   "property": "C39",
   "status": "proved",
   "theorems": [
    "C39_bitwise_cast",
    "C39_unique"
   ],
   "note": ""
  },
  {
   "property": "C40",
   "status": "proved",
   "theorems": [
    "C40_superset",
    "C40_encompasses",
    "C40_encompasses_total",
    "C40_unify"
   ],
   "note": ""
  },
  {
   "property": "C41",
   "status": "partial",
   "theorems": [
    "C41_binary_partial",
    "C41_quotient_refuted",
    "C41_fallback",
    "C41_negate_partial",
    "C41_negate_refuted",
    "C41_abs_partial",
    "C41_abs_refuted",
    "C41_casts",
    "C41_cast_tables"
   ],
   "note": "all tables, minus the least signed value divided by -1, negated at its own type, or made absolute in checked builds, where the claim is refuted"
  },
  {
   "property": "C42",
   "status": "proved",
   "theorems": [
    "C42_in_range",
    "C42_matching"
   ],
   "note": ""
  },
  {
   "property": "C43",
   "status": "partial",
   "theorems": [
    "C43_agrees_partial",
    "C43_permit_refuted",
    "C43_nested_refuted",
    "C43_numeric_refuted",
    "C43_panic_refuted",
    "C43_conversion"
   ],
   "note": "formats without tolerated failures, patterns that test only the outermost constructor, panics not compared; refuted outside"
  },
  {
   "property": "C44",
   "status": "partial",
   "theorems": [
    "C44_spans",
    "C44_in_input_partial",
    "C44_read_there_partial",
    "C44_until_refuted",
    "C44_record_refuted",
    "C44_buffer_refuted",
    "C44_mapped_refuted"
   ],
   "note": "whole-span claim for the formats that read or collect, including records; containment without record expressions, contents without maps, both without derived buffers; refuted outside"
  },
  {
   "property": "C45",
   "status": "proved",
   "theorems": [
    "C45_join",
    "C45_adjacent",
    "C45_order",
    "C45_gap_refuted"
   ],
   "note": "the join of locations with a gap between them is not their span, as shown"
  },
  {
   "property": "C46",
   "status": "partial",
   "theorems": [
    "C46_typed_partial",
    "C46_exact_partial",
    "C46_careful_partial",
    "C46_careful_agrees",
    "C46_argument_refuted",
    "C46_position_refuted",
    "C46_range_refuted",
    "C46_hint_refuted",
    "C46_accumulate_refuted",
    "C46_char_pattern_refuted",
    "C46_panic_refuted"
   ],
   "note": "where declared types are ground and there is no accumulation or flat-map over the list made so far, or with the missing tests added; with exact integer types where no value has an open type; refuted in general"
  },
  {
   "property": "C47",
   "status": "proved",
   "theorems": [
    "C47_least",
    "C47_order",
    "C47_values",
    "C47_permuted"
   ],
   "note": ""
  },
  {
   "property": "C48",
   "status": "partial",
   "theorems": [
    "C48_record",
    "C48_all_kept",
    "C48_names",
    "C48_labels",
    "C48_pseudo",
    "C48_decoded_partial",
    "C48_reuse_refuted"
   ],
   "note": "for field lists in which no name is used twice (refuted otherwise); decoded values: one direction, as C25"
  },
  {
   "property": "C49",
   "status": "partial",
   "theorems": [
    "C49_lookup",
    "C49_merge",
    "C49_merge_two",
    "C49_remap",
    "C49_remap_none",
    "C49_renamed_refuted",
    "C49_order_refuted",
    "C49_local_refuted",
    "C49_panics_refuted"
   ],
   "note": "for records built by the record constructor with all names different and at least one kept field; refuted outside"
  },
  {
   "property": "C50",
   "status": "partial",
   "theorems": [
    "C50_u8_partial",
    "C50_u16_partial",
    "C50_layouts",
    "C50_reserved_refuted",
    "C50_whole_refuted"
   ],
   "note": "fields and layouts proved for words of one and two bytes; reserved bits are not checked (refuted); names that the record constructor keeps as they are"
  },
  {
   "property": "C51",
   "status": "proved",
   "theorems": [
    "C51_unsigned",
    "C51_signed",
    "C51_decoded"
   ],
   "note": ""
  },
  {
   "property": "C52",
   "status": "proved",
   "theorems": [
    "C52_unique",
    "C52_char",
    "C52_text",
    "C52_zstr",
    "C52_decodes",
    "C52_only",
    "C52_valid",
    "C52_malformed_refuted"
   ],
   "note": "for inputs shorter than 2^64 bytes; malformed bytes after text may end it silently, as shown"
  },
  {
   "property": "C53",
   "status": "partial",
   "theorems": [
    "C53_decoded_partial",
    "C53_decoded_or_panics_partial",
    "C53_described_partial",
    "C53_end_of_input_refuted",
    "C53_no_branch_refuted",
    "C53_permit_refuted",
    "C53_position_in_view_refuted",
    "C53_align_in_view_refuted",
    "C53_back_from_slice_refuted",
    "C53_skip_bits_refuted",
    "C53_nested_bits_refuted",
    "C53_offset_type_refuted",
    "C53_hygiene_refuted",
    "C53_patterns_refuted"
   ],
   "note": "for the programs a decidable check accepts (no bounded repetition, tolerated failure or format made while decoding; no view or position in a slice, bits or view; trees in which no node both accepts and branches; no variable with a name of generated code); outside it mostly refuted"
  },
  {
   "property": "C54",
   "status": "partial",
   "theorems": [
    "C54_rejected_partial",
    "C54_accepted_partial",
    "C54_repeat1_refuted",
    "C54_between_refuted",
    "C54_view_in_slice_refuted",
    "C54_bits_in_slice_refuted",
    "C54_capture_refuted",
    "C54_hygiene_refuted"
   ],
   "note": "as C53, and without one-or-more loops and captures; panics and runs without end of the interpreter are not compared; refuted outside"
  },
  {
   "property": "C55",
   "status": "partial",
   "theorems": [
    "C55_byte_test",
    "C55_byte_test_exists",
    "C55_lookahead_partial",
    "C55_lookahead_refuted"
   ],
   "note": "byte tests proved; lookahead for trees in which no node both accepts and branches, refuted otherwise"
  },
  {
   "property": "C56",
   "status": "partial",
   "theorems": [
    "C56_expressions_partial"
   ],
   "note": "for patterns that do not look inside the parts of a value and variables without a name of generated code; the results of panicking evaluations are not compared"
  },
  {
   "property": "C57",
   "status": "partial",
   "theorems": [
    "C57_unambiguous",
    "C57_read_back_partial",
    "C57_read_back_grouping_partial",
    "C57_right_operand_refuted",
    "C57_logical_operand_refuted",
    "C57_comparisons_refuted",
    "C57_receiver_refuted",
    "C57_range_refuted"
   ],
   "note": "for expressions without a right operand of its parent's class (or with one up to regrouping of sums, bitwise and logical operations), logical operands of comparisons, borrows as receivers, fields as callees, ranges of ranges; refuted for each of these; text as tokens, without statements, macros, match, if, struct literals and strings"
  },
  {
   "property": "C58",
   "status": "partial",
   "theorems": [
    "C58_same_value_partial",
    "C58_value_partial",
    "C58_right_operand_refuted",
    "C58_product_refuted",
    "C58_shift_refuted",
    "C58_panics_refuted"
   ],
   "note": "for expressions without products, divisions or shifts nested on the right of their class; a value is computed if shifts are by constants below 2^32; refuted outside; panics of the interpreter are not compared"
  },
  {
   "property": "C59",
   "status": "proved",
   "theorems": [
    "C59_contains",
    "C59_contains_int",
    "C59_unify",
    "C59_unify_int",
    "C59_solution",
    "C59_solution_int",
    "C59_default",
    "C59_singleton",
    "C59_singleton_int",
    "C59_empty",
    "C59_empty_int",
    "C59_commutes",
    "C59_commutes_int",
    "C59_normalize",
    "C59_from_bounds",
    "C59_pattern_width",
    "C59_to_int",
    "C59_to_base",
    "C59_order_refuted",
    "C59_unify_panics_refuted",
    "C59_unify_empty_refuted"
   ],
   "note": "members and ranks of the sets; that an empty set is reported, that the order of constraints does not matter to the preferred type, and that no pair of sets panics are refuted"
  },
  {
   "property": "C60",
   "status": "partial",
   "theorems": [
    "C60_accepted_is_met_partial",
    "C60_met_is_accepted_partial",
    "C60_refused_has_none_partial",
    "C60_exact_partial",
    "C60_order_partial",
    "C60_cyclic_refuted",
    "C60_disjoint_refuted",
    "C60_panics_refuted",
    "C60_empty_refused_refuted",
    "C60_empty_forgets_refuted",
    "C60_hole_forgets_refuted"
   ],
   "note": "for requests whose types have no unknown or empty part and whose records have distinct names (refuted with such parts); when the engine reaches a variable again while unifying it, only that no assignment meets the history is proved; that what has no solution is refused, and that mismatches never panic, are refuted"
  },
  {
   "property": "C61",
   "status": "partial",
   "theorems": [
    "C61_reported_meets_partial",
    "C61_reported_together_partial",
    "C61_unreported_open_partial",
    "C61_ends_partial",
    "C61_order_partial",
    "C61_contradiction_refuted",
    "C61_projection_refuted",
    "C61_lost_map_refuted",
    "C61_empty_variant_refuted"
   ],
   "note": "under the conditions of C60 (types without unknown or empty parts); that reading ends is proved when no variable is left with projections only and every variable of a class names the map of variants its canonical variable names; a history that fixes every type and breaks the latter panics (refuted), a variant of empty type is left out (refuted)"
  },
  {
   "property": "C62",
   "status": "partial",
   "theorems": [
    "C62_rules_partial",
    "C62_assigned_partial",
    "C62_reported_partial",
    "C62_checked_partial",
    "C62_record_refuted",
    "C62_any_refuted",
    "C62_union_refuted",
    "C62_length_refuted",
    "C62_position_refuted"
   ],
   "note": "for modules in which records have distinct names that no later field uses, calls pass as many arguments as declared, declared types are definite and arguments have no unions, and no node fails on everything; refuted for records, open and union parameters, and for widths of lengths and positions; that well-typed formats are accepted is not proved"
  },
  {
   "property": "C63",
   "status": "partial",
   "theorems": [
    "C63_lockstep_partial",
    "C63_types_partial",
    "C63_reported_partial",
    "C63_derivations",
    "C63_accum_refuted",
    "C63_empty_refuted",
    "C63_apply_refuted",
    "C63_uncalled_refuted"
   ],
   "note": "for tidy modules as in C62 in which accumulators are declared without unions; refuted for such accumulators, for empty sequences, for dynamic formats of the caller and for uncalled items with parameters"
  },
  {
   "property": "C64",
   "status": "partial",
   "theorems": [
    "C64_total",
    "C64_stable",
    "C64_references",
    "C64_distinct_partial",
    "C64_called_partial",
    "C64_given_name_partial",
    "C64_dead_end_partial",
    "C64_place_refuted",
    "C64_mark_refuted"
   ],
   "note": "freedom from panics, stability and agreement of references with declarations proved; different names if no two types are asked for in the same place and no place is spelt like a name with a mark of duplication; refuted without either; names of formats, and the avoidance of places without a label, if in addition no two places of one type are spelt alike"
  },
  {
   "property": "C65",
   "status": "partial",
   "theorems": [
    "C65_printable",
    "C65_settled",
    "C65_apart_partial",
    "C65_types_partial",
    "C65_functions_partial",
    "C65_apart_refuted",
    "C65_raw_refuted"
   ],
   "note": "characters beyond ASCII are left out; different printed names for labels that are identifiers, refuted otherwise; functions if no type is called like a numbered function; the raw identifiers made of self, Self, super and crate are not allowed in Rust"
  },
  {
   "property": "C66",
   "status": "partial",
   "theorems": [
    "C66_elaborated_partial",
    "C66_agree_partial",
    "C66_generated_partial",
    "C66_generated_rejects_partial",
    "C66_maybe_refuted",
    "C66_align_refuted",
    "C66_count_refuted",
    "C66_peeknot_refuted",
    "C66_dead_variant_refuted"
   ],
   "note": "for formats in which no optional format ends in a choice or repetition, nothing is aligned to 0 or 1, counts have the same static bounds with and without types and no variant always fails; refuted without each; that one compiler accepts what the other does is refuted"
  },
  {
   "property": "C67",
   "status": "partial",
   "theorems": [
    "C67_same_choice_partial",
    "C67_nullable_partial"
   ],
   "note": "for the same formats, except that optional formats are free; refuted through C66 for alignment to one and for converted counts"
  },
  {
   "property": "C68",
   "status": "partial",
   "theorems": [
    "C68_only_streams",
    "C68_all_streams",
    "C68_decoded_partial",
    "C68_accepted_partial",
    "C68_one_reading",
    "C68_inflates",
    "C68_complement_refuted",
    "C68_reserved_refuted",
    "C68_rejected_refuted"
   ],
   "note": "the correspondence of format and RFC in both directions and the single reading of conforming streams are proved in full, for data under 4 GiB; every conforming stream of such data is accepted and decompressed by the compiled decoder (C68_inflates); rejection of malformed streams is refuted: some are accepted, some panic"
  },
  {
   "property": "C69",
   "status": "partial",
   "theorems": [
    "C69_only_members",
    "C69_all_members",
    "C69_only_zlib",
    "C69_all_zlib",
    "C69_decoded_partial",
    "C69_gunzips",
    "C69_zlib_inflates",
    "C69_lenient_refuted",
    "C69_zlib_lenient_refuted"
   ],
   "note": "the correspondence of the formats and the RFCs in both directions, and the acceptance of every conforming file, are proved in full for data under 4 GiB per member; rejection of files that do not conform is refuted: checksums, the gzip method and reserved flags are not looked at"
  },
  {
   "property": "C70",
   "status": "partial",
   "theorems": [
    "C70_compiles",
    "C70_returns",
    "C70_computes",
    "C70_no_panic",
    "C70_interpreter",
    "C70_same_value",
    "C70_inferred",
    "C70_wide_refuted",
    "C70_negate_refuted",
    "C70_successor_refuted",
    "C70_remainder_refuted",
    "C70_own_negation_refuted",
    "C70_absolute_refuted"
   ],
   "note": "soundness, completeness, freedom from panics and agreement with the interpreter are proved for every tree whose operations have code and, where said, do not negate the least number of a type; that all operations have code, and agreement on remainders by negative numbers and on negations of least numbers, are refuted"
  },
  {
   "property": "C71",
   "status": "partial",
   "theorems": [
    "C71_copy",
    "C71_copy_total",
    "C71_derive",
    "C71_derive_total",
    "C71_history",
    "C71_resolve",
    "C71_resolve_owned",
    "C71_resolve_borrowed",
    "C71_resolve_total",
    "C71_result_refuted",
    "C71_recursive_refuted"
   ],
   "note": "proved for every declaration, history and place without results, slices and mutable references; refuted for results, whose error type is not looked at, and for types that contain themselves, whose analysis does not end"
  },
  {
   "property": "C72",
   "status": "partial",
   "theorems": [
    "C72_aligned_size",
    "C72_align",
    "C72_size",
    "C72_unique",
    "C72_niches",
    "C72_total",
    "C72_enum_size_refuted",
    "C72_char_niches_refuted",
    "C72_plain_enum_refuted"
   ],
   "note": "proved in full for alignments, structs and tuples; for enums and options the answer is characterised, and refuted to be the least: tags are not put beside fields, enums without contents are given no niche, and more are counted for char than there are"
  },
  {
   "property": "C73",
   "status": "partial",
   "theorems": [
    "C73_width",
    "C73_total",
    "C73_empty_enum_refuted"
   ],
   "note": "proved for every declaration; refuted for enums without variants, where the program panics"
  },
  {
   "property": "C74",
   "status": "partial",
   "theorems": [
    "C74_implied_partial",
    "C74_decoded_partial",
    "C74_repeat_refuted",
    "C74_map_refuted",
    "C74_permit_refuted"
   ],
   "note": "proved for formats whose repetitions have a fixed count, whose functions do not look at the scope and that tolerate no failure; refuted without each"
  },
  {
   "property": "C75",
   "status": "partial",
   "theorems": [
    "C75_listed_partial",
    "C75_covered_partial",
    "C75_consumed_partial",
    "C75_slice_refuted",
    "C75_unlisted_refuted",
    "C75_panic_refuted"
   ],
   "note": "listing without a panic for formats without negative peeks and tolerated failures whose record hints are on records with a kept field, refuted without each; that only titled items consume, for formats that pass over no bytes and apply no dynamic format, refuted for slices; that all titled items that are read are listed is refuted: those below functions, conditions and earlier steps are not"
  },
  {
   "property": "C76",
   "status": "partial",
   "theorems": [
    "C76_concatenation",
    "C76_sequence",
    "C76_vacuous",
    "C76_intervene",
    "C76_atoms_refuted",
    "C76_single_line_partial",
    "C76_single_line_refuted",
    "C76_inline",
    "C76_join",
    "C76_builder",
    "C76_separated_partial",
    "C76_separated_refuted"
   ],
   "note": "all texts, vacuity (of fragments whose atoms read as something) and fitness for a line are proved in full; of single lines that what is called one is; separators of builders if nothing empty is put in, refuted otherwise"
  },
  {
   "property": "C77",
   "status": "partial",
   "theorems": [
    "C77_drawing",
    "C77_legible",
    "C77_distinct",
    "C77_preview",
    "C77_names_refuted",
    "C77_shown_refuted"
   ],
   "note": "for names and numbers printed in one line without spaces, refuted otherwise; what is shown of a value does not determine it: long sequences are cut, and tuples and sequences look alike; values printed with their formats are left out"
  },
  {
   "property": "C78",
   "status": "partial",
   "theorems": [
    "C78_relation",
    "C78_total_partial",
    "C78_legible_partial",
    "C78_regrouped",
    "C78_distinct_partial",
    "C78_operands_partial",
    "C78_grouping_refuted",
    "C78_hidden_refuted",
    "C78_names_refuted",
    "C78_pattern_refuted"
   ],
   "note": "for names that are words (nonempty, without spaces, brackets and dots, and not reserved), refuted otherwise; numeric expressions are left out; grouping in chains of one level is lost even where it matters (refuted: 9 - (4 - 2)); destructuring by a literal pattern panics (refuted)"
  },
  {
   "property": "C79",
   "status": "partial",
   "theorems": [
    "C79_legible_partial",
    "C79_regrouped",
    "C79_distinct_partial",
    "C79_left",
    "C79_grouping_refuted",
    "C79_names_refuted",
    "C79_embedded_refuted"
   ],
   "note": "for names of letters, digits and underscores that are not those of representations and do not start with abs (refuted: abs of x is printed like a variable absx); exact equality for chains grouped to the left, otherwise the grouping is lost even where it matters (refuted: 9 - (4 - 2))"
  },
  {
   "property": "C80",
   "status": "proved",
   "theorems": [
    "C80_exact",
    "C80_error",
    "C80_no_panic",
    "C80_declared",
    "C80_value",
    "C80_constants_refuted",
    "C80_several_refuted",
    "C80_success_refuted",
    "C80_equate_refuted"
   ],
   "note": "proved in full; constants are not compared with the representation they declare, several right ways are an error, and equating two variables in one order fails a debug assertion that inference never comes to (all refuted as stronger claims)"
  },
  {
   "property": "C81",
   "status": "partial",
   "theorems": [
    "C81_only_files",
    "C81_all_files",
    "C81_decoded_partial",
    "C81_reads",
    "C81_one_reading",
    "C81_ascii_refuted",
    "C81_unpadded_refuted"
   ],
   "note": "what the format describes, the decoder for every file and the one reading are proved in full; that a decoder which returns a value has read contents to the end of their length is missing"
  },
  {
   "property": "C82",
   "status": "proved",
   "theorems": [
    "C82_describes",
    "C82_decoded",
    "C82_reads",
    "C82_round_trip",
    "C82_one_reading",
    "C82_cut_refuted"
   ],
   "note": "proved in full"
  },
  {
   "property": "C83",
   "status": "proved",
   "theorems": [
    "C83_describes",
    "C83_decoded",
    "C83_reads",
    "C83_one_reading"
   ],
   "note": "proved in full"
  },
  {
   "property": "C84",
   "status": "partial",
   "theorems": [
    "C84_describes",
    "C84_decoded",
    "C84_one_reading",
    "C84_zero_or_nine",
    "C84_reads_refuted"
   ],
   "note": "what the format describes and what decoders return is proved; that the decoder reads every sequence is false and refuted: whatever it returns is made of the digits 0 and 9 only (C84_zero_or_nine), see C30"
  }
 ]
}