{
 "claims": [
  {
   "property": "C01",
   "status": "proved",
   "theorems": [
    "C01_add",
    "C01_sub",
    "C01_neg",
    "C01_inc"
   ],
   "note": ""
  },
  {
   "property": "C02",
   "status": "proved",
   "theorems": [
    "C02_mul",
    "C02_mul_exact",
    "C02_mul_wide_refuted"
   ],
   "note": "Factors larger than half the buffer are truncated by the code; shown by C02_mul_wide_refuted."
  },
  {
   "property": "C03",
   "status": "proved",
   "theorems": [
    "C03_divmod",
    "C03_divmod_trunc",
    "C03_div_by_zero",
    "C03_most_negative_refuted"
   ],
   "note": "Excludes the most negative buffer value, on which the code is wrong (C03_most_negative_refuted)."
  },
  {
   "property": "C04",
   "status": "proved",
   "theorems": [
    "C04_bitwise",
    "C04_get_set_clear",
    "C04_is_zero",
    "C04_is_all_one",
    "C04_popcount",
    "C04_highest_set_bit",
    "C04_highest_clear_bit",
    "C04_lowest_set_bit"
   ],
   "note": ""
  },
  {
   "property": "C05",
   "status": "proved",
   "theorems": [
    "C05_shl",
    "C05_shr",
    "C05_shrs",
    "C05_in_place"
   ],
   "note": "sc_shrsI only for bit sizes divisible by 8 (the code asserts otherwise)."
  },
  {
   "property": "C06",
   "status": "proved",
   "theorems": [
    "C06_zero_extend",
    "C06_sign_extend"
   ],
   "note": ""
  },
  {
   "property": "C07",
   "status": "proved",
   "theorems": [
    "C07_comp",
    "C07_comp_equal"
   ],
   "note": ""
  },
  {
   "property": "C08",
   "status": "proved",
   "theorems": [
    "C08_parse",
    "C08_reject",
    "C08_print_hex",
    "C08_print_dec",
    "C08_hex_round_trip",
    "C08_long_numeral_refuted"
   ],
   "note": "Numerals with more than the value precision are misread by the code: C08_long_numeral_refuted."
  },
  {
   "property": "C09",
   "status": "proved",
   "theorems": [
    "C09_unique",
    "C09_add",
    "C09_sub",
    "C09_mul",
    "C09_neg",
    "C09_abs",
    "C09_pointer",
    "C09_pointer_difference",
    "C09_pointer_nowrap_refuted"
   ],
   "note": ""
  },
  {
   "property": "C10",
   "status": "proved",
   "theorems": [
    "C10_add",
    "C10_sub",
    "C10_mul",
    "C10_neg",
    "C10_abs",
    "C10_convert",
    "C10_is_overflow",
    "C10_div_refuted"
   ],
   "note": "Covers add, sub, mul, neg, abs and conversion. Division ignores the setting (C10_div_refuted)."
  },
  {
   "property": "C11",
   "status": "partial",
   "theorems": [
    "C11_div",
    "C11_div_exact",
    "C11_div_zero",
    "C11_divmod_zero_refuted"
   ],
   "note": "Everything but the last clause: tarval_divmod by zero stores no remainder (C11_divmod_zero_refuted), so 'bad for both results' is false of it."
  },
  {
   "property": "C12",
   "status": "partial",
   "theorems": [
    "C12_and",
    "C12_or",
    "C12_eor",
    "C12_andnot",
    "C12_ornot",
    "C12_not",
    "C12_bool",
    "C12_shl",
    "C12_shr",
    "C12_shrs",
    "C12_shrs_signed",
    "C12_unsigned_amount",
    "C12_shift_out",
    "C12_huge_amount_refuted",
    "C12_shrs_odd_size_refuted"
   ],
   "note": "Shift amounts below 2^32 after modulo reduction and, for shrs, byte sized modes or amounts covering the value; the cases left out are false: C12_huge_amount_refuted, C12_shrs_odd_size_refuted."
  },
  {
   "property": "C13",
   "status": "proved",
   "theorems": [
    "C13_cmp",
    "C13_in_range",
    "C13_tests",
    "C13_mode_bounds"
   ],
   "note": ""
  },
  {
   "property": "C14",
   "status": "proved",
   "theorems": [
    "C14_unique",
    "C14_stable"
   ],
   "note": ""
  },
  {
   "property": "C15",
   "status": "partial",
   "theorems": [
    "C15_to_bytes",
    "C15_round_trip",
    "C15_onto",
    "C15_from_bytes_refuted",
    "C15_bitcast"
   ],
   "note": "For the variant of sc_val_from_bytes that stays inside its buffer; the code as written overruns it on every call (C15_from_bytes_refuted)."
  },
  {
   "property": "C16",
   "status": "partial",
   "theorems": [
    "C16_round_trip",
    "C16_round_trip_nowrap",
    "C16_negative_nowrap_refuted",
    "C16_bool_refuted",
    "C16_from_str"
   ],
   "note": "Round trip with wrap-around on, or off for non-negative values; the rest is false: C16_negative_nowrap_refuted, C16_bool_refuted."
  },
  {
   "property": "C17",
   "status": "proved",
   "theorems": [
    "C17_convert",
    "C17_representable",
    "C17_smaller_mode",
    "C17_smaller_round_trip",
    "C17_values_in_mode"
   ],
   "note": ""
  },
  {
   "property": "C18",
   "status": "partial",
   "theorems": [
    "C18_from_long",
    "C18_get_long",
    "C18_long_round_trip",
    "C18_is_long_refuted",
    "C18_uint64",
    "C18_sub_bits",
    "C18_popcount",
    "C18_lowest_bit",
    "C18_highest_bit",
    "C18_magnitude",
    "C18_odd_size_refuted"
   ],
   "note": "tarval_is_long admits unsigned values beyond LONG_MAX in modes wider than 64 bits (C18_is_long_refuted); bit scans need byte sized modes (C18_odd_size_refuted)."
  },
  {
   "property": "C19",
   "status": "proved",
   "theorems": [
    "C19_history",
    "C19_walk",
    "C19_unique",
    "C19_remove_absent",
    "C19_insert_in_walk"
   ],
   "note": ""
  },
  {
   "property": "C20",
   "status": "proved",
   "theorems": [
    "C20_history",
    "C20_contains",
    "C20_iterate",
    "C20_nodeset",
    "C20_pset_new",
    "C20_pset_new_refuted",
    "C20_init_size_refuted"
   ],
   "note": ""
  },
  {
   "property": "C21",
   "status": "proved",
   "theorems": [
    "C21_history",
    "C21_empty",
    "C21_foreach",
    "C21_free",
    "C21_too_large"
   ],
   "note": ""
  },
  {
   "property": "C22",
   "status": "proved",
   "theorems": [
    "C22_history",
    "C22_pop_empty",
    "C22_heap_order"
   ],
   "note": ""
  },
  {
   "property": "C23",
   "status": "proved",
   "theorems": [
    "C23_find",
    "C23_representative",
    "C23_compression",
    "C23_compressed",
    "C23_no_failure",
    "C23_log_steps",
    "C23_union",
    "C23_union_assert"
   ],
   "note": ""
  },
  {
   "property": "C24",
   "status": "proved",
   "theorems": [
    "C24_popcount",
    "C24_nlz",
    "C24_ntz",
    "C24_ntz_zero",
    "C24_log2_floor",
    "C24_log2_ceil",
    "C24_log2_floor_zero_refuted",
    "C24_floor_po2",
    "C24_floor_po2_zero",
    "C24_ceil_po2",
    "C24_ceil_po2_zero",
    "C24_ceil_po2_top_refuted",
    "C24_is_po2_or_zero",
    "C24_round_up2",
    "C24_round_up2_exact",
    "C24_round_up2_assert",
    "C24_round_up2_wrap_refuted"
   ],
   "note": "Both the builtin and the portable #if variants. Outside the documented domain the results are wrong: C24_log2_floor_zero_refuted and others."
  },
  {
   "property": "C25",
   "status": "proved",
   "theorems": [
    "C25_multiplication_by_shifts"
   ],
   "note": "Integer modes of at least four bits whose shift modulo is 0 or at least the width."
  },
  {
   "property": "C26",
   "status": "proved",
   "theorems": [
    "C26_signed_quotient",
    "C26_signed_remainder"
   ],
   "note": "Signed integer modes; the remainder for modes of whole bytes (tv_ld2 misreads other widths, C28_odd_width_refuted)."
  },
  {
   "property": "C27",
   "status": "partial",
   "theorems": [
    "C27_magic_numbers",
    "C27_unsigned_quotient_partial",
    "C27_unsigned_quotient_Iu",
    "C27_halfword_refuted",
    "C27_increment_mode_refuted"
   ],
   "note": "The number theory of the magic numbers holds for every unsigned mode (C27_magic_numbers). The tree built from it is right in modes that reduce shift amounts modulo their width and, for divisors needing the increment, in mode_Iu only; the rest is false: C27_halfword_refuted, C27_increment_mode_refuted."
  },
  {
   "property": "C28",
   "status": "proved",
   "theorems": [
    "C28_quotient_by_power_of_two",
    "C28_remainder_by_power_of_two",
    "C28_every_signed_division",
    "C28_every_signed_remainder",
    "C28_every_Iu_division",
    "C28_odd_width_refuted",
    "C28_minus_one_needs_caller_refuted"
   ],
   "note": "Modes of whole bytes; other widths are misread by tv_ld2 (C28_odd_width_refuted). Divisor -1 is handled by the caller (C28_minus_one_needs_caller_refuted)."
  },
  {
   "property": "C29",
   "status": "partial",
   "theorems": [
    "C29_transfer_sound_partial",
    "C29_phi_sound",
    "C29_shrs_oversize_refuted",
    "C29_shrs_maybe_oversize_refuted",
    "C29_odd_width_refuted"
   ],
   "note": "Shl and Shr for widths that are powers of two (C29_odd_width_refuted otherwise); Shrs for modes of whole bytes whose shift modulo does not exceed the width, because beyond it the claim is false: C29_shrs_oversize_refuted, C29_shrs_maybe_oversize_refuted."
  },
  {
   "property": "C30",
   "status": "partial",
   "theorems": [
    "C30_add_partial",
    "C30_sub_partial",
    "C30_rounding_refuted",
    "C30_tiny_refuted",
    "C30_not_blind"
   ],
   "note": "Rounding to nearest. Missing, because false: fraction sizes 7 and 8 (C30_rounding_refuted) and results below the smallest normal number that are multiples of 2^32 units (C30_tiny_refuted); the latter do not exist below 32 fraction bits (C30_not_blind)."
  },
  {
   "property": "C31",
   "status": "partial",
   "theorems": [
    "C31_mul_partial",
    "C31_div_partial",
    "C31_tiny_refuted",
    "C31_mul_refuted",
    "C31_div_refuted",
    "C31_div_lost_refuted",
    "C31_exact_refuted"
   ],
   "note": "Rounding to nearest. Missing, because false: results as in C30 (C31_tiny_refuted), a subnormal times a large number (C31_mul_refuted), a normal divided by a subnormal number (C31_div_refuted), a subnormal divided by a small normal number (C31_div_lost_refuted). The exact flag is also set on overflow (C31_exact_refuted)."
  },
  {
   "property": "C32",
   "status": "partial",
   "theorems": [
    "C32_encode",
    "C32_decode_partial",
    "C32_roundtrip",
    "C32_subnormal_refuted"
   ],
   "note": "Encoding and the round trip of bytes are complete. Decoding of subnormal numbers with a significand divisible by 2^32 gives a value of class zero (C32_subnormal_refuted). Formats with fraction sizes 7 and 8 are left out."
  },
  {
   "property": "C33",
   "status": "proved",
   "theorems": [
    "C33_compare",
    "C33_unshared_refuted"
   ],
   "note": "Equal values are the same object (C14); without that the claim is false for infinities (C33_unshared_refuted). Formats with fraction sizes 7 and 8 are left out."
  },
  {
   "property": "C34",
   "status": "partial",
   "theorems": [
    "C34_cast_partial",
    "C34_lossless_partial",
    "C34_tiny_refuted",
    "C34_nan_refuted",
    "C34_lossless_refuted"
   ],
   "note": "Missing, because false: results as in C30 (C34_tiny_refuted, C34_lossless_refuted) and signalling NaNs, for which an assertion fails (C34_nan_refuted)."
  },
  {
   "property": "C35",
   "status": "proved",
   "theorems": [
    "C35_to_int"
   ],
   "note": "All float formats except fraction sizes 7 and 8, all integer modes, both overflow styles."
  },
  {
   "property": "C36",
   "status": "proved",
   "theorems": [
    "C36_lower_perm",
    "C36_duplicated_input_refuted"
   ],
   "note": "The scratch register found by get_free_register is an input of the model; push_through_perm is not modelled. Input registers must be distinct (C36_duplicated_input_refuted)."
  },
  {
   "property": "C37",
   "status": "proved",
   "theorems": [
    "C37_negated",
    "C37_inversed",
    "C37_numbers",
    "C37_is_relation",
    "C37_complementary"
   ],
   "note": ""
  },
  {
   "property": "C38",
   "status": "proved",
   "theorems": [
    "C38_resize",
    "C38_setlen",
    "C38_append",
    "C38_shrinklen",
    "C38_shrinklen_assert",
    "C38_exto",
    "C38_read_write",
    "C38_never_reduces_refuted"
   ],
   "note": "ir_arr_setlen can reallocate to fewer elements than before, contrary to its comment: C38_never_reduces_refuted."
  },
  {
   "property": "C39",
   "status": "proved",
   "theorems": [
    "C39_fixpoint_sound",
    "C39_claimed_constant",
    "C39_claimed_unreachable"
   ],
   "note": "For results that verify_constbits accepts (the fixed point of the transfer functions); the order in which constbits_analyze reaches it is not modelled. Operations within the limits of C29."
  },
  {
   "property": "C40",
   "status": "partial",
   "theorems": [
    "C40_possible_relations",
    "C40_cmp_folding_partial",
    "C40_cmp_folding_refuted"
   ],
   "note": "Integers and pointers; vrp_cmp is an input. The excluded case (left operand a Confirm whose bound is the right operand, itself a Confirm) is false: C40_cmp_folding_refuted."
  },
  {
   "property": "C41",
   "status": "partial",
   "theorems": [
    "C41_confirm_partial",
    "C41_compare_iv",
    "C41_bound_of_other_refuted",
    "C41_value_not_null"
   ],
   "note": "Integers and pointers. The excluded case is false: C41_bound_of_other_refuted."
  },
  {
   "property": "C42",
   "status": "proved",
   "theorems": [
    "C42_no_failure",
    "C42_ends",
    "C42_sound",
    "C42_executions",
    "C42_vrp_cmp",
    "C42_constant",
    "C42_merge_refuted"
   ],
   "note": "Integer nodes; shift amounts unsigned, Shrs on whole bytes. The merge of two antiranges is wrong as a function (C42_merge_refuted) but never happens in a run."
  },
  {
   "property": "C43",
   "status": "partial",
   "theorems": [
    "C43_computed_value_partial",
    "C43_shr_self_refuted",
    "C43_cmp_refuted",
    "C43_conv_refuted"
   ],
   "note": "All integer, reference and boolean nodes except three kinds for which it is false: C43_shr_self_refuted (x >> x under a shift modulo), C43_cmp_refuted (Confirm bounded by a Confirm), C43_conv_refuted (Conv of a Mul in a mode that is not whole bytes)."
  },
  {
   "property": "C44",
   "status": "partial",
   "theorems": [
    "C44_equivalent_node_partial",
    "C44_sub_refuted",
    "C44_conv_refuted",
    "C44_mux_refuted"
   ],
   "note": "All integer, reference and boolean nodes except Phi and three kinds for which it is false: C44_sub_refuted (shift modulo 1), C44_conv_refuted (bit information of a mode that is not whole bytes), C44_mux_refuted (selector folded wrongly, see C43)."
  },
  {
   "property": "C45",
   "status": "partial",
   "theorems": [
    "C45_transform_bitop_partial",
    "C45_cmps_refuted",
    "C45_bool_add_refuted",
    "C45_not_difference_refuted",
    "C45_shift_refuted",
    "C45_minus_refuted"
   ],
   "note": "All rewrites of And, Or, Eor and Not outside five kinds of nodes for which it is false: C45_cmps_refuted (wrong operands compared), C45_bool_add_refuted (Add of booleans), C45_not_difference_refuted (Add of two references), C45_shift_refuted (amount of 2^63 or more), C45_minus_refuted (shift modulo 1). New nodes are taken as made, before optimize_node."
  },
  {
   "property": "C46",
   "status": "partial",
   "theorems": [
    "C46_transform_arith_partial",
    "C46_and_refuted",
    "C46_shr_refuted",
    "C46_amount_refuted",
    "C46_twice_refuted",
    "C46_difference_refuted",
    "C46_top_bit_refuted",
    "C46_convs_refuted",
    "C46_sign_refuted",
    "C46_mul_modulo_refuted",
    "C46_mul_amount_refuted",
    "C46_mul_bytes_refuted"
   ],
   "note": "All rewrites of Add, Sub, Minus and Mul of integers and references (not the expansion of Mul by constants, see C25-C28) outside kinds of nodes for which it is false: C46_and_refuted and C46_shr_refuted (distributive laws of bit operations used for sums), C46_amount_refuted (amount of 2^63 or more), C46_twice_refuted and C46_sign_refuted (shift modulo), C46_difference_refuted and C46_convs_refuted (wrong mode), C46_top_bit_refuted (assertion), C46_mul_modulo_refuted, C46_mul_amount_refuted, C46_mul_bytes_refuted. New nodes are taken as made, before optimize_node."
  },
  {
   "property": "C47",
   "status": "partial",
   "theorems": [
    "C47_malloc_empty",
    "C47_set",
    "C47_clear",
    "C47_flip",
    "C47_is_set",
    "C47_set_all",
    "C47_clear_all",
    "C47_flip_all",
    "C47_and",
    "C47_or",
    "C47_andnot",
    "C47_xor",
    "C47_copy",
    "C47_is_empty",
    "C47_equal",
    "C47_have_common",
    "C47_contains",
    "C47_popcount",
    "C47_next_max",
    "C47_next",
    "C47_next_none_refuted",
    "C47_prev",
    "C47_prev_end_refuted",
    "C47_foreach",
    "C47_foreach_rev_partial",
    "C47_foreach_rev_refuted",
    "C47_set_range_partial",
    "C47_set_range_refuted",
    "C47_mod_range_partial",
    "C47_mod_range_refuted",
    "C47_num_members",
    "C47_minus1_partial",
    "C47_minus1_refuted",
    "C47_sized",
    "C47_sized_checked"
   ],
   "note": "All operations. Missing, because false: rbitset_minus1 takes one from the next element for 2^31 as for 0 (C47_minus1_refuted); rbitset_prev and the descending loop read after the array if the start is a multiple of 32 at its end (C47_prev_end_refuted, C47_foreach_rev_refuted); rbitset_set_range up to the end of the last element writes after the array (C47_set_range_refuted); bitset_mod_range of a range after the end fails an assertion (C47_mod_range_refuted); rbitset_next without a position to find (C47_next_none_refuted). No caller in the repository meets these."
  },
  {
   "property": "C48",
   "status": "partial",
   "theorems": [
    "C48_lower_partial",
    "C48_goes_unique",
    "C48_table_partial",
    "C48_edges",
    "C48_any_sort",
    "C48_range_refuted",
    "C48_narrow_refuted",
    "C48_many_refuted",
    "C48_overlap_refuted",
    "C48_signed_mode"
   ],
   "note": "All integer modes, tables and thresholds. Missing, because false: a range of a signed selector in the cascade also catches values below it (C48_range_refuted); cases of a signed selector narrower than the selector mode with negative values go to the default (C48_narrow_refuted); 65536 cases of one target overflow a uint16_t and fail an assertion (C48_many_refuted)."
  },
  {
   "property": "C49",
   "status": "partial",
   "theorems": [
    "C49_struct_partial",
    "C49_struct_places_partial",
    "C49_union_partial",
    "C49_array_partial",
    "C49_struct_refuted",
    "C49_array_refuted",
    "C49_align_refuted",
    "C49_frame_partial",
    "C49_frame_asked_partial",
    "C49_frame_fixed",
    "C49_frame_align_refuted",
    "C49_frame_refuted",
    "C49_depth_partial",
    "C49_aligned_partial",
    "C49_return_refuted"
   ],
   "note": "All members, slots and schedules of bounded total size. Missing, because false: sizes of 2^32 and more wrap silently, members overlap (C49_struct_refuted, C49_array_refuted, C49_frame_refuted); alignments that are no powers of two (C49_align_refuted); members without alignment fail an assertion (C49_frame_align_refuted); an aligned IncSP need not come back to depth 0 (C49_return_refuted). Not modelled: agreement of the depths at joins of control flow."
  },
  {
   "property": "C50",
   "status": "partial",
   "theorems": [
    "C50_build",
    "C50_optimal",
    "C50_heuristic",
    "C50_goes_on",
    "C50_exact_sums",
    "C50_local",
    "C50_local_least",
    "C50_wraps_refuted"
   ],
   "note": "All problems within the weight bound and all orders of R0, RI, RII, edge simplification and RN with alternatives of finite cost. Missing, because false: with heavy costs the unsigned sums wrap without any assertion (C50_wraps_refuted). Not modelled: the merges of heuristical_co and heuristical_co_ld (RM), the brute force of RN's choice, the buckets that fix the order."
  },
  {
   "property": "C51",
   "status": "proved",
   "theorems": [
    "C51_doms_goes_on",
    "C51_dominates",
    "C51_idom",
    "C51_depth",
    "C51_common",
    "C51_frontiers",
    "C51_frontier_of_start_refuted",
    "C51_unreachable_refuted",
    "C51_postdoms_goes_on",
    "C51_postdominates",
    "C51_ipostdom",
    "C51_postdepth"
   ],
   "note": "All graphs whose outs fit their predecessors (fits), for post dominators also with the number of blocks counted from the end (counted). The limits in the statement are needed: block_dominates takes a block that cannot be reached for a dominator of the start (C51_unreachable_refuted), and the start is missing in its own frontier when a block jumps back to it (C51_frontier_of_start_refuted). Frontiers are compared as sets. Recursion depth is not modelled."
  },
  {
   "property": "C52",
   "status": "partial",
   "theorems": [
    "C52_transform_shift_partial",
    "C52_transform_conv",
    "C52_twice_refuted",
    "C52_small_modulo_refuted",
    "C52_power_refuted",
    "C52_amounts_refuted",
    "C52_oversize_refuted",
    "C52_opposite_modulo_refuted",
    "C52_opposite_modulo2_refuted",
    "C52_opposite_amount_refuted",
    "C52_product_amount_refuted",
    "C52_product_bytes_refuted",
    "C52_mask_refuted"
   ],
   "note": "Conversions without conditions (C52_transform_conv); shifts outside kinds of nodes for which it is false: C52_twice_refuted, C52_small_modulo_refuted and C52_power_refuted (assertions on the shift modulo), C52_amounts_refuted and C52_mask_refuted (amounts narrower than the shift modulo), C52_oversize_refuted (size of the wrong mode), C52_opposite_modulo_refuted, C52_opposite_modulo2_refuted and C52_opposite_amount_refuted (amounts not reduced or narrowed), C52_product_amount_refuted, C52_product_bytes_refuted. When a rule has made a new shift the code goes on with the later rules; here that is the rewrite of the new graph. New nodes are taken as made, before optimize_node."
  },
  {
   "property": "C53",
   "status": "partial",
   "theorems": [
    "C53_lowering_partial",
    "C53_goes_on",
    "C53_cond",
    "C53_bswap",
    "C53_load",
    "C53_store",
    "C53_load_fun",
    "C53_arm_amount_refuted",
    "C53_arm_modulo_refuted",
    "C53_conv_refuted",
    "C53_count_refuted",
    "C53_parity_refuted",
    "C53_confirm_refuted",
    "C53_bits_refuted",
    "C53_shift_refuted",
    "C53_builtin_refuted"
   ],
   "note": "Missing: nodes excluded by op_regular and modes_fit, for which it is false: C53_arm_amount_refuted and C53_arm_modulo_refuted (shifts on arm), C53_count_refuted (a word shifted by a double word stays), C53_parity_refuted (parity of a signed operand gives a node the verifier rejects), C53_conv_refuted (a mode between word and double word). Lowering stops for C53_confirm_refuted, C53_bits_refuted, C53_shift_refuted, C53_builtin_refuted. Not modelled: Call, Return, Start, Sel, ASM, Bitcast, floats, method types, the partition of blocks."
  },
  {
   "property": "C54",
   "status": "partial",
   "theorems": [
    "C54_transform_cmp_partial",
    "C54_same_refuted",
    "C54_shifts_refuted",
    "C54_mod_refuted",
    "C54_flip_below_refuted",
    "C54_flip_above_refuted",
    "C54_minus_refuted",
    "C54_bits_refuted",
    "C54_shrs_refuted",
    "C54_modulo_refuted",
    "C54_size_refuted",
    "C54_long_refuted"
   ],
   "note": "Missing: comparisons excluded by cmp_regular, for which it is false: C54_same_refuted (~x < ~0 becomes x < 0), C54_shifts_refuted (x >> 1 == y >> 1 becomes x == y), C54_mod_refuted, C54_flip_below_refuted, C54_flip_above_refuted (relations equivalent to != are kept or negated), C54_minus_refuted (-x >= MIN), C54_bits_refuted (an unsigned constant made smaller wraps), C54_shrs_refuted, C54_modulo_refuted, C54_size_refuted, C54_long_refuted (unusual shift amounts and modes). One round between restarts is modelled. Not modelled: floats."
  },
  {
   "property": "C55",
   "status": "partial",
   "theorems": [
    "C55_transform_mux_partial",
    "C55_optimizable_complete",
    "C55_abs_relation_refuted",
    "C55_abs_unsigned_refuted",
    "C55_set_ones_refuted",
    "C55_bit_refuted",
    "C55_true_refuted",
    "C55_references_refuted",
    "C55_optimizable_sound_refuted"
   ],
   "note": "C55_optimizable_complete is the second sentence in full for regular Muxes. Missing in both: Muxes excluded by mux_regular, for which the first is false: C55_abs_relation_refuted (x != 0 ? -x : x becomes |x|), C55_abs_unsigned_refuted (a sign looked for in an unsigned mode), C55_set_ones_refuted (the difference with -1 overflows), C55_bit_refuted and C55_true_refuted (assertions fail), C55_references_refuted (nodes the verifier rejects). The converse of the second is false: C55_optimizable_sound_refuted. Not modelled: floats."
  },
  {
   "property": "C56",
   "status": "partial",
   "theorems": [
    "C56_transform_div",
    "C56_transform_proj",
    "C56_known",
    "C56_exception_partial",
    "C56_cond_partial",
    "C56_switch",
    "C56_exception_refuted",
    "C56_cond_refuted"
   ],
   "note": "Values (C56_transform_div, C56_transform_proj, C56_known) and Switch (C56_switch) in full. Missing in C56_exception_partial: x / x, for which it is false (C56_exception_refuted: with x = 0 the exception is lost). Missing in C56_cond_partial: selectors excluded by regular, for which it is false (C56_cond_refuted). Not modelled: floats, the lowering of a division by a constant done from here (C25 to C28)."
  },
  {
   "property": "C57",
   "status": "partial",
   "theorems": [
    "C57_no_alias_partial",
    "C57_below_refuted",
    "C57_array_refuted",
    "C57_part_of_sum_refuted",
    "C57_unsigned_refuted",
    "C57_types_refuted",
    "C57_fixed_refuted",
    "C57_alias_refuted",
    "C57_overflow_refuted",
    "C57_sure_refuted"
   ],
   "note": "C57_no_alias_partial: sound for the accesses of plain, a record of seven conditions. Missing: accesses that violate one of them. For each of the seven the claim is refuted, the other six holding: C57_below_refuted, C57_array_refuted, C57_part_of_sum_refuted, C57_unsigned_refuted, C57_types_refuted, C57_fixed_refuted, C57_alias_refuted; C57_overflow_refuted: overflow of a long; C57_sure_refuted: ir_sure_alias for accesses that are disjoint."
  },
  {
   "property": "C58",
   "status": "partial",
   "theorems": [
    "C58_bool_walk_partial",
    "C58_fuse_partial",
    "C58_nulls_refuted",
    "C58_relation_refuted",
    "C58_no_cmp_refuted"
   ],
   "note": "C58_bool_walk_partial: all conjunctions and disjunctions except p == 0 && q == 0, for which the claim is refuted (C58_nulls_refuted). C58_fuse_partial: control flow if new_rd_Cmp makes the comparison asked for or a constant; refuted otherwise, with what transform_node_Cmp makes: C58_relation_refuted (wrong way taken), C58_no_cmp_refuted (assertion). Missing: floats, how the blocks are found and their Phis changed."
  },
  {
   "property": "C59",
   "status": "partial",
   "theorems": [
    "C59_analysis",
    "C59_dont_care_partial",
    "C59_occult_partial",
    "C59_shrs_refuted",
    "C59_odd_width_refuted",
    "C59_confirm_refuted"
   ],
   "note": "C59_analysis: the worklist ends, no assertion fails, roots cared for. C59_dont_care_partial, C59_occult_partial: for graphs meeting dca_ok (whole bytes where carries or signs are looked at, shift modulo a power of two, no Shrs by an amount with bit information); refuted without: C59_shrs_refuted (sign bit lost), C59_odd_width_refuted. C59_confirm_refuted: Confirms need not hold afterwards. Missing: control flow, memory and tuples (the roots stand for them), floats."
  },
  {
   "property": "C60",
   "status": "partial",
   "theorems": [
    "C60_constants",
    "C60_selection_partial",
    "C60_encodable",
    "C60_total",
    "C60_branch",
    "C60_load",
    "C60_store",
    "C60_frame_addr",
    "C60_inc_sp",
    "C60_peephole",
    "C60_saturating_increment",
    "C60_alloc_partial",
    "C60_alloc_refuted",
    "C60_shrs_refuted"
   ],
   "note": "C60_selection_partial: every node the backend selects instructions for, in runs with any order and loops, except Shrs of 8 bit unsigned numbers (C60_shrs_refuted: zero extended). C60_encodable, C60_total, C60_constants, C60_branch, C60_load, C60_store, C60_frame_addr, C60_inc_sp, C60_peephole, C60_saturating_increment. C60_alloc_partial: sizes below 2048; C60_alloc_refuted: 2048 bytes fail an assertion. Missing: calls, returns, Switch, Builtins but one, floats, thread local entities, scheduling, register allocation, the assembler."
  },
  {
   "property": "C61",
   "status": "proved",
   "theorems": [
    "C61_value",
    "C61_nodes",
    "C61_total"
   ],
   "note": "C61_value, C61_nodes, C61_total for conv_opt_walker on graphs of integer and reference modes. Not modelled: float modes, the optimizations inside new_r_Conv (C52), the repetition in conv_opt with local_optimize_graph. Unknown and Bad have no values."
  },
  {
   "property": "C62",
   "status": "proved",
   "theorems": [
    "C62_value",
    "C62_inputs",
    "C62_total"
   ],
   "note": "C62_value, C62_inputs, C62_total for ir_lower_mode_b with the create_set function of the file. The split block is modelled by the meaning of the Phi behind the branch and by which cached results are dropped (any function of the state); C62_total takes from the splitting that a lowered Cmp does not move again. Not modelled: blocks and dominance of new nodes, optimizations inside the constructors, Tuples, other create_set functions of backends. Unknown and Bad have no values."
  },
  {
   "property": "C63",
   "status": "proved",
   "theorems": [
    "C63_copied",
    "C63_aligned",
    "C63_total"
   ],
   "note": "C63_copied, C63_aligned, C63_total for sizes below 2^32 - 8 (beyond, offset + mode_bytes wraps around) and parts that are the same or do not overlap. C63_total shows the panic for a small block of a type aligned to 16 bytes where misaligned accesses are not allowed (arm, mips, riscv, sparc). Not modelled: exceptions, volatility, types of the accesses."
  },
  {
   "property": "C64",
   "status": "partial",
   "theorems": [
    "C64_value_partial",
    "C64_clz",
    "C64_clz_refuted",
    "C64_popcount_refuted",
    "C64_kinds",
    "C64_total",
    "C64_va_arg",
    "C64_properties_partial",
    "C64_properties_refuted"
   ],
   "note": "C64_value_partial holds except for clz of an operand narrower than a pointer and popcount of a negative one; the claim is false there (C64_clz_refuted, C64_popcount_refuted; C64_clz says by how much). C64_properties_partial: all properties are kept only if no builtin but va_arg was lowered; a graph with lowered va_arg keeps all (C64_properties_refuted). C64_va_arg: a null pointer is called for va_arg on arm and mips. Not modelled: the lowering of va_arg in backends, memory, entities."
  },
  {
   "property": "C65",
   "status": "partial",
   "theorems": [
    "C65_string",
    "C65_ident_null",
    "C65_long",
    "C65_int",
    "C65_unsigned",
    "C65_size_partial",
    "C65_size_refuted",
    "C65_unsigned_refuted",
    "C65_enum",
    "C65_enum_refuted",
    "C65_list",
    "C65_type_ref",
    "C65_initializer",
    "C65_initializer_ends",
    "C65_entity",
    "C65_entity_ends",
    "C65_type",
    "C65_type_ends",
    "C65_typegraph_partial",
    "C65_alias_refuted",
    "C65_nameless_refuted",
    "C65_truncated_refuted",
    "C65_pointer_refuted",
    "C65_segment_refuted"
   ],
   "note": "The whole claim is false for sizes of 4 GiB and more (C65_size_refuted), pointers to types without a number (C65_pointer_refuted), the size of a segment (C65_segment_refuted), the assembler name of an alias (C65_alias_refuted), entities without a name (C65_nameless_refuted), large unsigneds where long has 32 bits (C65_unsigned_refuted); a type graph cut off is read forever (C65_truncated_refuted). Not modelled: the types there when reading starts, nodes, modes, irgs; a tarval's word is what C16 is about."
  },
  {
   "property": "C66",
   "status": "partial",
   "theorems": [
    "C66_string",
    "C66_string_refuted",
    "C66_number",
    "C66_expression_partial",
    "C66_sub_refuted",
    "C66_mul_refuted",
    "C66_conv_refuted",
    "C66_image_partial",
    "C66_field_text_refuted",
    "C66_struct_text_refuted",
    "C66_short_text_refuted",
    "C66_size",
    "C66_flexible_partial",
    "C66_flexible_refuted",
    "C66_flexible_member"
   ],
   "note": "C66_image_partial covers every nesting of arrays, compounds, bit fields and data in both byte orders, for initializers that are good (GasSpec.good): expressions that need no brackets, no part narrower than the datum, and what looks like text is an array of characters that it fills. Without that the claim is false: C66_sub_refuted, C66_mul_refuted, C66_conv_refuted, C66_field_text_refuted, C66_struct_text_refuted, C66_short_text_refuted, C66_string_refuted (signed char), C66_flexible_refuted (size). Tarvals are values of whole bytes. Not modelled: sections, alignment directives, the text of directives other than strings."
  },
  {
   "property": "C67",
   "status": "partial",
   "theorems": [
    "C67_immediate",
    "C67_parts",
    "C67_constant",
    "C67_encode",
    "C67_encode_single",
    "C67_encode_refuted",
    "C67_add",
    "C67_sub",
    "C67_or",
    "C67_eor",
    "C67_and",
    "C67_pack_partial",
    "C67_pack_refuted",
    "C67_shift",
    "C67_rotate",
    "C67_not_partial",
    "C67_not_refuted",
    "C67_extension",
    "C67_compare_partial",
    "C67_compare_exists",
    "C67_compare_refuted",
    "C67_stack_partial",
    "C67_stack_refuted",
    "C67_frame",
    "C67_access_partial",
    "C67_access_refuted"
   ],
   "note": "Full for the splitting, constants, soundness of immediates, Add, Sub, And, Or, Eor, shifts, rotations, extensions and frame addresses. Restricted, since false otherwise: C67_stack_partial (multiples of 4; C67_stack_refuted: shift by 32), C67_access_partial (no negative offset that does not fit; C67_access_refuted: wrong address), C67_pack_partial (value only; C67_pack_refuted: no such instruction), C67_not_partial (C67_not_refuted), C67_compare_partial (C67_compare_refuted: relation 7); C67_encode_refuted: not every immediate is found. Not modelled: multiplication, floats, calls, double words, the skipping of conversions."
  },
  {
   "property": "C68",
   "status": "partial",
   "theorems": [
    "C68_immediate",
    "C68_constant",
    "C68_value_partial",
    "C68_value_refuted",
    "C68_compare_partial",
    "C68_save",
    "C68_stack_partial",
    "C68_stack_refuted",
    "C68_frame",
    "C68_access_partial",
    "C68_access_lost",
    "C68_access_refuted",
    "C68_float_access"
   ],
   "note": "Full for constants, save, frame addresses and float accesses. Restricted, since false otherwise: C68_value_partial and C68_compare_partial (no shift by a constant outside 0 .. 31; C68_value_refuted: no such instruction), C68_stack_partial (C68_stack_refuted: -2^31 overflows), C68_access_partial (offsets that fit; C68_access_lost and C68_access_refuted: others are dropped). Modes of 32 bits only. Not modelled: extensions, skipping of conversions, addresses of entities, division, Mulh, floats, calls, delay slots."
  },
  {
   "property": "C69",
   "status": "partial",
   "theorems": [
    "C69_round_partial",
    "C69_multiple",
    "C69_round_refuted",
    "C69_address_partial",
    "C69_address_refuted"
   ],
   "note": "C69_multiple is full. Restricted, since false otherwise: C69_round_partial (rounded sizes that fit the mode; C69_round_refuted: others become 0) and C69_address_partial (alignments up to that of the stack; C69_address_refuted: greater ones are replaced by 1). The masks are computed by the model of tarvals."
  },
  {
   "property": "C70",
   "status": "partial",
   "theorems": [
    "C70_value",
    "C70_total_partial",
    "C70_total_refuted",
    "C70_kept",
    "C70_kept_sum",
    "C70_stack_partial",
    "C70_stack_refuted"
   ],
   "note": "C70_value, C70_kept and C70_kept_sum are full for the modelled nodes. C70_stack_partial is about sums of one node from Start and others (C70_stack_refuted: a scaled one is the index). C70_total_partial excludes Member nodes: C70_total_refuted shows one beside the address of an entity, where the assertion of line 149 fails. Conv nodes and thread local storage are not modelled."
  }
 ]
}