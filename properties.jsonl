{"id": "C01", "title": "Multi-word add, sub, negate and increment are exact modulo the buffer width", "statement": "Given two operand buffers of the calculator, sc_add/sc_sub/sc_neg/sc_inc write exactly the two's complement sum, difference, negation or successor of the operands modulo 2^(buffer bits), whatever carries occur; the operands may alias the result buffer.", "quantifier": "all buffer sizes fixed at initialisation, all operand contents (hundreds of bits), aliased or not", "why_tests_cant": "the operand space is 2^272 or larger; carry chains of every length cannot be enumerated", "anchors": ["ir/tv/strcalc.c:sc_add", "ir/tv/strcalc.c:sc_sub", "ir/tv/strcalc.c:sc_neg", "ir/tv/strcalc.c:sc_inc", "ir/tv/strcalc.c:sc_not"]}
{"id": "C02", "title": "Multi-word multiplication is the exact signed product", "statement": "sc_mul of two values that fit the value precision (half the buffer) yields the exact signed product as a two's complement buffer; no bit of the product is lost.", "quantifier": "all pairs of signed values that fit half of the calculation buffer, all buffer sizes", "why_tests_cant": "2^272 operand pairs; digit-carry combinations cannot be covered by sampling", "anchors": ["ir/tv/strcalc.c:sc_mul", "ir/tv/strcalc.c:sc_is_negative"]}
{"id": "C03", "title": "Multi-word division truncates toward zero with the matching remainder and terminates", "statement": "sc_div/sc_mod/sc_divmod on every dividend and non-zero divisor (other than the most negative buffer value) terminate and return q and r with a = q*b + r, |r| < |b| and r having the sign of a; division by zero is an assertion failure, never a silent result.", "quantifier": "all dividends and non-zero divisors representable in the calculation buffer", "why_tests_cant": "schoolbook division bugs hide in rare digit patterns; termination for all inputs is not testable", "anchors": ["ir/tv/strcalc.c:sc_divmod", "ir/tv/strcalc.c:sc_div", "ir/tv/strcalc.c:sc_mod", "ir/tv/strcalc.c:sc_push"]}
{"id": "C04", "title": "Bitwise calculator operations act bit by bit", "statement": "Bit i of the result of sc_and/or/xor/not/andnot/ornot equals the boolean operation applied to bit i of the operands, for every i; bit test/set/clear and count/scan functions (is_zero, is_all_one, popcount, lowest/highest set bit, highest clear bit) agree with the bits of the value.", "quantifier": "all operand contents and all bit indexes", "why_tests_cant": "exponential operand space", "anchors": ["ir/tv/strcalc.c:sc_and", "ir/tv/strcalc.c:sc_or", "ir/tv/strcalc.c:sc_xor", "ir/tv/strcalc.c:sc_andnot", "ir/tv/strcalc.c:sc_ornot", "ir/tv/strcalc.c:sc_is_zero", "ir/tv/strcalc.c:sc_is_all_one", "ir/tv/strcalc.c:sc_popcount", "ir/tv/strcalc.c:sc_get_highest_set_bit", "ir/tv/strcalc.c:sc_get_highest_clear_bit", "ir/tv/strcalc.c:sc_get_lowest_set_bit", "ir/tv/strcalc.c:sc_set_bit_at", "ir/tv/strcalc.c:sc_clear_bit_at"]}
{"id": "C05", "title": "Calculator shifts move bits by exactly the requested amount, also in place", "statement": "sc_shlI and sc_shrI multiply/floor-divide by 2^k modulo the buffer width for every k (including k at or beyond the width), sc_shrsI arithmetic-shifts a value of the given bit size, the returned carry flag of a right shift is set iff a set bit was shifted out, and the result is the same when source and destination buffer are the same object.", "quantifier": "all values, all shift amounts, aliased and non-aliased buffers", "why_tests_cant": "in-place update order errors appear only for specific word/bit offset combinations; the value space is exponential", "anchors": ["ir/tv/strcalc.c:sc_shlI", "ir/tv/strcalc.c:sc_shrI", "ir/tv/strcalc.c:sc_shrsI", "ir/tv/strcalc.c:sc_shl", "ir/tv/strcalc.c:sc_shr", "ir/tv/strcalc.c:sc_shrs"]}
{"id": "C06", "title": "Sign and zero extension produce the canonical buffer of an n-bit value", "statement": "sc_zero_extend/sc_sign_extend at bit n yield the buffer whose value is the low n bits read as unsigned/signed, for every n inside the buffer; bits below n are untouched.", "quantifier": "all buffers, all positions n including ones not divisible by the word size", "why_tests_cant": "exponential value space times every bit position", "anchors": ["ir/tv/strcalc.c:sc_zero_extend", "ir/tv/strcalc.c:sc_sign_extend", "ir/tv/strcalc.c:sc_min_from_bits", "ir/tv/strcalc.c:sc_max_from_bits"]}
{"id": "C07", "title": "Comparison of calculator values is the signed integer order", "statement": "sc_comp returns less/equal/greater exactly according to the signed values of the two buffers; hence it is a total order.", "quantifier": "all pairs of buffers", "why_tests_cant": "exponential operand space", "anchors": ["ir/tv/strcalc.c:sc_comp"]}
{"id": "C08", "title": "Text parsing and printing of integers are inverse and positional", "statement": "sc_val_from_str accepts exactly the strings of digits valid in base 2, 8, 10 or 16 and yields the positional value of the string (negated on request) whenever it fits the precision; printing the result in hexadecimal or decimal and parsing it again gives the same value.", "quantifier": "all digit strings of any length whose value fits the precision, all four bases, both signs", "why_tests_cant": "unbounded string space", "anchors": ["ir/tv/strcalc.c:sc_val_from_str", "ir/tv/strcalc.c:sc_print_buf"]}
{"id": "C09", "title": "Integer tarval arithmetic is arithmetic modulo 2^n of the mode", "statement": "For every integer mode with n bits, tarval_add/sub/mul/neg with wrap-around enabled return the tarval of that mode whose value is the mathematical result reduced modulo 2^n into the range of the mode.", "quantifier": "all integer modes below the precision limit, signed or unsigned, all operand values", "why_tests_cant": "value space 2^(2n) for up to 135-bit modes and arbitrarily many modes", "anchors": ["ir/tv/tv.c:tarval_add", "ir/tv/tv.c:tarval_sub", "ir/tv/tv.c:tarval_mul", "ir/tv/tv.c:tarval_neg", "ir/tv/tv.c:get_int_tarval", "ir/tv/tv.c:get_int_tarval_overflow"]}
{"id": "C10", "title": "Overflow detection of integer tarvals is exact", "statement": "With wrap-around disabled, tarval_add/sub/mul/neg and integer conversion return tarval_bad exactly when the mathematical result is outside the range of the mode, and otherwise the mathematical result.", "quantifier": "all integer modes and operand values", "why_tests_cant": "boundary cases for each of arbitrarily many bit widths", "anchors": ["ir/tv/tv.c:is_overflow", "ir/tv/tv.c:get_int_tarval_overflow", "ir/tv/tv.c:tarval_set_wrap_on_overflow", "ir/tv/tv.c:tarval_convert_to"]}
{"id": "C11", "title": "Integer tarval division and remainder", "statement": "tarval_div/tarval_mod/tarval_divmod of integer tarvals are C-style truncated division in the mode (most negative divided by -1 wraps), they agree with each other, and division by zero gives tarval_bad for both results.", "quantifier": "all integer modes and operand values", "why_tests_cant": "exponential operand space", "anchors": ["ir/tv/tv.c:tarval_div", "ir/tv/tv.c:tarval_mod", "ir/tv/tv.c:tarval_divmod"]}
{"id": "C12", "title": "Bitwise and shift operations on integer tarvals follow the mode", "statement": "tarval_and/or/eor/not/andnot/ornot operate on the n-bit two's complement pattern of the mode; tarval_shl/shr/shrs shift that pattern by the amount taken modulo the mode's modulo-shift, with amounts of n or more giving 0 (or the sign fill for shrs).", "quantifier": "all integer modes, all values, all non-negative shift amounts", "why_tests_cant": "exponential operand space, arbitrarily many modes", "anchors": ["ir/tv/tv.c:tarval_and", "ir/tv/tv.c:tarval_or", "ir/tv/tv.c:tarval_eor", "ir/tv/tv.c:tarval_not", "ir/tv/tv.c:tarval_andnot", "ir/tv/tv.c:tarval_ornot", "ir/tv/tv.c:tarval_shl", "ir/tv/tv.c:tarval_shr", "ir/tv/tv.c:tarval_shrs", "ir/tv/tv.c:tarval_shl_unsigned", "ir/tv/tv.c:tarval_shr_unsigned", "ir/tv/tv.c:tarval_shrs_unsigned"]}
{"id": "C13", "title": "Tarval comparison agrees with the numeric order", "statement": "tarval_cmp on two integer tarvals of one mode reports less/equal/greater exactly as their numeric values compare (signed values for signed modes, unsigned otherwise), and tarval_in_range follows from it.", "quantifier": "all modes, all pairs of values", "why_tests_cant": "exponential operand space", "anchors": ["ir/tv/tv.c:tarval_cmp", "ir/tv/tv.c:tarval_in_range", "ir/tv/tv.c:tarval_is_negative"]}
{"id": "C14", "title": "Tarvals are unique: same mode and value if and only if same object", "statement": "Whatever sequence of tarval-creating calls is made, asking again for a value already created in the same mode returns the identical object, and two different values or modes never share an object; so pointer comparison decides equality.", "quantifier": "all histories of tarval creations, including the table growing and any hash collisions", "why_tests_cant": "uniqueness must survive arbitrary histories and hash distributions", "anchors": ["ir/tv/tv.c:get_tarval", "ir/tv/tv.c:hash_tv", "ir/tv/tv.c:cmp_tv", "ir/adt/set.c:_set_insert"]}
{"id": "C15", "title": "Byte serialisation of integer tarvals round-trips", "statement": "new_tarval_from_bytes(tarval_to_bytes(t)) is t for every integer tarval of a byte-sized mode; the bytes are the little-endian two's complement pattern; conversely every byte string is the serialisation of exactly one tarval.", "quantifier": "all byte-multiple integer modes and all values", "why_tests_cant": "exponential value space", "anchors": ["ir/tv/tv.c:new_tarval_from_bytes", "ir/tv/tv.c:tarval_to_bytes", "ir/tv/strcalc.c:sc_val_from_bytes", "ir/tv/strcalc.c:sc_val_to_bytes"]}
{"id": "C16", "title": "Machine-readable text form of integer tarvals round-trips", "statement": "ir_tarval_from_ascii(ir_tarval_to_ascii(t), mode of t) is t for every integer tarval.", "quantifier": "all integer modes and values", "why_tests_cant": "exponential value space; a wrong sign case would silently corrupt dumped programs", "anchors": ["ir/tv/tv.c:ir_tarval_to_ascii", "ir/tv/tv.c:ir_tarval_from_ascii"]}
{"id": "C17", "title": "Integer conversions reduce modulo the target width and preserve representable values", "statement": "tarval_convert_to between integer modes yields the source value reduced into the target mode's range; if the source value is representable in the target the value is unchanged, and if the source mode is smaller_mode than the target every value survives a round trip.", "quantifier": "all pairs of integer modes, all values", "why_tests_cant": "exponential value space times all mode pairs", "anchors": ["ir/tv/tv.c:tarval_convert_to", "ir/ir/irmode.c:smaller_mode", "ir/ir/irmode.c:values_in_mode"]}
{"id": "C18", "title": "Reading a tarval into a machine integer", "statement": "get_tarval_long(new_tarval_from_long(l,m)) is l whenever l is representable in m; if tarval_is_long holds, get_tarval_long reconverted gives the same tarval; get_tarval_sub_bits, popcount, lowest/highest bit and magnitude describe the value's n-bit pattern.", "quantifier": "all longs, all integer modes", "why_tests_cant": "2^64 values times every mode width", "anchors": ["ir/tv/tv.c:new_tarval_from_long", "ir/tv/tv.c:get_tarval_long", "ir/tv/tv.c:tarval_is_long", "ir/tv/tv.c:get_tarval_sub_bits", "ir/tv/tv.c:get_tarval_popcount", "ir/tv/tv.c:get_tarval_magnitude"]}
{"id": "C19", "title": "The hashed set behaves as a mathematical set under every history", "statement": "After any sequence of set_insert/set_find/set_entry calls with an equality that is an equivalence compatible with the hash, set_find returns an element exactly when an equal one was inserted, each element is stored once and keeps its identity, and set_count is the number of distinct elements, including across incremental table growth.", "quantifier": "all histories of operations, all hash functions, all table sizes", "why_tests_cant": "growth splits one segment at a time; bugs need particular histories of particular length", "anchors": ["ir/adt/set.c:_set_search", "ir/adt/set.c:loop over expand_table", "ir/adt/set.c:set_first"]}
{"id": "C20", "title": "The open-addressing hash set behaves as a mathematical set under every history", "statement": "After any sequence of insert, remove and contains, contains(x) is true exactly if x was inserted and not removed since, size is the number of elements, iteration visits each element once, and probing always terminates, across growth, shrinking and reuse of deleted slots.", "quantifier": "all histories of operations and all hash functions compatible with key equality", "why_tests_cant": "tombstone, resize and wrap-around interplay depends on unbounded histories", "anchors": ["ir/adt/hashset.c.h:insert", "ir/adt/hashset.c.h:hashset_remove", "ir/adt/hashset.c.h:hashset_find", "ir/adt/hashset.c.h:resize", "ir/adt/pset_new.c"]}
{"id": "C21", "title": "The double-ended queue is a deque under every history", "statement": "Any sequence of pushes and pops on either end behaves like the same operations on a plain list, including when storage blocks are added and released at both ends.", "quantifier": "all operation histories, all element sizes smaller than a block", "why_tests_cant": "block boundary behaviour depends on unbounded histories", "anchors": ["ir/adt/deq.c", "ir/adt/deq.h"]}
{"id": "C22", "title": "The priority queue always delivers a maximum and loses nothing", "statement": "After any sequence of pqueue_put and pqueue_pop_front the queue holds exactly the inserted, not yet delivered elements, and each pop delivers one of maximal priority.", "quantifier": "all operation histories, all priorities", "why_tests_cant": "heap order violations need particular histories", "anchors": ["ir/adt/pqueue.c:pqueue_put", "ir/adt/pqueue.c:pqueue_pop_front"]}
{"id": "C23", "title": "Union-find maintains exactly the generated equivalence", "statement": "After any sequence of uf_union calls on an initialised array, uf_find(i) == uf_find(j) exactly when i and j are connected by the unions made, uf_find terminates and path compression never changes the partition.", "quantifier": "all array sizes and all sequences of union and find", "why_tests_cant": "unbounded histories; path compression rewrites state on reads", "anchors": ["include/libfirm/adt/unionfind.h:uf_init", "include/libfirm/adt/unionfind.h:uf_union", "include/libfirm/adt/unionfind.h:uf_find"]}
{"id": "C24", "title": "Bit twiddling helpers compute what they say", "statement": "popcount, nlz, ntz, floor_po2, ceil_po2, is_po2, log2_floor, log2_ceil and round_up2 agree with their arithmetic definitions for every 32-bit argument in their documented domain.", "quantifier": "all 32-bit arguments (pairs for two-operand helpers)", "why_tests_cant": "pairs of 32-bit arguments cannot be enumerated; single ones only with much time", "anchors": ["ir/adt/bitfiddle.h"]}
{"id": "C25", "title": "Replacing multiplication by shifts and adds preserves the product", "statement": "The shift/add/sub tree built for x * constant evaluates, in the mode's modular arithmetic, to x times the constant for every x, and building it terminates.", "quantifier": "all constants, all x, all mode widths, all cost parameters of the target", "why_tests_cant": "2^n constants times 2^n values times target parameters", "anchors": ["ir/ir/irarch.c:decompose_mul", "ir/ir/irarch.c:basic_decompose_mul", "ir/ir/irarch.c:value_to_condensed", "ir/ir/irarch.c:build_graph"]}
{"id": "C26", "title": "Signed division by a constant via multiply-high is exact", "statement": "For every constant divisor d the magic number and shift computed give, through multiply-high, shift and sign fix-up, exactly x/d truncated toward zero for every x of the mode.", "quantifier": "all divisors d with |d| >= 2, all dividends, all bit widths >= 3", "why_tests_cant": "2^64 pairs at 32 bit, 2^128 at 64 bit", "anchors": ["ir/ir/irarch.c:magic", "ir/ir/irarch.c:replace_div_by_mulh"]}
{"id": "C27", "title": "Unsigned division by a constant via multiply-high is exact", "statement": "For every constant divisor d the multiplier, shifts and optional increment computed give exactly floor(x/d) for every x of the mode.", "quantifier": "all divisors, all dividends, all bit widths", "why_tests_cant": "2^64 pairs at 32 bit, 2^128 at 64 bit", "anchors": ["ir/ir/irarch.c:compute_unsigned_magic_info", "ir/ir/irarch.c:replace_div_by_mulh"]}
{"id": "C28", "title": "Division and remainder by powers of two via shifts are exact", "statement": "The shift/add/and sequences replacing x / 2^k, x / -2^k, x % 2^k and x % -2^k compute the truncated quotient and remainder for every x of the mode.", "quantifier": "all k, all x, all mode widths, signed and unsigned", "why_tests_cant": "exponential operand space for every width", "anchors": ["ir/ir/irarch.c:arch_dep_replace_div_by_const", "ir/ir/irarch.c:arch_dep_replace_mod_by_const"]}
{"id": "C29", "title": "Known-bits analysis is sound for every operator", "statement": "If the operands' concrete values lie within the (may-be-one, must-be-one) masks given to the analysis, the concrete result of Add, Sub, Minus, Mul, And, Or, Eor, Not, Shl, Shr, Shrs, Conv, Mux, Cmp, Phi and Confirm lies within the masks it derives for the node.", "quantifier": "all mask pairs and all concrete operand values, all modes", "why_tests_cant": "exponentially many masks times exponentially many values", "anchors": ["ir/ana/constbits.c:transfer"]}
{"id": "C30", "title": "Float addition and subtraction are correctly rounded", "statement": "tarval_add/sub on IEEE-754 modes return the nearest-even rounding of the exact real sum or difference with IEEE rules for signed zeros, infinities and NaNs.", "quantifier": "all pairs of values of every float mode (any exponent and mantissa width within limits)", "why_tests_cant": "2^128 pairs for double alone", "anchors": ["ir/tv/fltcalc.c:_fadd", "ir/tv/fltcalc.c:fc_add", "ir/tv/fltcalc.c:fc_sub", "ir/tv/fltcalc.c:normalize"]}
{"id": "C31", "title": "Float multiplication and division are correctly rounded", "statement": "tarval_mul/div on IEEE-754 modes return the nearest-even rounding of the exact real product or quotient with IEEE rules for special values.", "quantifier": "all pairs of values of every float mode", "why_tests_cant": "2^128 pairs for double alone", "anchors": ["ir/tv/fltcalc.c:fc_mul", "ir/tv/fltcalc.c:fc_div", "ir/tv/fltcalc.c:normalize"]}
{"id": "C32", "title": "Float values survive encoding to bytes and back", "statement": "Writing a float tarval to its bytes and reading it back gives the same class, sign, exponent and mantissa, and the bytes are the IEEE-754 interchange encoding of the value.", "quantifier": "all values of every float mode", "why_tests_cant": "2^64 doubles, 2^128 quads", "anchors": ["ir/tv/fltcalc.c:pack", "ir/tv/fltcalc.c:fc_val_from_bytes", "ir/tv/fltcalc.c:fc_val_to_bytes"]}
{"id": "C33", "title": "Float comparison is the IEEE order", "statement": "tarval_cmp on float tarvals reports unordered if either is NaN, equal for zeros of either sign, and otherwise the order of the real values with infinities at the ends.", "quantifier": "all pairs of values of a float mode", "why_tests_cant": "2^128 pairs for double", "anchors": ["ir/tv/fltcalc.c:fc_comp", "ir/tv/tv.c:tarval_cmp"]}
{"id": "C34", "title": "Converting between float modes rounds correctly and losslessness is decided exactly", "statement": "tarval_convert_to between float modes gives the nearest-even rounding in the target; fc_can_lossless_conv_to answers true only if the converted value denotes the same real number.", "quantifier": "all values, all pairs of float modes", "why_tests_cant": "exponential value space times mode pairs", "anchors": ["ir/tv/fltcalc.c:fc_cast", "ir/tv/fltcalc.c:fc_can_lossless_conv_to"]}
{"id": "C35", "title": "Float to integer truncation is exact", "statement": "Converting a float tarval to an integer mode yields the truncation toward zero whenever that fits the target; otherwise the mode's documented overflow behaviour.", "quantifier": "all float values, all integer modes", "why_tests_cant": "exponential value space", "anchors": ["ir/tv/fltcalc.c:fc_flt2int", "ir/tv/fltcalc.c:fc_int", "ir/tv/tv.c:tarval_convert_to"]}
{"id": "C36", "title": "Lowering a parallel register permutation preserves every value", "statement": "The sequence of copies and exchanges emitted for a Perm leaves in each output register the value its input register held before, and no other live register is disturbed.", "quantifier": "all permutations/partial maps over any number of registers, with or without a free register", "why_tests_cant": "factorially many permutations of unbounded size", "anchors": ["ir/be/belower.c:lower_perm_node"]}
{"id": "C37", "title": "Comparison relation algebra is consistent", "statement": "Negating, inverting (swapping operands) and combining relations commute with their meaning: the negated relation holds exactly when the original does not, the inversed relation holds of swapped operands, for ordered and unordered operands.", "quantifier": "all relations, all (ordered or unordered) operand outcomes", "why_tests_cant": "used by unboundedly many rewrites; meaning ranges over all values", "anchors": ["ir/ir/irnode.c:get_negated_relation", "ir/ir/irnode.c:get_inversed_relation"]}
{"id": "C38", "title": "Flexible arrays keep their elements through every resize", "statement": "For a flexible array, ARR_RESIZE, ARR_SETLEN, ARR_APP1, ARR_EXTO and ARR_SHRINKLEN give the requested length, keep every element below the smaller of both lengths, never let the allocated size fall below the number of elements in use, and write only inside the allocation.", "quantifier": "all arrays, all lengths, all element contents", "why_tests_cant": "whether the allocation grows depends on the whole history of lengths, and an overrun by one element rarely shows", "anchors": ["ir/adt/array.c:ir_arr_resize", "ir/adt/array.c:ir_arr_setlen", "include/libfirm/adt/array.h:ARR_APP1", "include/libfirm/adt/array.h:ARR_EXTO"]}
{"id": "C39", "title": "A fixed point of the known-bits analysis is true of every execution", "statement": "If the transfer function changes no node's information (what verify_constbits checks), then in every execution of the graph no entered block is marked unreachable, no node marked undefined has a value, and every integer or boolean value computed has ones only where allowed and everywhere demanded by its information; in particular nodes claimed constant are.", "quantifier": "all well-formed graphs with loops, all fixed points, all executions of any length", "why_tests_cant": "executions are unbounded and graphs arbitrary", "anchors": ["ir/ana/constbits.c:transfer", "ir/ana/constbits.c:verify_constbits", "ir/ana/constbits.c:constbits_analyze"]}
{"id": "C40", "title": "Folding a comparison gives the answer its operands give", "statement": "The relations ir_get_possible_cmp_relations returns always include the outcome of comparing the two values, whatever constants, bit information, value ranges, And operands, allocations and Confirms it was derived from; hence computed_value_Cmp answers true or false only if every execution gives that answer.", "quantifier": "all integer and pointer modes, all operands with true descriptions, all relations", "why_tests_cant": "the sources of information combine in unboundedly many ways and ranges over all values", "anchors": ["ir/opt/iropt.c:ir_get_possible_cmp_relations", "ir/opt/iropt.c:computed_value_Cmp", "ir/opt/iropt.c:is_relation", "ir/opt/iropt.c:get_complementary_relations"]}
{"id": "C41", "title": "Conclusions drawn from Confirm nodes are true", "statement": "When computed_value_Cmp_Confirm decides a comparison from the bounds and relations of Confirm nodes, every assignment of values for which the Confirms hold gives that answer; value_not_null says true only of values that are not zero.", "quantifier": "all modes, all bounds known or not, all relations, all chains of Confirms", "why_tests_cant": "needs all orders of up to four values and all relation pairs; the wrong case needs a Confirm bounded by another Confirm", "anchors": ["ir/opt/opt_confirms.c:computed_value_Cmp_Confirm", "ir/opt/opt_confirms.c:compare_iv", "ir/opt/opt_confirms.c:get_interval", "ir/opt/iropt.c:value_not_null"]}
{"id": "C42", "title": "Value range propagation is true of every execution and always ends", "statement": "On a well-formed graph the analysis of vrp.c terminates without failing its assertion, whatever the order of nodes; every value a node can have has the bits claimed set, none of the bits claimed unset, and lies inside the claimed range (outside the claimed antirange); hence a relation answered by vrp_cmp holds and a constant taken from it is the value.", "quantifier": "all graphs with loops, all walk orders, all executions", "why_tests_cant": "the information is merged along cycles any number of times and the values range over whole modes", "anchors": ["ir/ana/vrp.c:vrp_update_node", "ir/ana/vrp.c:set_vrp_data", "ir/ana/vrp.c:vrp_cmp", "ir/opt/iropt.c:computed_value"]}
{"id": "C43", "title": "Constant folding gives the value of the node", "statement": "When computed_value returns a constant for a data node, that constant is the value the node has in every execution in which it is computed, given that the analyses it consults (value_of, bit information, value ranges) are right; it never fails an assertion.", "quantifier": "all graphs of integer, reference and boolean nodes, all values, all results of the analyses", "why_tests_cant": "the rules combine facts about several nodes (complements, negations, Confirms, shift modulos) over whole modes; the wrong cases need particular modes or Confirm chains", "anchors": ["ir/opt/iropt.c:computed_value", "ir/opt/iropt.c:complement_values", "ir/opt/iropt.c:is_oversize_shift", "ir/opt/iropt.c:ir_zero_when_converted", "ir/opt/iropt.c:computed_value_Shr"]}
{"id": "C44", "title": "The equivalent node of a node has its value", "statement": "The node that equivalent_node returns for a data node is a node of the same mode that has the same value in every execution in which the given node is computed, given that the analyses consulted are right; no assertion fails and the loops over Id and Confirm chains end.", "quantifier": "all graphs of integer, reference and boolean nodes (without Phi), all values, all results of the analyses", "why_tests_cant": "each rule is an algebraic identity over whole modes with side conditions on known bits and modes; the wrong cases need modes of unusual size or shift modulo", "anchors": ["ir/opt/iropt.c:equivalent_node", "ir/opt/iropt.c:equivalent_node_Conv", "ir/opt/iropt.c:equivalent_node_Sub", "ir/opt/iropt.c:equivalent_node_Mux", "ir/opt/iropt.c:equivalent_node_Eor", "ir/ir/irmode.c:values_in_mode"]}
{"id": "C45", "title": "Rewrites of bit operations keep the value", "statement": "What transform_node puts in the place of an And, Or, Eor or Not (De Morgan and distributive laws, absorption, chains of constants, combined comparisons, masks of negated or shifted values, operations moved into Phis and Muxes of constants, Or and Eor as Add) is well-typed, has the mode of the node and, in every execution in which the node is computed, its value, given that the analyses consulted are right; no assertion fails and the walk over chains ends.", "quantifier": "all graphs of integer, reference and boolean nodes, all modes, all values, all results of the analyses, all graph constraints and node orders", "why_tests_cant": "each rule is an identity over whole modes with side conditions on known bits, constants, users and modes; wrong cases need a rare combination of them", "anchors": ["ir/opt/iropt.c:transform_node_And", "ir/opt/iropt.c:transform_node_Or_", "ir/opt/iropt.c:transform_node_Eor_", "ir/opt/iropt.c:transform_node_Not", "ir/opt/iropt.c:transform_bitop_chain", "ir/opt/iropt.c:transform_bitwise_distributive", "ir/opt/iropt.c:transform_node_bitop_shift"]}
{"id": "C46", "title": "Rewrites of Add, Sub, Minus and Mul keep the value", "statement": "What transform_node puts in the place of an Add, Sub, Minus or Mul (common factors, cancelled and reassociated terms, negations moved inwards, differences of references, sums without carries as bit operations, products with powers of two, signs and single bits, quotients times their divisor, operations moved into Phis and Muxes of constants) is well-typed, has the mode of the node and, in every execution in which the node is computed, its value, given that the analyses consulted are right; no assertion fails.", "quantifier": "all graphs of integer, reference and boolean nodes, all modes, all values, all results of the analyses, all graph constraints and node orders", "why_tests_cant": "each rule is an identity of modular arithmetic with side conditions on references, known bits, shift modulos and widths; wrong cases need a rare combination of them", "anchors": ["ir/opt/iropt.c:transform_node_Add", "ir/opt/iropt.c:transform_node_Sub", "ir/opt/iropt.c:transform_node_Minus", "ir/opt/iropt.c:transform_node_Mul", "ir/opt/iropt.c:can_negate_cheaply", "ir/opt/iropt.c:transform_node_shl_shr"]}
{"id": "C47", "title": "Bit sets behave as sets of positions", "statement": "The bit sets of raw_bitset.h and bitset.h, arrays of 32 bit elements whose last element is used in part, behave as sets of the positions below their size: insertion, removal, complement, the operations on two sets, the tests, the count, the searches for the next and previous position, the loops over members, and the changes of ranges give the set, number or order their names say, keep the unused bits 0 and access no element outside of the array.", "quantifier": "all sizes, all sets, all positions and ranges, both implementations of the bit counting helpers", "why_tests_cant": "the errors are at element borders: sizes and bounds that are multiples of 32, an element with only its highest bit set, searches that find nothing", "anchors": ["ir/adt/raw_bitset.h:rbitset_set_range", "ir/adt/raw_bitset.h:rbitset_next_max", "ir/adt/raw_bitset.h:rbitset_prev", "ir/adt/raw_bitset.h:rbitset_minus1", "ir/adt/raw_bitset.h:rbitset_flip_all", "ir/adt/bitset.h:bitset_mod_range", "ir/adt/bitset.h:bitset_foreach_rev"]}
{"id": "C48", "title": "Lowered Switches jump where the Switch would", "statement": "The code that lower_switch makes of a Switch - a binary search of comparisons, or a bounds check before a Switch with cases shifted to start at 0 - jumps, for every selector, to the case that contains it and to the default where none does; every target block gets exactly the predecessors it was given room for.", "quantifier": "all integer modes of the selector and selector modes of the backend, all tables of disjoint cases and ranges in any order, all thresholds, all selector values, any sorting algorithm", "why_tests_cant": "errors need selectors at the borders of a mode, tables with negative or wrapping bounds, or more cases of one target than 16 bits count", "anchors": ["ir/lower/lower_switch.c:analyse_switch0", "ir/lower/lower_switch.c:compare_entries", "ir/lower/lower_switch.c:normalize_table", "ir/lower/lower_switch.c:create_out_of_bounds_check", "ir/lower/lower_switch.c:normalize_switch", "ir/lower/lower_switch.c:create_case_cond", "ir/lower/lower_switch.c:connect_to_target", "ir/lower/lower_switch.c:create_if_cascade", "ir/lower/lower_switch.c:find_switch_nodes"]}
{"id": "C49", "title": "Layouts of types and frames keep members aligned, inside and apart", "statement": "The default layout of a compound type places each member at the first aligned offset after the one before it (at 0 in a union), gives the type the greatest alignment of its members and rounds the size up to it, so that members of a type or array element at an aligned address are aligned, inside and disjoint. The layout of a frame keeps given offsets and puts all other members below its begin, aligned with respect to the misaligned stack pointer and disjoint. The simulation of the stack pointer keeps its depth equal to what the nodes ask for plus the least padding that aligns it, and removes the padding when no alignment is asked for.", "quantifier": "all lists of members and slots, all power of two alignments, all begins and misalignments, all sequences of changes of the stack pointer", "why_tests_cant": "errors show as overlapping variables only for particular orders of sizes and alignments, or misaligned vector accesses with particular misalignments", "anchors": ["ir/tr/type.c:default_layout_compound_type", "ir/tr/type.c:new_type_array", "ir/be/bestack.c:round_up2_misaligned", "ir/be/bestack.c:be_layout_frame_type", "ir/be/bestack.c:sim_be_IncSP", "ir/be/bestack.c:process_stack_bias", "ir/be/ia32/ia32_bearch.c:ia32_sp_sim", "ir/be/amd64/amd64_bearch.c:amd64_sp_sim"]}
{"id": "C50", "title": "The PBQP solver finds a cheapest choice and reports its cost", "statement": "For a partitioned boolean quadratic problem of bounded weight (the sum of the largest finite entries of its vectors and matrices times the number of nodes plus two stays below 2^32-1) whatever order of edge simplifications and removals of nodes of degree one and two is taken: no assertion fails and no sum overflows, and once no edge is left the solver reports an alternative for every node whose cost, computed from the vectors and matrices given, is the cost it returns and no choice is cheaper; it returns the infinite cost just when every choice is forbidden. If nodes are also taken out by the heuristic with alternatives of finite cost, a finite cost returned is still the cost of the choice reported.", "quantifier": "all problems with any number of nodes, alternatives, cost vectors and matrices (also added repeatedly, transposed, self loops), all orders of reductions", "why_tests_cant": "optimality is a statement about exponentially many choices, and the order of the reductions depends on the degree buckets", "anchors": ["ir/kaps/vector.c:pbqp_add", "ir/kaps/kaps.c:add_edge_costs", "ir/kaps/optimal.c:simplify_edge", "ir/kaps/optimal.c:apply_RI", "ir/kaps/optimal.c:apply_RII", "ir/kaps/optimal.c:select_alternative", "ir/kaps/optimal.c:determine_solution", "ir/kaps/optimal.c:back_propagate", "ir/kaps/optimal.c:get_local_minimal_alternative"]}
{"id": "C51", "title": "Dominator and post dominator trees and dominance frontiers are those of the control flow graph", "statement": "compute_doms and compute_postdoms end without failing assertion or null pointer. Afterwards, for blocks reachable from the start, block_dominates(a, b) holds just when every path of control flow (and keep-alive edges) from the start to b meets a; the immediate dominator of b is the strict dominator of b that all its strict dominators dominate, and null for the start; the depth is the number of dominators, and -1 for blocks that cannot be reached; ir_deepest_common_dominator returns the common dominator all common dominators dominate; the dominance frontier of b holds the blocks y with a predecessor b dominates which b does not strictly dominate, except the start block for itself. The post dominator tree is the same for all blocks against the control flow, with an edge to the end from kept blocks that cannot reach it.", "quantifier": "all control flow graphs of up to 2^32 blocks: irreducible, with endless loops, dead blocks, Bad predecessors and keep-alives, any order of the edges", "why_tests_cant": "Lengauer and Tarjan's algorithm with path compression goes wrong only on particular orders of edges in irreducible graphs, and dominance is a statement about all paths", "anchors": ["ir/ana/irdom.c:compute_doms", "ir/ana/irdom.c:compute_postdoms", "ir/ana/irdom.c:init_tmp_dom_info", "ir/ana/irdom.c:init_tmp_pdom_info", "ir/ana/irdom.c:dom_compress", "ir/ana/irdom.c:dom_eval", "ir/ana/irdom.c:assign_tree_dom_pre_order_max", "ir/ana/irdom.c:block_dominates", "ir/ana/irdom.c:ir_deepest_common_dominator", "ir/ana/domfront.c:compute_df", "ir/ana/domfront.c:ir_compute_dominance_frontiers"]}
{"id": "C52", "title": "Rewrites of shifts and conversions keep the value", "statement": "What transform_node puts in the place of a Shl, Shr, Shrs or Conv of integers or references (shift of a shift, amounts reduced by the shift modulo, masks of amounts left out, left and right shift by constants into a mask, shift of a bit operation with a constant, shift with sign of a number without, Conv of a Conv, of a Phi or a Mux of constants) passes the verifier's rules on modes, has the mode of the node and in every execution its value; no assertion fails.", "quantifier": "all graphs, nodes, modes, constants, values, bit information that is right, executions", "why_tests_cant": "the rules meet only for particular combinations of amounts, sizes, shift moduli and count modes, and wrong results show only for some values", "anchors": ["ir/opt/iropt.c:transform_node_Shl", "ir/opt/iropt.c:transform_node_Shr", "ir/opt/iropt.c:transform_node_Shrs", "ir/opt/iropt.c:transform_node_Conv", "ir/opt/iropt.c:transform_node_shift", "ir/opt/iropt.c:transform_node_shift_modulo", "ir/opt/iropt.c:transform_node_shift_and", "ir/opt/iropt.c:transform_node_shift_bitop", "ir/opt/iropt.c:transform_node_shl_shr", "ir/opt/iropt.c:may_leave_out_middle_conv"]}
{"id": "C53", "title": "Double word operations are lowered to words with the same value", "statement": "When lower_dw.c lowers a graph, with its own functions or those of the arm, sparc and ia32 backends, the two words made for a node are in every execution the low and high word of its value, a node put in the place of a node of word size has its value, new nodes pass the verifier's rules on modes, no double word stays an input of a modelled operation; a Cond goes where it went; the two Loads and Stores read and write in either byte order what the one did; no assertion fails.", "quantifier": "all graphs, targets, word sizes of whole bytes, modes, values, executions, byte orders, memories, addresses", "why_tests_cant": "carries, borrows and shifts across the words go wrong only for particular values and amounts, and every target has its own functions", "anchors": ["ir/lower/lower_dw.c:lower_Add", "ir/lower/lower_dw.c:lower_Sub", "ir/lower/lower_dw.c:lower_Shl_helper", "ir/lower/lower_dw.c:lower_shr_helper", "ir/lower/lower_dw.c:lower_Cmp", "ir/lower/lower_dw.c:lower_Cond", "ir/lower/lower_dw.c:lower_Conv_to_Ll", "ir/lower/lower_dw.c:lower_Conv_from_Ll", "ir/lower/lower_dw.c:lower_Load", "ir/lower/lower_dw.c:lower_Store", "ir/be/arm/arm_lower64.c", "ir/be/sparc/sparc_lower64.c", "ir/be/ia32/ia32_intrinsics.c"]}
{"id": "C54", "title": "Rewriting comparisons keeps their truth value", "statement": "Each round of transform_node_Cmp puts in the place of a comparison of integers or references a node that the verifier accepts, has mode b and in every execution the truth value of the comparison; no assertion fails.", "quantifier": "all graphs, modes, relations, values, executions, what constant folding, bit analysis and value ranges know", "why_tests_cant": "some 25 rules, each for particular constants, relations that the analyses make equivalent to others, and bounds of modes", "anchors": ["ir/opt/iropt.c:transform_node_Cmp", "ir/opt/iropt.c:is_single_bit", "ir/opt/iropt.c:flips_bit"]}
{"id": "C55", "title": "Rewriting Mux keeps its value, and the Muxes that go away are said to", "statement": "transform_node_Mux puts in the place of a Mux of integers, references or booleans a node that the verifier accepts, has the mode of the Mux and in every execution its value; no assertion fails. Whenever it puts something other than a Mux there, ir_is_optimizable_mux says true.", "quantifier": "all graphs, modes, relations, values, executions, what constant folding, bit analysis and value ranges know", "why_tests_cant": "the rules depend on relations that the analyses make equivalent to others, on the sizes and signs of two modes and on differences that overflow for single values; the predicate repeats the rules in other code", "anchors": ["ir/opt/iropt.c:transform_node_Mux", "ir/opt/iropt.c:transform_Mux_set", "ir/opt/iropt.c:ir_mux_is_abs", "ir/opt/iropt.c:ir_is_optimizable_mux"]}
{"id": "C56", "title": "Rewriting divisions and Confirms keeps the value, and control flow is only decided when it is known", "statement": "What transform_node_Div, transform_node_Mod, the rewrite of the result of a Mod, the rewrite of a Confirm and the replacement of a node of known bits put in the place of a node is accepted by the verifier, has the mode of the node and in every execution its value. If the exception of a division is removed its divisor is not zero in any execution. A Cond or Switch is replaced by a jump only along the way it takes in every execution. No assertion fails.", "quantifier": "all graphs, modes, values, executions, tables of a Switch, what constant folding, bit analysis and value ranges know", "why_tests_cant": "the rules combine Phis of constants, Confirms and known bits, and are wrong at most for single values, such as the smallest number divided by -1 or the operand 0", "anchors": ["ir/opt/iropt.c:transform_node_Div", "ir/opt/iropt.c:transform_node_Mod", "ir/opt/iropt.c:transform_node_Proj_Mod", "ir/opt/iropt.c:transform_node_Confirm", "ir/opt/iropt.c:transform_node_Cond", "ir/opt/iropt.c:transform_node_Switch", "ir/opt/iropt.c:transform_node", "ir/tv/tv.c:tarval_in_range"]}
{"id": "C57", "title": "Accesses said not to alias touch no common byte", "statement": "get_alias_relation answers for any two accesses, and if it answers ir_no_alias there is no execution in which each access lies in the object its address was computed from and in the members it was selected as, accesses are typed as the options promise, and both accesses touch the same byte.", "quantifier": "all programs, addresses (sums, Sel, Member, Address, constants, results of malloc, any other node), types, entities, options but aa_opt_no_alias, all executions", "why_tests_cant": "a wrong answer only shows when an optimization moves a load over a store to the same byte, and depends on where objects are, on values of indices and on wrap around of offsets", "anchors": ["ir/ana/irmemory.c:_get_alias_relation", "ir/ana/irmemory.c:get_address_info", "ir/ana/irmemory.c:find_base_addr", "ir/ana/irmemory.c:classify_pointer", "ir/ana/irmemory.c:different_types", "ir/ana/irmemory.c:type_contains", "ir/ana/irmemory.c:is_malloc_Result"]}
{"id": "C58", "title": "Combining comparisons keeps the truth value and the ways taken", "statement": "What opt_bool puts in the place of an And or Or of two comparisons is verified and has the truth value of the node in every execution; the new selector of a Cond fused with the one above it sends it to the common block exactly if one of the two went there; no assertion fails.", "quantifier": "all graphs, integer and reference modes, relations, constants, executions", "why_tests_cant": "wrong combinations differ from right ones for single values next to the constants, at the ends of the range, or for values without a common bit", "anchors": ["ir/opt/boolopt.c:find_cond_pair", "ir/opt/boolopt.c:bool_and", "ir/opt/boolopt.c:bool_or", "ir/opt/boolopt.c:bool_walk", "ir/opt/boolopt.c:normalize_cmp", "ir/opt/boolopt.c:find_cf_and_or_walker"]}
{"id": "C59", "title": "Bits that are not cared for do not matter", "statement": "The don't care analysis ends and its assertions hold; if nodes are exchanged for constants that have the bits cared for, every run of the graph is matched by a run of the changed graph in which every node has the same cared for bits; the exchange done by occult_consts keeps the values of all roots.", "quantifier": "all graphs with cycles through Phis, modes, bit information, runs, orders of computation", "why_tests_cant": "a bit wrongly not cared for changes a result only if the node is exchanged for a constant and the value at run time differs in that bit, after carries and shifts", "anchors": ["ir/ana/dca.c:care_for", "ir/ana/dca.c:dca_transfer", "ir/ana/dca.c:dca_analyze", "ir/ana/dca.c:create_msb_mask", "ir/opt/occult_const.c:occult_const_opt_walker", "ir/opt/occult_const.c:occult_consts"]}
{"id": "C60", "title": "RISC-V instructions compute what the graph says", "statement": "In every run of a graph side by side with the instructions selected for it, the register of every node holds the value of the node (extended to 32 bits for comparisons and loads); all immediates can be encoded; selection gives instructions or refuses; branches lead where the comparison says whichever block is next; loads and stores access the same bytes through folded, frame relative and split offsets; stack and frame address legalizations and the shift peephole keep values.", "quantifier": "all graphs with loops, modes of 8, 16 and 32 bits, values, contents of the unused high bits of registers, entity addresses, memories, frame offsets and next blocks", "why_tests_cant": "the unused high bits of a register, the carry from %lo into %hi, the limits of 12 bit immediates and shift amounts that add up past 31 each matter for few values", "anchors": ["ir/be/riscv/riscv_transform.c:gen_shift_op", "ir/be/riscv/riscv_transform.c:make_extension", "ir/be/riscv/riscv_transform.c:gen_Cond", "ir/be/riscv/riscv_transform.c:make_addr", "ir/be/riscv/riscv_transform.c:gen_Store", "ir/be/riscv/riscv_bearch.c:calc_hi_lo", "ir/be/riscv/riscv_finish.c:finish_riscv_load_store_offsets", "ir/be/riscv/riscv_finish.c:peephole_riscv_shift", "ir/be/riscv/riscv_emitter.c:emit_riscv_bcc", "ir/be/betranshlp.c:be_skip_downconv"]}
{"id": "C61", "title": "Moving conversions up keeps values and ends", "statement": "What the optimization of conversions exchanges a Conv for has the value of the Conv whenever it has one, also through new Phis; it has the mode of the Conv and consists of nodes the verifier accepts; the recursion through single uses ends even on cycles closed by Phis.", "quantifier": "all graphs with cycles through Phis, integer and reference modes, shift modulos, executions in the course of time, numbers of uses", "why_tests_cant": "an operation moved into a smaller mode differs only for values that lose bits, shifts only for amounts between the sizes, and the recursion runs away only on a cycle in which every node has one use", "anchors": ["ir/opt/convopt.c:conv_transform", "ir/opt/convopt.c:get_conv_costs", "ir/opt/convopt.c:is_optimizable_node", "ir/opt/convopt.c:is_downconv", "ir/opt/convopt.c:conv_opt_walker"]}
{"id": "C62", "title": "Lowering boolean values to numbers keeps them", "statement": "Every boolean input of a node that is not boolean, except a Cmp that is selected by, is set to a node with the same value (1 for true, 0 for false) at all times of every execution, also through cycles of Phis and when cached results are dropped because a block was split; inputs that must stay boolean are set to Cmps, all others to numbers; the recursion ends.", "quantifier": "all graphs with cycles through Phis, executions in the course of time, ways of splitting blocks, lowered modes", "why_tests_cant": "a wrong input of a lowered Phi shows only on the iteration that enters through it, and the recursion meets a dropped cache entry only for particular orders of Cmps and Phis in one block", "anchors": ["ir/lower/lower_mode_b.c:lower_node", "ir/lower/lower_mode_b.c:create_cond_set", "ir/lower/lower_mode_b.c:create_not", "ir/lower/lower_mode_b.c:convert_to_modeb", "ir/lower/lower_mode_b.c:collect_needs_lowering", "ir/lower/lower_mode_b.c:ir_lower_mode_b"]}
{"id": "C63", "title": "Lowered block copies copy the block", "statement": "The Loads and Stores, or the call of memcpy, put in place of a CopyB copy exactly its bytes, each once, and change nothing else; without misaligned accesses every access is aligned to its size; the loops end, and the lowering panics only for small blocks of types aligned to more than 8 bytes.", "quantifier": "all sizes, alignments, addresses (also wrapping around), memory contents, byte orders, thresholds, pointer sizes", "why_tests_cant": "the tail of a block is wrong only for particular remainders of size by alignment, and a byte too many shows only if something is next to the block", "anchors": ["ir/lower/lower_copyb.c:lower_small_copyb_node", "ir/lower/lower_copyb.c:lower_large_copyb_node", "ir/lower/lower_copyb.c:lower_copyb_node", "ir/lower/lower_copyb.c:find_copyb_nodes", "ir/lower/lower_copyb.c:lower_CopyB", "ir/lower/lower_copyb.c:get_ir_mode"]}
{"id": "C64", "title": "Builtins lowered to run time functions keep their value", "statement": "A Builtin the backend does not support is replaced by a call of the function of libgcc that the target has, that takes an argument of the size passed, and that gives the value of the Builtin; exceptions are left alone, prefetch vanishes, may_alias becomes zero exactly if the addresses do not alias; it is known exactly which builtins can be lowered.", "quantifier": "all kinds, operand modes and values, pointer sizes, lists of exceptions and graphs", "why_tests_cant": "the value is wrong only for operands narrower than a pointer, and for popcount only for negative ones", "anchors": ["ir/lower/lower_builtins.c:get_builtin_name", "ir/lower/lower_builtins.c:get_gcc_machmode", "ir/lower/lower_builtins.c:widen_builtin", "ir/lower/lower_builtins.c:replace_with_call", "ir/lower/lower_builtins.c:replace_may_alias", "ir/lower/lower_builtins.c:lower_builtin", "ir/lower/lower_builtins.c:lower_builtins"]}
{"id": "C65", "title": "The textual form of the IR is read back", "statement": "What the exporter writes of strings, numbers, enumerators, lists, references to types, initializers, types and entities is read back by the importer as what was written, whatever blanks precede it and whatever follows; reading an initializer, a type or an entity from any text ends.", "quantifier": "all strings of bytes, all numbers of their types, all enumerators, initializers of any depth, all types and entities and lists of them, all texts", "why_tests_cant": "strings, numbers and nested initializers are unbounded; the sizes that are cut off have more than 32 bits", "anchors": ["ir/ir/irio.c:write_string", "ir/ir/irio.c:read_string", "ir/ir/irio.c:read_string_null", "ir/ir/irio.c:read_word", "ir/ir/irio.c:read_long", "ir/ir/irio.c:read_size_t", "ir/ir/irio.c:read_enum", "ir/ir/irio.c:list_has_next", "ir/ir/irio.c:read_type_ref", "ir/ir/irio.c:write_initializer", "ir/ir/irio.c:read_initializer", "ir/ir/irio.c:write_entity", "ir/ir/irio.c:read_entity", "ir/ir/irio.c:read_typegraph", "ir/ir/irio.c:write_type_common", "ir/ir/irio.c:read_type"]}
{"id": "C66", "title": "Initialized data are written as the bytes of the object", "statement": "What the assembler makes of the directives written for an initialized object (numbers, expressions, strings, bit fields, gaps) is, byte for byte, the object in the memory of the target, little or big endian; a string is read back as it was.", "quantifier": "all types and initializers of any depth whose members do not overlap, all values, all strings of bytes, both byte orders", "why_tests_cant": "types and initializers nest without bound; the cases that go wrong (bit fields that look like text, nested differences, negative characters) are ones nobody thinks of writing", "anchors": ["ir/be/begnuas.c:initializer_is_string_const", "ir/be/begnuas.c:emit_tv", "ir/be/begnuas.c:emit_init_expression", "ir/be/begnuas.c:emit_string_char", "ir/be/begnuas.c:emit_string_initializer", "ir/be/begnuas.c:get_initializer_size", "ir/be/begnuas.c:emit_bitfield", "ir/be/begnuas.c:emit_ir_initializer", "ir/be/begnuas.c:emit_tarval_data", "ir/be/begnuas.c:emit_node_data", "ir/be/begnuas.c:emit_initializer"]}
{"id": "C67", "title": "ARM immediates, shifted operands, compares and offsets compute what the IR says", "statement": "The ARM backend splits every word into at most four immediates the processor has; constants, sums, differences, bit operations, shifts, rotations, extensions, compares with branches, and addresses built from them have the value of the IR node, and only instructions that exist are chosen.", "quantifier": "all 32 bit words, all registers, all constants and operand shapes, all relations, all offsets", "why_tests_cant": "2^32 constants for each of the operand positions, and pairs of registers for the compares; the wrong ones (offsets below -4095, compares with the most negative number) are rare", "anchors": ["ir/be/arm/arm_transform.c:arm_gen_vals_from_word", "ir/be/arm/arm_transform.c:create_const_graph_value", "ir/be/arm/arm_transform.c:try_encode_val_as_immediate", "ir/be/arm/arm_transform.c:try_encode_as_immediate", "ir/be/arm/arm_transform.c:gen_int_binop_ops", "ir/be/arm/arm_transform.c:gen_Ror", "ir/be/arm/arm_transform.c:match_pkh", "ir/be/arm/arm_transform.c:gen_Add", "ir/be/arm/arm_transform.c:gen_And", "ir/be/arm/arm_transform.c:make_shift", "ir/be/arm/arm_transform.c:gen_Not", "ir/be/arm/arm_transform.c:gen_extension", "ir/be/arm/arm_transform.c:gen_Cmp", "ir/be/arm/arm_emitter.c:emit_arm_Bcc", "ir/be/arm/arm_optimize.c:peephole_be_IncSP", "ir/be/arm/arm_optimize.c:peephole_arm_FrameAddr", "ir/be/arm/arm_optimize.c:peephole_arm_Str_Ldr", "ir/be/arm/arm_optimize.c:arm_is_valid_offset"]}
{"id": "C68", "title": "SPARC immediates, complemented operands, compares and frame offsets compute what the IR says", "statement": "The SPARC backend's choice of immediates, swapped and complemented operands, sethi constants, compares with their branches, and the splitting of stack and frame offsets that do not fit 13 bits give the value of the IR node or the address of the entity, and only instructions that exist are chosen.", "quantifier": "all trees of integer operations, all 32 bit constants and registers, all relations, all offsets", "why_tests_cant": "2^32 constants at each operand position of unbounded trees; frames larger than 4 KiB, where the offsets do not fit, are rare in tests", "anchors": ["ir/be/sparc/sparc_bearch_t.h:sparc_is_value_imm_encodeable", "ir/be/sparc/sparc_transform.c:create_int_const", "ir/be/sparc/sparc_transform.c:gen_helper_binop_args", "ir/be/sparc/sparc_transform.c:gen_helper_bitop", "ir/be/sparc/sparc_transform.c:gen_Add", "ir/be/sparc/sparc_transform.c:gen_Not", "ir/be/sparc/sparc_transform.c:gen_Cmp", "ir/be/sparc/sparc_emitter.c:get_icc_unsigned", "ir/be/sparc/sparc_emitter.c:get_icc_signed", "ir/be/sparc/sparc_emitter.c:sparc_emit_offset", "ir/be/sparc/sparc_emitter.c:emit_be_IncSP", "ir/be/sparc/sparc_emitter.c:emit_sparc_FrameAddr", "ir/be/sparc/sparc_finish.c:create_constant_from_immediate", "ir/be/sparc/sparc_finish.c:finish_sparc_Save", "ir/be/sparc/sparc_finish.c:finish_be_IncSP", "ir/be/sparc/sparc_finish.c:finish_sparc_FrameAddr", "ir/be/sparc/sparc_finish.c:finish_load_store", "ir/be/sparc/sparc_finish.c:finish_sparc_Ld"]}
{"id": "C69", "title": "Stack allocations are rounded up to the stack alignment", "statement": "The lowering of Alloc nodes replaces the size by the least multiple of the stack alignment that is not smaller, so the stack pointer stays aligned and the allocation has the alignment it asked for.", "quantifier": "all modes, all sizes, all stack alignments, all stack pointers", "why_tests_cant": "sizes are computed at run time and can be any number of the mode; alignments above that of the stack and sizes close to the greatest number are not tried", "anchors": ["ir/lower/lower_alloc.c:adjust_alloc_size", "ir/lower/lower_alloc.c:lower_node", "ir/lower/lower_alloc.c:lower_alloc"]}
{"id": "C70", "title": "x86 address modes have the value of the nodes they replace", "statement": "The address x86_create_address_mode builds from a node (immediate, base, index and scale, by its variant) has the value of that node modulo the width, whatever nodes must stay in registers and whatever the flags; an address relative to the instruction pointer has no registers, and no assertion fails.", "quantifier": "all nodes, all widths from 32 bits, all values of registers and entities, all sets of nodes kept in registers, all flags", "why_tests_cant": "nested sums, shifts and masks of any shape reach the matcher; only a few shapes are compiled by tests", "anchors": ["ir/be/ia32/x86_address_mode.c:x86_create_address_mode", "ir/be/ia32/x86_address_mode.c:eat_imm", "ir/be/ia32/x86_address_mode.c:eat_immediates", "ir/be/ia32/x86_address_mode.c:eat_shl", "ir/be/ia32/x86_address_mode.c:add_addr_operand"]}
