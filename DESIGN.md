# Formal model of libfirm: design

All models are written in Gallina (Coq 8.16.1) in `rocq/theories/`; every property theorem is
proved for all inputs / histories (no bounds).  /repo is only read, never built or run.

## Layout

* `<Topic>Model.v`  executable transcription of the C code; each definition cites file:lines.
* `<Topic>Spec.v`   small specification written without using the model's helpers (where the
  specification is more than plain `Z`/list vocabulary).
* `<Topic>Proofs.v` lemmas.
* `<Topic>Props.v`  the property theorems (`exact lemma`), each followed by a concrete
  non-trivial instance (`Example`) and `Print Assumptions`.

Conventions: C `unsigned`/`long` values are `Z` with explicit wrap where C wraps; array indexes are
`nat`; assertion failure, panic and undefined behaviour are distinct outcomes (`Base.outcome`)
where a caller can trigger them; loops that are not structurally recursive carry fuel with an
explicit out-of-fuel outcome which the theorems exclude (so they also prove termination).

## Plan per property

| id | modelled | proved how |
|----|----------|------------|
| C01-C08 | strcalc.c on lists of 8-bit words, word by word, shifts with explicit in-place update and an aliasing flag | refinement to `Z` modulo 2^(8n): value function `val`, bit extensionality, induction on word lists |
| C09-C13, C17, C18 | tv.c integer part on top of the strcalc model; modes as records (size, sign, modulo_shift) | refinement: the value of the resulting tarval equals a `Z` formula |
| C14 | tarval interning on top of the set.c model | invariant over histories of insertions |
| C15, C16, C08 | byte / text conversion functions | round-trip lemmas by induction |
| C19 | set.c (dynamic hashing, segments abstracted to a bucket array of the same indexing) | invariant: every element sits in the bucket its hash addresses; preserved by expand_table |
| C20 | hashset.c.h probing, tombstones, resize, shrink | invariant: probe path up to the element has no empty slot; triangular probing visits all slots |
| C21 | deq.c blocks with left/right offsets | abstraction to a list, invariant over all operations |
| C22 | pqueue.c array heap | heap invariant + multiset (Permutation) |
| C23 | unionfind.h | forest invariant, rank measure; equivalence closure |
| C24 | bitfiddle.h on 32-bit `Z` | testbit reasoning, case analysis by the code's own binary search steps |
| C25 | irarch.c decomposition to an instruction tree, evaluated modulo 2^n | induction on the recursion, value of a condensed array |
| C26, C27 | magic number computations + generated expression | Hacker's Delight style invariant on the search loop, then bounds on the multiply-high |
| C28 | generated shift sequences | Z.div / Z.modulo reasoning |
| C29 | constbits.c transfer functions over masks as `Z` | per-bit soundness, carry induction for Add/Sub |
| C30-C35 | fltcalc.c on (class, sign, exp, mantissa) with strcalc values as wrapped `Z` | rounding specification by Flocq `round`; algebra on mantissas |
| C36 | belower.c chain/cycle decomposition as a list of register moves | simulation of the move list on a register file |
| C37 | irnode.c relation functions on the 4-bit mask | exhaustive over the finite relation domain, quantified over semantics of operands |

| C38 | array.c flexible arrays with an allocated size | invariant over resizes |
| C39 | verify_constbits over a graph of nodes | fixed point implies truth in every valuation, by induction on the execution |
| C40, C41 | folding of comparisons, Confirm handling (iropt.c, opt_confirms.c) | case analysis over relation masks, quantified over operand values |
| C42 | vrp.c transfer, update and worklist | lattice order, termination measure, invariant on executions |
| C43 | computed_value (iropt.c:249-1020) on integer, reference and boolean nodes | per opcode, the folded tarval is the value in every consistent valuation |
| C44 | equivalent_node (iropt.c:1022-1745) | per opcode, the chosen node has the same value in every consistent valuation |
| C45 | transform_node of And, Or, Eor, Not (iropt.c:1768-3018, 4323-4672) | the expression put in place of the node is verified and has its mode and value in every consistent valuation |
| C46 | transform_node of Add, Sub, Minus, Mul (iropt.c:3028-3906, 4687-4777, 5969-6055) | the same, with congruences modulo 2^bits |
| C47 | raw_bitset.h, bitset.h | membership of a position as a bit of an element, per element lemmas |
| C48 | lower_switch.c | semantics of the code made, induction over the binary search; table congruent modulo 2^bits |
| C49 | type.c, bestack.c | least multiples, induction over members; arithmetic modulo 2^32 exact below bounds |
| C50 | ir/kaps | the minimum over all choices of the removed nodes is kept by each reduction; a budget of finite entries bounds all sums |
| C51 | ir/ana/irdom.c, domfront.c | paths of the control flow graph; semidominators and the interval property of depth first numbers connect them to the algorithm |
| C52 | transform_node of Shl, Shr, Shrs, Conv (iropt.c:4253-4318, 5895-6418) | as C45 and C46; shifts as functions on bits |
| C53 | lowering of double words (lower_dw.c, arm_lower64.c, sparc_lower64.c, ia32_intrinsics.c) | C53_lowering_partial: the expressions made for each node have as values the words of its value, by the split v = high * 2^w + low; refuted outside op_regular |
| C54 | rewriting comparisons (iropt.c transform_node_Cmp) | C54_transform_cmp_partial: the expression given has the truth value of the comparison; refuted outside cmp_regular |
| C55 | rewriting Mux (iropt.c transform_node_Mux, ir_is_optimizable_mux) | C55_transform_mux_partial: the expression given has the value of the Mux; C55_optimizable_complete: what goes away is said to; refuted outside mux_regular |
| C56 | rewriting Div, Mod, Confirm, Cond, Switch (iropt.c transform_node) | C56_transform_div, C56_transform_proj, C56_known: the expression given has the value of the node; C56_exception_partial: no exception lost; C56_cond_partial, C56_switch: the way chosen is the way taken; refuted for x / x and for comparisons of Confirms |
| C57 | the memory disambiguator (ir/ana/irmemory.c) | C57_no_alias_partial: an answer ir_no_alias is right in every execution; refuted, one by one, for accesses just below a pointer, variables of array type, parts of sums, unsigned offsets, copies of structs with pointers, symbolic offsets from fixed addresses, alias entities; overflow; ir_sure_alias |
| C58 | conjunctions and disjunctions of comparisons (ir/opt/boolopt.c) | C58_bool_walk_partial, C58_fuse_partial: the truth value and the ways taken are kept; refuted for p == 0 && q == 0 and for comparisons that are changed when negated |
| C59 | don't care analysis and occult constants (ir/ana/dca.c, ir/opt/occult_const.c) | C59_analysis, C59_dont_care_partial, C59_occult_partial: the analysis ends, cared for bits and the roots are the same in runs side by side; refuted for Shrs by an amount with bit information, for modes that are not whole bytes, and for Confirms |
| C60 | instruction selection for RISC-V (ir/be/riscv) | C60_selection_partial, C60_encodable, C60_total, C60_constants, C60_branch, C60_load, C60_store, C60_frame_addr, C60_inc_sp, C60_peephole, C60_saturating_increment, C60_alloc_partial: registers hold the values of the nodes, immediates fit, branches and memory accesses are those of the graph; refuted for Shrs of 8 bit unsigned numbers and for large constant Allocs |
| C61 | moving conversions up (convopt.c) | C61_value: the new nodes have the value of the Conv at all times; C61_nodes: they are as the verifier demands; C61_total: the recursion ends within the number of nodes |
| C62 | lowering of boolean values (lower_mode_b.c) | C62_value: the node an input is set to has the value of the input at all times; C62_inputs: which inputs are set, to Cmps where booleans are demanded and to numbers elsewhere; C62_total: the lowering ends or fails at once at an unknown operation |
| C63 | lowering of block copies (lower_copyb.c) | C63_copied: the operations copy the block and nothing else, each byte once; C63_aligned: accesses are aligned; C63_total: the loops end, and when the lowering panics |
| C64 | lowering of builtins (lower_builtins.c) | C64_value_partial: the function called gives the value of the builtin; C64_kinds: what becomes of each kind; C64_total: which can be lowered; C64_properties_partial: which properties are kept |
| C65 | textual form of the IR (irio.c) | C65_string, C65_long, C65_int, C65_unsigned, C65_enum, C65_list, C65_type_ref, C65_initializer, C65_type, C65_entity, C65_typegraph_partial: what is written is read back; C65_initializer_ends, C65_type_ends, C65_entity_ends: reading ends |
| C66 | initialized data for the assembler (begnuas.c) | C66_string: strings are read as they were; C66_number: numbers in either byte order; C66_expression_partial: expressions; C66_image_partial: all bytes of an object, bit fields and gaps too; C66_size, C66_flexible_partial: sizes |
| C67 | ARM selection and peepholes (arm_transform.c, arm_optimize.c) | C67_parts, C67_constant, C67_encode: immediates; C67_add .. C67_and, C67_shift, C67_rotate, C67_extension: values; C67_compare_partial: compare and branch; C67_stack_partial, C67_frame, C67_access_partial: offsets |
| C68 | SPARC selection and finishing (sparc_transform.c, sparc_finish.c, sparc_emitter.c) | C68_constant, C68_value_partial: values of trees; C68_compare_partial: compare and branch; C68_save, C68_stack_partial, C68_frame, C68_access_partial, C68_float_access: offsets |
| C69 | stack allocations (lower_alloc.c) | C69_round_partial, C69_multiple: sizes; C69_address_partial: addresses |
| C70 | x86 address modes (x86_address_mode.c) | C70_value: the address has the value of the node; C70_kept, C70_kept_sum, C70_stack_partial: what goes into registers; C70_total_partial: assertions |

## What is modelled and what is not

| file | modelled | left out |
|------|----------|----------|
| ir/tv/strcalc.c | all arithmetic, comparison, shift, bit, text and byte functions | sc_print into a caller's buffer size check |
| ir/tv/tv.c | integer, reference, boolean tarvals; interning; float to integer conversion | parsing floats from text, printing floats, host long double conversions |
| ir/tv/fltcalc.c | descriptors, normalize, add, sub, mul, div, int, flt2int, pack / bytes, cast, comparison, classification | functions through the host's long double, fc_print |
| ir/adt/set.c, hashset.c.h, deq.c, pqueue.c, array.c, unionfind.h, bitfiddle.h | all operations | malloc failure, obstacks |
| ir/adt/raw_bitset.h, bitset.h | all operations on one array | obstack variants of allocation, printing |
| ir/lower/lower_switch.c | analysis, sorting, both kinds of code, target counts | the walk over the blocks, the obstack of targets, jump table construction in the backends |
| ir/tr/type.c | default_layout_compound_type, sizes of arrays | everything else |
| ir/be/bestack.c | frame layout, simulation of IncSP with the x86 node effects along a schedule | SSA reconstruction of stack nodes, the walk over blocks |
| ir/kaps/vector.c, pbqp_edge.c, kaps.c, optimal.c | costs, edges, simplification, RI, RII, RN at any alternative, solution and back propagation; the local choice of RN | RM (merges), brute force, buckets: the order of the reductions is arbitrary; printing |
| ir/ana/irdom.c, domfront.c | walks, semidominators with path compression, immediate dominators, tree numbers, block_dominates, deepest common dominator, frontiers | outs and edges are given as lists; ir_dominates on nodes, the walkers with callbacks of clients |
| ir/lower/lower_dw.c, ir/be/arm/arm_lower64.c, ir/be/sparc/sparc_lower64.c, ir/be/ia32/ia32_intrinsics.c | DwModel.v | Call, Return, Start, Sel, ASM, Bitcast, floats, method types, part_block_dw; the run time functions are taken by their specification |
| ir/opt/iropt.c transform_node_Cmp | CmModel.v | floats; one round between restarts |
| ir/opt/iropt.c transform_node_Mux, ir_mux_is_abs, ir_is_optimizable_mux | MxModel.v | floats; ir_is_negated_value is in IrModel.v |
| ir/opt/iropt.c transform_node_Div, _Mod, _Proj_Mod, _Confirm, _Cond, _Switch; ir/tv/tv.c tarval_in_range | DvModel.v | floats; the memory and control flow of the Projs but for what is decided |
| ir/ana/irmemory.c:51-484 | AliasModel.v | is_SubClass_of is a table, the entity usage that says whether an address is taken is given, debug output |
| ir/opt/boolopt.c:20-438, 571-588, 676-726 | BoModel.v | float modes, finding the blocks, can_fuse_block_inputs, remove_block_input, moving nodes; find_unsigned_mode and new_rd_Cmp are given |
| ir/ana/dca.c:30-430; ir/opt/occult_const.c:34-96 | DcaModel.v | blocks, control flow, memory and tuple nodes (roots), float modes; constbits_analyze is C29/C39 |
| ir/be/riscv/riscv_transform.c, riscv_bearch.c:95-106, 379-402, riscv_finish.c, riscv_emitter.c:261-272; ir/be/betranshlp.c:844-937 | RvModel.v | blocks and debug information, calls, Start and Return, Switch, Builtins but the saturating increment, Relocation nodes and thread local entities, scheduling, register allocation |
| ir/opt/convopt.c:40-274 | CoModel.v | float modes, debug information, the loop of conv_opt with local_optimize_graph |
| ir/lower/lower_mode_b.c:38-274 | LbModel.v | blocks and dominance of new nodes, Tuples, create_set functions of backends |
| ir/lower/lower_copyb.c:24-199 | CbModel.v | address nodes, volatility, types of the accesses |
| ir/lower/lower_builtins.c:30-259 | BuModel.v | memory, entities, the backends' va_arg; get_alias_relation is C57 |
| ir/ir/irio.c:33-319, 352-772, 1037-1055, 1135-1391, 1462-1474, 1546-1606, 1626-1937 | IoModel.v | nodes, modes and irgs; the types there when reading starts; the fixing of references after reading; the file (a text is a list of bytes) |
| ir/be/begnuas.c:272-321, 674-1185 | GasModel.v | sections, symbols, alignment and debug directives; the text of directives other than strings; variants of the assembler (PIC, Mach-O) |
| ir/be/arm/arm_transform.c:76-141, 169-207, 281-544, 605-623, 747-805, 825-881, 946-1056, 1209-1243; arm_emitter.c:177-183, 361-402; arm_optimize.c | ArmModel.v | Mul/Mla/Mls, floats, calls, switches, double word operations, RRX, skipping of conversions, merging of IncSPs; the meaning of instructions is taken from the ARM manual |
| ir/be/sparc/sparc_transform.c:148-155, 357-401, 575-665, 832-842, 929-1037, 1063-1076, 1116-1148, 1182-1270; sparc_finish.c:133-250, 282-347; sparc_emitter.c:108-130, 610-620, 1027-1065, 1106-1111 | SparcModel.v | Modes below 32 bits with their extensions, skipping of conversions, Address nodes, carries, division, Mulh, floats, calls, delay slots, the register g4; the meaning of instructions is taken from the SPARC V8 manual |
| ir/lower/lower_alloc.c:29-71 | AllocModel.v | the walk over the graph, optimizations of the constructors |
| ir/be/ia32/x86_address_mode.c:30-347 | AddrmodeModel.v | thread local storage, be_skip_downconv, the choice of the nodes kept in registers |
| ir/ir/irarch.c | Mul / Div / Mod replacement, evaluators | block placement, debug info |
| ir/ana/constbits.c | transfer functions, verify | worklist order |
| ir/ana/vrp.c | transfer, update, worklist | float nodes |
| ir/opt/iropt.c | computed_value, equivalent_node, comparison folding, transform_node of And, Or, Eor, Not, Add, Sub, Minus, Mul, Shl, Shr, Shrs, Conv | see the heads of CvModel, EqModel, IrModel, TrModel, TaModel, TsModel |
| ir/opt/opt_confirms.c | value_is_zero, relations of Confirms | float bounds |
| ir/be/belower.c | Perm lowering to chains and cycles | push_through_perm, register search |
| ir/ir/irnode.c | relation functions | the rest |

An execution of a graph is a valuation of its nodes (`consistent`): every node that has a value
has the value its operation gives for the values of its operands.  That a graph in SSA form has
such valuations is the definition of the semantics here, not a theorem about generated code.

## Trusted base

* Coq's kernel (8.16.1).
* `Print Assumptions` (printed by the build beside every theorem): every theorem is *closed under
  the global context*, except those of `FltProps.v` that mention real numbers.  These use, of Coq's
  standard library of reals, `ClassicalDedekindReals.sig_forall_dec`,
  `ClassicalDedekindReals.sig_not_dec`, `Classical_Prop.classic` and
  `FunctionalExtensionality.functional_extensionality_dep`.  Flocq's definitions (`round`,
  `FLT_exp`, `ZnearestE`) are part of the specification of C30, C31, C34; Flocq adds no axiom.
* The reading of the C code documented by the file:line comments in the model.  The C compiler,
  the hardware and code outside the cited functions are not modelled.

## Faults of the code found (each is a `_refuted` theorem)

* sc_is_zero is called with a number of bytes for a number of bits (fltcalc.c:134, 193, 634, 635):
  subnormals divisible by 2^32 units are taken for zero (C30, C31, C32, C34 `tiny` / `subnormal`).
* fc_div with a subnormal divisor is wrong by a factor, fc_mul and fc_div lose bits of subnormals
  (C31), the exact flag survives overflow (C31_exact_refuted), signalling NaNs trip an assertion in
  fc_cast (C34), sc_sub_bits spoils rounding for 7 and 8 fraction bits (C30).
* sc_val_from_bytes writes outside its buffer (C15); sc_div on the most negative value (C03);
  tarval_divmod by zero (C11); huge shift amounts, shrs on odd widths (C12); text form (C16);
  tarval_is_long (C18).
* irarch.c: unsigned magic division in other modes than 32 bit (C27).
* constbits.c: Shrs by more than the width, odd widths (C29).
* opt_confirms.c:389-409: the bound of a bound is treated as a bound (C40, C41, C43, C44).
* iropt.c: x >> x, Conv of Mul (C43); Sub rule, Conv of Conv, Mux (C44).
* iropt.c:2617, 2751, 4339 compare the inputs of the second comparison with each other; Or/Eor of booleans as Add;
  ~(C - p) of references; Shrs amounts of 2^63 and more; -x ^ C under shift modulo 1 (C45).
* iropt.c: (p & c) + (q & c) without common bits becomes (p + q) & c, likewise Shr; sums and differences of references get the
  wrong mode; a pointer plus the highest bit fails an assertion; -(x >> 31), x + x, (x >> c) * 2^k ignore the shift modulo or
  narrow amount modes; x * 2^k in modes of no whole bytes (C46).
* raw_bitset.h: rbitset_minus1 borrows for 2^31; rbitset_prev, bitset_foreach_rev and rbitset_set_range at the end of a full
  array access one element too many (C47, no caller).
* lower_switch.c: ranges of signed selectors in the cascade, narrow signed selectors with negative cases in tables, 65536
  cases of one target (C48).
* type.c, bestack.c: sizes wrap modulo 2^32 without a check (C49).
* kaps/vector.c: the asserts of pbqp_add against overflow are not compiled with unsigned costs, so sums wrap (C50);
  select_alternative reads the edges of a node while deleting them, which works since a slot is overwritten only by later rounds.
  RN at an alternative of infinite cost adds a column that may exceed the bound: hence the hypothesis finite_choices.
* irdom.c: a block that cannot be reached has the numbers 0, so block_dominates takes it for a dominator of the start block (C51); domfront.c: the start block is missing in its own frontier (C51);
* iropt.c: Shrs by too large an amount becomes one by the size of the amount's mode less one, 7 for 16 bit numbers and 8 bit amounts (C52); a shift of a shift by constants fails an assertion for modes with shift modulo zero (C52); (x << 33) >> 2 in 32 bits is computed as if 33 shifted out all (C52);
* lower_dw.c: a shift of a word by a double word is left with its amount gone (C53); the parity of a signed double word becomes an Eor of words of different modes (C53); a Confirm of a double word gets no words and they are read (C53);
* arm_lower64.c: a shift with sign by 257 gives the sign (C53);
* ia32_intrinsics.c: an assertion fails if bits are known of the left operand only (C53);
* iropt.c transform_node_Cmp: x >> c CMP y >> c becomes x CMP y though bits shifted out differ (C54); a relation < or > that the analyses make equivalent to != is kept when operations are removed from both sides or the remainder becomes a mask, and negated for a flipped bit (C54); -x >= MIN becomes x <= MIN (C54); with bits known of the left operand only, an unsigned constant is made smaller past zero (C54);
* iropt.c ir_mux_is_abs: a comparison != counts as <, and unsigned modes are not excluded (C55);
* iropt.c transform_Mux_set: with the constant -1 and equality known to be impossible, x - -1 overflows for the largest x (C55);
* iropt.c transform_node_Mux: the assertion of a comparison equivalent to == or != fails for comparisons that are decided; that one of two boolean constants is false fails for two nodes of true (C55);
* iropt.c ir_is_optimizable_mux: says true for u < 0 ? -1 : 0 of an unsigned u, which stays (C55);
* iropt.c transform_node_Div: x / x becomes 1 and its exception a jump that is not taken, also if x can be 0 (C56);
* irmemory.c _get_alias_relation: of two accesses below the same pointer the sum of unsigned offset and size wraps, p - 4 of 4 bytes and p - 2 are said not to alias (C57);
* irmemory.c classify_pointer: a variable of array type counts as primitive, a member of one of its elements is said not to alias with the same through a pointer (C57);
* irmemory.c find_base_addr does not look through Add: a member of a sum is of class pointer and said not to alias with the variable it is in (C57);
* irmemory.c get_address_info: unsigned constants of 32 bits are not sign extended, 0xFFFFFFFC and -4 differ on a machine of 32 bits (C57);
* irmemory.c: the type based analysis says that a copy of a struct does not alias with its members of pointer type (C57);
* irmemory.c: the offset of a fixed address is compared though there is a symbolic offset too (C57);
* irmemory.c: entities of kind IR_ENTITY_ALIAS are taken for variables of their own (C57);
* irmemory.c get_address_info: the sum of the constants of an address overflows, as a TODO there says (C57);
* irmemory.c: ir_sure_alias is answered for the same member of different elements of an array (C57);
* boolopt.c:134-153 bool_and rewrites p == 0 && q == 0 to (p & q) == 0, which holds for p = 4096, q = 8192 (C58);
* boolopt.c:571-588 normalize_cmp takes the constant but not the relation of the new Cmp: x < 5 || x > 100 becomes (x - 4) >u 96 when x < 5 is made x <= 4 (C58);
* boolopt.c:584, 304: new_rd_Cmp may give neither Cmp nor Const, then get_Cmp_left fails (C58);
* dca.c:279, 311 the shift amount looked at for the sign bit of a Shrs is that of a constant only: (x >> (q & 2 | 1)) & 2^31 becomes 0 (C59);
* dca.c:67-77 create_msb_mask misses bits in modes that are not whole bytes (C59);
* riscv_transform.c:1086-1088 the operand of a Shrs of an 8 bit unsigned number is zero extended: 0x80 >>s 1 gives 0x40 (C60);
* riscv_transform.c:331 an Alloc of constant size of 2048 bytes or more fails an assertion (C60);
* lower_copyb.c: a CopyB of at most max_small_size bytes of a type aligned to 16 bytes panics where misaligned accesses are not allowed (C63_total).;
* lower_builtins.c:71-104: clz of an operand narrower than a pointer gives too large a number (C64_clz_refuted); popcount of a negative signed operand counts the sign extension (C64_popcount_refuted).;
* lower_builtins.c:196-198: va_arg does not set changed: all properties, dominance included, are confirmed though amd64_lower_va_arg adds blocks (C64_properties_refuted); where lower_va_arg is NULL (arm, mips) it is called all the same (C64_va_arg).;
* irio.c:1303-1307: a size_t of 4 GiB or more is read modulo 2^32 (C65_size_refuted).;
* irio.c:1689, 1695, 1705: the types of parameters and results and the type pointed to are written as references, which may be the word unknown, but read as numbers (C65_pointer_refuted).;
* irio.c:1731-1735: the size of a segment type is written but not read back (C65_segment_refuted).;
* irio.c:1795-1799: the assembler name of an alias is written but dropped when read (C65_alias_refuted).;
* irio.c:704, 1777: an entity without a name is written as NULL, which read_ident does not accept (C65_nameless_refuted).;
* irio.c:1892-1930: a type graph that is cut off is read without end: at the end of the file there is no keyword and no line to skip (C65_truncated_refuted).;
* begnuas.c:986, 1124: whether an initializer is text is decided without the type: bit fields of an 8 bit type, or members of a struct that are not next to each other, are written as a string (C66_field_text_refuted, C66_struct_text_refuted).;
* begnuas.c:1124-1127: text that is shorter than the array it initializes is not filled up (C66_short_text_refuted).;
* begnuas.c:735-760: operands are written without brackets, a-(b-c) as a-b-c, (a+b)*c as a+b*c (C66_sub_refuted, C66_mul_refuted); conversions are dropped (C66_conv_refuted).;
* begnuas.c:798, 826: a negative char is written with 11 octal digits, of which the assembler reads three (C66_string_refuted).;
* begnuas.c:876: the size of an array of unknown length counts alignment bytes for elements that need none (C66_flexible_refuted).;
* arm_optimize.c:146-151: the offset of a load or store that is negative and does not fit is split without being negated, and then subtracted: the access goes to base - offset (C67_access_refuted).;
* arm_optimize.c:27: arm_ror shifts a uint32_t by 32 for parts that are not rotated, undefined (C67_stack_refuted).;
* arm_transform.c:528-540: operands shifted by any kind of shift, by registers, and immediates are folded into Pkhbt and Pkhtb, which have only LSL and ASR by a constant (C67_pack_refuted).;
* arm_transform.c:1027-1035: Not of a Mov of an immediate reads an operand that does not exist (C67_not_refuted).;
* arm_emitter.c:382-395: a branch on less, equal or greater whose true block follows is negated to a relation that panics (C67_compare_refuted).;
* arm_transform.c:281-314: immediates such as 0xf000000f are not found (C67_encode_refuted; only slower).;
* arm_transform.c:1068 (not modelled): gen_Minus of a float uses the operand before the transformation.;
* sparc_finish.c:222-223: finish_load_store copies is_frame_entity and is_reg_reg of the old load or store to the register form that replaces it, so the emitter (sparc_emitter.c:112-123) writes no offset at all: an integer load or store of a frame entity farther than 4095 bytes goes to the base of the frame (C68_access_lost, C68_access_refuted).;
* sparc_finish.c:184: -offset overflows for -2^31 (C68_stack_refuted).;
* sparc_transform.c:1015-1037: a shift by a constant from 32 on is selected with an immediate no shift instruction has (C68_value_refuted).;
* lower_alloc.c:61: the alignment of an Alloc is replaced by 1, also when it is greater than that of the stack (C69_address_refuted).;
* lower_alloc.c:40: the sum wraps, sizes close to the greatest number of the mode become 0 (C69_round_refuted).;
* x86_address_mode.c:149: a Member added to the address of an entity violates the assertion that no entity was matched yet (C70_total_refuted); whether earlier phases can build such a sum was not checked.;
* vrp.c: the merge of two antiranges (C42, not reachable).
* array.c: ir_arr_setlen may shrink (C38).

Properties added later are described in the comments of their Props file and in MANIFEST.json.
