{
 "claims": [
  {
   "property": "C01",
   "status": "proved",
   "theorems": [
    "C01_int_round_trip",
    "C01_int_words",
    "C01_int_tag_injective",
    "C01_range_is_tight",
    "C01_both_int_test"
   ],
   "note": "round trip both ways, injectivity, tightness of the range"
  },
  {
   "property": "C02",
   "status": "proved",
   "theorems": [
    "C02_expressions_exact_or_error",
    "C02_result_representable",
    "C02_comparisons"
   ],
   "note": "all integer expressions over - + * // div rem mod bitwise abs sign inc dec min max ^; comparisons"
  },
  {
   "property": "C03",
   "status": "proved",
   "theorems": [
    "C03_division_laws",
    "C03_zero_divisor",
    "C03_min_div_minus_one"
   ],
   "note": "division laws for // rem div mod; zero divisor; min_integer // -1 raises"
  },
  {
   "property": "C04",
   "status": "proved",
   "theorems": [
    "C04_bitwise"
   ],
   "note": "bit by bit on the infinite two's complement"
  },
  {
   "property": "C05",
   "status": "partial",
   "theorems": [
    "C05_shl_partial",
    "C05_shr_partial",
    "C05_shl_refuted",
    "C05_shl_min_count_refuted",
    "C05_shr_refuted",
    "C05_shl_negative_unchecked"
   ],
   "note": "exact except for negative left operands whose shift overflows and for a count of min_integer; both cases refuted by witnesses"
  },
  {
   "property": "C06",
   "status": "partial",
   "theorems": [
    "C06_gcd_partial",
    "C06_gcd_refuted"
   ],
   "note": "exact except gcd(min_integer,min_integer), refuted by witness"
  },
  {
   "property": "C07",
   "status": "proved",
   "theorems": [
    "C07_compare_is_standard_order",
    "C07_order_is_total",
    "C07_nan_refuted"
   ],
   "note": "heap-level compare equals the documented standard order, which is total; NaN excluded (refuted otherwise)"
  },
  {
   "property": "C08",
   "status": "proved",
   "theorems": [
    "C08_msort",
    "C08_sort",
    "C08_keysort"
   ],
   "note": "array merge sort refined to lists; permutation, order, stability, duplicate removal"
  },
  {
   "property": "C09",
   "status": "proved",
   "theorems": [
    "C09_unify_sound",
    "C09_unify_safe"
   ],
   "note": "both unification procedures; memories may be cyclic; no undefined behaviour; FD solver calls are a separate result"
  },
  {
   "property": "C10",
   "status": "partial",
   "theorems": [
    "C10_failure_is_final",
    "C10_most_general",
    "C10_solvable_succeeds",
    "C10_finite_terms",
    "C10_rational_refuted"
   ],
   "note": "failure is final for finite and infinite solutions, bindings most general, finite solutions are always found; with only infinite solutions the goal may loop (refuted by witness)"
  },
  {
   "property": "C11",
   "status": "proved",
   "theorems": [
    "C11_occurs_check"
   ],
   "note": "termination, exactness, acyclicity preserved"
  },
  {
   "property": "C12",
   "status": "proved",
   "theorems": [
    "C12_machine_safe",
    "C12_backtracking_restores",
    "C12_unify_trails"
   ],
   "note": "all histories of pushes, bindings, trailed assignments, environments, nested choice points, cuts, soft cuts and backtracking; registers, arguments, trail and outside state restored; unification trails every old cell it changes"
  },
  {
   "property": "C13",
   "status": "proved",
   "theorems": [
    "C13_no_dangling",
    "C13_put_unsafe_value",
    "C13_unify_local_value"
   ],
   "note": "after unification, put_unsafe_value and unify_local_value the local stack may be cut anywhere: no dangling reference, terms unchanged, chains end"
  },
  {
   "property": "C14",
   "status": "partial",
   "theorems": [
    "C14_copy_term",
    "C14_term_size",
    "C14_copy_term_2",
    "C14_too_many_refuted"
   ],
   "note": "variant made of fresh cells, original unchanged, size exact, memory stays well-formed; refuted for terms with more than MAX_VAR_IN_TERM variables: the error leaves variables of the original bound"
  },
  {
   "property": "C15",
   "status": "proved",
   "theorems": [
    "C15_acyclic_term"
   ],
   "note": "decides finiteness for all finite memories, cyclic or not, and restores them"
  },
  {
   "property": "C16",
   "status": "partial",
   "theorems": [
    "C16_term_variables",
    "C16_local_variable_refuted"
   ],
   "note": "order of first occurrence, each once; refuted (well-formedness) when the term holds an unbound local variable: the list then refers to the local stack"
  },
  {
   "property": "C17",
   "status": "proved",
   "theorems": [
    "C17_refines",
    "C17_snapshot"
   ],
   "note": "every history of assertions, calls, resumptions, cuts, environments and erasures, for all thresholds, gives the answers of the database where a goal keeps the list of the clauses it found at its call; corollary for one goal with anything in between.  Under the bounds the code relies on (2^31 assertions, 2^64 calls) and without erasing a whole predicate during a retract on it, refuted otherwise under C19 and C20"
  },
  {
   "property": "C18",
   "status": "proved",
   "theorems": [
    "C18_index"
   ],
   "note": "after any history the indexed call gives a part of the unindexed answers in the same order, and the clauses left out do not match"
  },
  {
   "property": "C19",
   "status": "partial",
   "theorems": [
    "C19_list_partial",
    "C19_count_refuted"
   ],
   "note": "proved for fewer than 2^31 assertions, refuted above (the clause counters overflow)"
  },
  {
   "property": "C20",
   "status": "partial",
   "theorems": [
    "C20_safe_partial",
    "C20_retractall_in_retract_refuted",
    "C20_erase_file_refuted"
   ],
   "note": "no history accesses a freed block, for all thresholds; refuted for retractall during a retract on the same predicate and for consulting one of several files of a predicate"
  },
  {
   "property": "C21",
   "status": "proved",
   "theorems": [
    "C21_history",
    "C21_free",
    "C21_scan",
    "C21_zero_size_refuted"
   ],
   "note": "finite map for all histories and sizes >= 1; scans with insertions and deletions of seen keys; freeing restores the memory exactly.  Size 0 (outside the quantifier) is shown to write out of bounds"
  },
  {
   "property": "C22",
   "status": "proved",
   "theorems": [
    "C22_history",
    "C22_intern",
    "C22_name",
    "C22_init",
    "C22_big_table_refuted"
   ],
   "note": "interning for all histories, hash functions and table sizes up to 2^31; initial atoms; tables of more than 2^31 cells (accepted by atom.c) refuted: the int index becomes negative"
  },
  {
   "property": "C23",
   "status": "partial",
   "theorems": [
    "C23_mangle_injective",
    "C23_valid_symbol",
    "C23_empty_module_refuted"
   ],
   "note": "injective for all byte strings when the module is absent or non-empty; symbols are valid identifiers; refuted for the module '', which collides with no module"
  },
  {
   "property": "C24",
   "status": "partial",
   "theorems": [
    "C24_demangle",
    "C24_both_encoded_refuted",
    "C24_empty_predicate_refuted",
    "C24_demangle_fixed"
   ],
   "note": "exact inverse for arities 0..1024 when at most one of the names needs encoding and the name is not empty; refuted when both need encoding (code 5 is refused) and for the empty name; the repaired function is an exact inverse"
  },
  {
   "property": "C25",
   "status": "partial",
   "theorems": [
    "C25_sub_atom_partial",
    "C25_solutions",
    "C25_order",
    "C25_shared_refuted",
    "C25_range_refuted",
    "C25_oob_refuted",
    "C25_long_refuted"
   ],
   "note": "exact enumeration proved for names under 65536 bytes, length and sub-atom not the same variable, B/A in range when the sub-atom is given; refuted otherwise (ignored unification result, negative A, out-of-bounds read, 16-bit length)"
  },
  {
   "property": "C26",
   "status": "partial",
   "theorems": [
    "C26_concat_partial",
    "C26_solutions",
    "C26_instantiation",
    "C26_long_refuted"
   ],
   "note": "proved for every mode for names under 65536 bytes; refuted for longer names (heap overflow from the 16-bit length)"
  },
  {
   "property": "C27",
   "status": "partial",
   "theorems": [
    "C27_test_value",
    "C27_test_null_inter",
    "C27_test_null_inter_empty_refuted",
    "C27_nb_elem",
    "C27_ith_elem",
    "C27_next_after",
    "C27_next_before",
    "C27_set_value_partial",
    "C27_set_value_refuted",
    "C27_set_value_empty_refuted",
    "C27_reset_value_partial",
    "C27_reset_value_refuted",
    "C27_reset_zero_refuted",
    "C27_union",
    "C27_inter",
    "C27_compl",
    "C27_from_vector_refuted"
   ],
   "note": "membership, counting, enumeration, union, intersection, complement exact; adding or removing one value refuted at the vector bound, for intervals beyond it and for empty incomplete ranges"
  },
  {
   "property": "C28",
   "status": "partial",
   "theorems": [
    "C28_add_range",
    "C28_sub_range",
    "C28_add_intervals",
    "C28_sub_intervals",
    "C28_mul_range_partial",
    "C28_mul_range_refuted",
    "C28_mul_overflow_refuted",
    "C28_div_range",
    "C28_mod_range",
    "C28_negative_refuted",
    "C28_beyond_refuted",
    "C28_add_value",
    "C28_mul_value",
    "C28_div_value_partial",
    "C28_div_value_refuted",
    "C28_div_zero_refuted",
    "C28_mul_value_refuted",
    "C28_mod_value_sparse",
    "C28_mod_value_interval"
   ],
   "note": "exact or covering for all operations on non-negative operands that reach the vector; refuted: product does not mark lost values, quotient by a value of a sparse set, negative members, operands beyond the vector, int overflow"
  },
  {
   "property": "C29",
   "status": "partial",
   "theorems": [
    "C29_tell_value",
    "C29_tell_interval_partial",
    "C29_tell_range_partial",
    "C29_check_for_bool",
    "C29_tell_not_value_partial",
    "C29_fd_domain_partial",
    "C29_tell_flag_refuted",
    "C29_tell_not_value_cut_refuted",
    "C29_tell_not_value_extra_refuted",
    "C29_tell_not_value_fails_refuted",
    "C29_fd_domain_refuted"
   ],
   "note": "value and boolean tells exact, with exact events; interval and range tells exact except when a range marked incomplete becomes complete without losing an element, refuted there (the store of the flag clears the minimum); removing a value proved except two cases, refuted there (values lost without a warning); fd_domain/3 proved for bounds up to fd_max_integer, refuted above"
  },
  {
   "property": "C30",
   "status": "partial",
   "theorems": [
    "C30_dates",
    "C30_post_partial",
    "C30_tell_partial",
    "C30_run_partial",
    "C30_solution_partial"
   ],
   "note": "proved for complete domains in 0..fd_max_integer and any constraints whose blocks are good, in the order the code uses (termination, no solution lost, failure only without solution, fixpoint), and for all sequences of 19 linear constraints and tells; not modelled: blocks that stop themselves, wait_switch, incomplete or negative domains"
  },
  {
   "property": "C31",
   "status": "proved",
   "theorems": [
    "C31_words",
    "C31_domains",
    "C31_defined",
    "C31_vector",
    "C31_once",
    "C31_stamp",
    "C31_nb_cstr_refuted"
   ],
   "note": "for every history of legal operations, cuts and soft cuts included, backtracking to a choice point that is still there restores CS, the trail and every non-volatile word, so value, domain, vector and constraints of every variable; legal operations are defined; a range is saved once per stamp; refuted: the number of constraints is restored"
  },
  {
   "property": "C32",
   "status": "partial",
   "theorems": [
    "C32_linear_partial",
    "C32_mul_partial",
    "C32_quot_rem_partial",
    "C32_zero_power_partial",
    "C32_closed",
    "C32_ground",
    "C32_mul_overflow_refuted",
    "C32_coefficient_overflow_refuted"
   ],
   "note": "proved safe and sound for 19 linear constraints, X*Y=Z, quotient and remainder, 0**N=Y when products stay within 2^30; refuted beyond (int overflow); not proved: constraints with wait_switch, roots and powers"
  },
  {
   "property": "C33",
   "status": "partial",
   "theorems": [
    "C33_unify_integer_partial",
    "C33_truncated_refuted"
   ],
   "note": "proved for 32-bit integers; refuted for larger ones, which are truncated"
  },
  {
   "property": "C34",
   "status": "partial",
   "theorems": [
    "C34_append",
    "C34_reverse",
    "C34_length",
    "C34_nth",
    "C34_memberchk",
    "C34_member",
    "C34_member_lost_refuted",
    "C34_member_wrong_refuted",
    "C34_memberchk_local_refuted"
   ],
   "note": "append/3, reverse/2, length/2, nth0/3 with a given index, memberchk/2 and member/2 on lists that do not end with a variable give exactly the solutions, in order; refuted for member/2 on partial lists (lost and wrong answers) and memberchk/2 with a local variable"
  },
  {
   "property": "C35",
   "status": "proved",
   "theorems": [
    "C35_enumerates",
    "C35_call",
    "C35_check",
    "C35_errors"
   ],
   "note": "after k resumptions of the choice point, with any execution above it in between, the answer is l+k, other variables are as at the call and a choice point is left just when it is not u; empty intervals fail; membership for integers; errors otherwise"
  },
  {
   "property": "C36",
   "status": "partial",
   "theorems": [
    "C36_findall_partial",
    "C36_actual",
    "C36_levels",
    "C36_exception_refuted",
    "C36_tail_refuted"
   ],
   "note": "findall collects exactly its solutions in order when exceptions leave no findall with solutions (C36_findall_partial); exact result in general (C36_actual); refuted with exceptions (C36_exception_refuted) and local tails (C36_tail_refuted)"
  },
  {
   "property": "C37",
   "status": "proved",
   "theorems": [
    "C37_group",
    "C37_answers",
    "C37_bagof",
    "C37_setof",
    "C37_keys",
    "C37_exception_refuted"
   ],
   "note": "Group and the answers of '$group_solutions' on the sorted list: bagof and setof partition the solutions by key, in key order; keys are made equal exactly when they are variants (C37_keys); reads a non-pair after an exception (C37_exception_refuted)"
  },
  {
   "property": "C38",
   "status": "partial",
   "theorems": [
    "C38_restored",
    "C38_survives",
    "C38_extend_refuted",
    "C38_growth_refuted"
   ],
   "note": "restored and survives proved for all histories whose element accesses do not grow automatic arrays; growth not undone and g_array_extend under g_assign not surviving are refuted"
  },
  {
   "property": "C39",
   "status": "partial",
   "theorems": [
    "C39_safe",
    "C39_values",
    "C39_assign",
    "C39_error",
    "C39_read",
    "C39_size",
    "C39_growth",
    "C39_extend",
    "C39_smaller_backtrackable_refuted",
    "C39_smaller_extend_refuted",
    "C39_index_refuted",
    "C39_nested_error_refuted"
   ],
   "note": "memory safety and kept elements for all histories with integer indexes, no smaller extend or backtrackable array, no erroneous nested array; each of these exceptions is refuted"
  },
  {
   "property": "C40",
   "status": "partial",
   "theorems": [
    "C40_inc_partial",
    "C40_inc_refuted",
    "C40_bits",
    "C40_tests"
   ],
   "note": "inc/dec are exact when the result is representable, refuted at the greatest integer (wraps without error); set/reset change exactly the bit (number modulo 61) and keep the tag; tests read it; finding the variable's word is not modelled"
  },
  {
   "property": "C41",
   "status": "partial",
   "theorems": [
    "C41_content",
    "C41_nine_refuted",
    "C41_peek",
    "C41_at_end",
    "C41_position",
    "C41_unget_end_refuted"
   ],
   "note": "every sequence of get/peek/unget with at most eight waiting characters gives the answers of the ideal input, for the three end of file actions; peek changes neither the next answer nor the counters; the counters are the position of the consumed text when only read characters are put back; refuted for a ninth unget and for putting back the end"
  },
  {
   "property": "C42",
   "status": "partial",
   "theorems": [
    "C42_position_partial",
    "C42_peek_end_refuted",
    "C42_end_refuted",
    "C42_restore_partial",
    "C42_line_column",
    "C42_line_column_refuted",
    "C42_seek",
    "C42_seek_refuted",
    "C42_write"
   ],
   "note": "true positions and offsets while reading, peeking and putting back; got positions are restored by setting them; set_stream_line_column succeeds just when the line and column exist; written text and positions of string streams; refuted: column after reading the end, offset after peeking the end, failure of set_stream_line_column, seek/4 after a peek"
  },
  {
   "property": "C43",
   "status": "partial",
   "theorems": [
    "C43_atom",
    "C43_quoted_converted",
    "C43_sequence",
    "C43_conversion_refuted",
    "C43_long_atom_refuted",
    "C43_nul_refuted"
   ],
   "note": "every atom written by writeq is read as one name token with the same characters; the tokens of any sequence of atoms, integers, variables and punctuation are read back; refuted with char conversions (unquoted), names over 1 MiB, NUL after 0; floats and operators are not modelled"
  },
  {
   "property": "C44",
   "status": "partial",
   "theorems": [
    "C44_hash",
    "C44_integer_partial",
    "C44_integer_sort_refuted",
    "C44_integer_64bit_refuted",
    "C44_negative_hash_refuted"
   ],
   "note": "hash tables proved; binary search on integers proved for keys in [-2^30,2^30), refuted outside (comparison truncated to int, cases read as int, negative keys hashed)"
  },
  {
   "property": "C45",
   "status": "proved",
   "theorems": [
    "C45_catch",
    "C45_only",
    "C45_exited",
    "C45_no_ball_refuted",
    "C45_uncaught_refuted",
    "C45_old_ball"
   ],
   "note": "the machine of catch.pl/throw.pl gives exactly the answers of a compositional semantics where an exception goes to the innermost catch whose goal it ends and whose pattern unifies, in the state of its call; exited catches are not active; not for the ball '$no_ball$' (C45_no_ball_refuted)"
  },
  {
   "property": "C46",
   "status": "proved",
   "theorems": [
    "C46_cut",
    "C46_soft_cut",
    "C46_choice_word"
   ],
   "note": "cut leaves exactly the choice points older than the clause entry; soft cut removes exactly one; encoding of B in a word"
  },
  {
   "property": "C47",
   "status": "partial",
   "theorems": [
    "C47_msb_culprit_refuted"
   ],
   "note": "the stated property is false: refuted by witness msb(-8)"
  },
  {
   "property": "C48",
   "status": "proved",
   "theorems": [
    "C48_contiguous_copy"
   ],
   "note": "contiguous copy relocates every cell of a saved term; result is a variant of fresh cells"
  },
  {
   "property": "C49",
   "status": "partial",
   "theorems": [
    "C49_history_partial",
    "C49_atom_refuted",
    "C49_delete_refuted",
    "C49_resize_refuted"
   ],
   "note": "exact after any history when nothing changes during the enumeration; refuted for changes between two solutions (NULL read, freed element read, freed array read)"
  },
  {
   "property": "C50",
   "status": "partial",
   "theorems": [
    "C50_new_atom_partial",
    "C50_full",
    "C50_prefix_refuted"
   ],
   "note": "proved when some length <= 1023 is free for the prefix; refuted for prefixes of 1023 characters or more (buffer overflow)"
  },
  {
   "property": "C51",
   "status": "partial",
   "theorems": [
    "C51_format_error_partial",
    "C51_format_error_refuted",
    "C51_long_directive_refuted"
   ],
   "note": "right only if the atom existed before; refuted in every state where it is new (name in an automatic array) and for directives of more than 2047 characters"
  },
  {
   "property": "C52",
   "status": "partial",
   "theorems": [
    "C52_atom_length_partial",
    "C52_long_refuted"
   ],
   "note": "proved below 65536 characters, refuted for every longer atom (16-bit field)"
  },
  {
   "property": "C53",
   "status": "partial",
   "theorems": [
    "C53_indexing_partial",
    "C53_determinism_partial",
    "C53_large_integer_refuted"
   ],
   "note": "proved for integer keys in [-2^30,2^30) (all other classes without restriction); refuted for larger integers"
  },
  {
   "property": "C55",
   "status": "partial",
   "theorems": [
    "C55_nothing_lost_partial",
    "C55_mark_refuted"
   ],
   "note": "every allocated clause is in the list of an allocated predicate; reclamation of everything erased is refuted (a mark left by an environment)"
  },
  {
   "property": "C56",
   "status": "partial",
   "theorems": [
    "C56_gets_partial",
    "C56_gets_refuted"
   ],
   "note": "exact: the line and a null when the line is shorter than the array, otherwise out of bounds; refuted for the way the debugger calls it"
  },
  {
   "property": "C57",
   "status": "proved",
   "theorems": [
    "C57_read_back",
    "C57_read_back_eof"
   ],
   "note": "all terms of atoms, integers, variables, lists and structures up to arity 255 (floats are not modelled), without char conversions, at most 2^20 distinct variables"
  },
  {
   "property": "C58",
   "status": "partial",
   "theorems": [
    "C58_read_total",
    "C58_var_name_refuted",
    "C58_escape_refuted"
   ],
   "note": "proved for texts below 1 MiB, with names below 1024 characters and at most 8 digits in an escape sequence, with fuel linear in the length (the depth of the C stack is not modelled); refuted for a variable name of 1024 characters and for an escape sequence of 9 digits"
  },
  {
   "property": "C59",
   "status": "partial",
   "theorems": [
    "C59_total",
    "C59_same_events",
    "C59_dead_argument_refuted",
    "C59_written_again_refuted",
    "C59_self_copy_refuted",
    "C59_max_used_refuted",
    "C59_max_used",
    "C59_limit_refuted"
   ],
   "note": "total and same events proved for code satisfying good_code (which the code of every clause of the C60 model does); MaxRegUsed is exact at levels 0 and 1; refuted: more than 256 registers may be given, MaxRegUsed is not the greatest register at level 2, and the meaning is lost without each condition of good_code"
  },
  {
   "property": "C60",
   "status": "partial",
   "theorems": [
    "C60_total",
    "C60_good_code",
    "C60_meaning",
    "C60_allocated"
   ],
   "note": "total, good code, and the meaning before and after the register allocation proved for all clauses of calls and inline C predicates; missing: the goals fail/0, =/2, arithmetic, cut and call_c, modules; the values are not addresses (unsafe variables are values like others), bindings made by goals are not modelled"
  },
  {
   "property": "C61",
   "status": "partial",
   "theorems": [
    "C61_safe",
    "C61_allocated",
    "C61_meta_refuted",
    "C61_equal_refuted",
    "C61_equal_conservative"
   ],
   "note": "proved before and after the register allocation for all clauses of calls and inline C predicates without '$mt'(M,Var) in the body; refuted for '$mt'(M,Var) (C61_meta_refuted) and for =/2 (C61_equal_refuted: X = Y with X temporary and Y permanent makes the later f(X) store a reference to the local stack in the heap); missing: a positive theorem for clauses with =/2, and the goals fail/0, arithmetic, cut and call_c"
  },
  {
   "property": "C62",
   "status": "partial",
   "theorems": [
    "C62_total",
    "C62_rule",
    "C62_body",
    "C62_then_refuted",
    "C62_if_lost_refuted",
    "C62_if_made_refuted",
    "C62_cut",
    "C62_cut_refuted",
    "C62_cut_push_refuted"
   ],
   "note": "proved (C62_total, C62_rule, C62_body) for all bodies in which no if-then-else has a then part made of [] and goals only, and no alternative is an if-then with [] around it; refuted outside: ({g} -> [] ; c) runs c although g holds when the rest list is given (C62_then_refuted), ([] -> [] ; c) loses the if-then-else (C62_if_lost_refuted), ([], (b -> c) ; d) becomes an if-then-else (C62_if_made_refuted); the head is not made more special by what follows a cut, except for [] and the pushback list (C62_cut, C62_cut_refuted, C62_cut_push_refuted)"
  },
  {
   "property": "C63",
   "status": "partial",
   "theorems": [
    "C63_clause",
    "C63_predicate",
    "C63_only",
    "C63_deterministic",
    "C63_arguments",
    "C63_optim_fail",
    "C63_soft_index_refuted"
   ],
   "note": "proved for clauses, predicates and continuations, with determinism and the arguments of the auxiliary predicates, on a machine which makes a choice point for each auxiliary predicate; refuted when the index on the first argument leaves the clause of a soft cut alone: (X = a *-> true ; X = b) called with X = a removes a choice point of the caller (C63_soft_index_refuted); missing: Module:Goal, the rewriting of predicates, goals with infinitely many answers or errors"
  },
  {
   "property": "C64",
   "status": "partial",
   "theorems": [
    "C64_left_out",
    "C64_same",
    "C64_effect_refuted",
    "C64_error_refuted"
   ],
   "note": "proved: a clause left out fails or raises an error before any call or cut (C64_left_out), and changes nothing when only unifications come before (C64_same); refuted: the effect (g_assign) or the error (is) of an inline goal before the unification is lost (C64_effect_refuted, C64_error_refuted); the instructions are an abstract machine with stated conditions"
  },
  {
   "property": "C65",
   "status": "partial",
   "theorems": [
    "C65_arg",
    "C65_arg_errors",
    "C65_functor",
    "C65_functor_errors",
    "C65_univ",
    "C65_univ_errors",
    "C65_univ_errors_end",
    "C65_univ_errors_term",
    "C65_functor_late_error_refuted",
    "C65_arg_32_refuted",
    "C65_univ_fd_refuted",
    "C65_functor_fd_refuted"
   ],
   "note": "proved when a long has 64 bits and the name is not an FD variable: solutions (C65_arg, C65_functor, C65_univ) and errors (C65_arg_errors, C65_functor_errors, C65_univ_errors, C65_univ_errors_end, C65_univ_errors_term); refuted: functor(a,X,X) raises type_error(integer,a) instead of failing, arg/3 reads outside of the term where an unsigned long has 32 bits, Y =.. [X] and functor(Y,X,0) with X an FD variable raise type_error(atomic); missing: the errors of functor/3 with a bound term, infinite lists (the loop does not end)"
  },
  {
   "property": "C66",
   "status": "partial",
   "theorems": [
    "C66_setarg",
    "C66_setarg_local_refuted",
    "C66_setarg_lost_refuted"
   ],
   "note": "proved when the new value is not an unbound variable of the local stack and no argument cell is an FD variable (C66_setarg); refuted: with an unbound local variable the heap refers to the local stack (C66_setarg_local_refuted); a value set with Undo = false is lost on backtracking after a setarg with Undo = true (C66_setarg_lost_refuted)"
  },
  {
   "property": "C67",
   "status": "partial",
   "theorems": [
    "C67_clause",
    "C67_continue",
    "C67_saved_position",
    "C67_buffer",
    "C67_wrapper",
    "C67_caller_refuted",
    "C67_register_refuted",
    "C67_permanent_refuted"
   ],
   "note": "proved for instructions whose registers, atoms and numbers fit (X registers below 256, y below 65536), any machine, no debugger (C67_clause, C67_continue, C67_saved_position, C67_buffer, C67_wrapper); refuted: the caller of an unknown predicate is reported with arity 0 on 64 bits (C67_caller_refuted), a clause with 255 arguments gives get_structure(g/1,256) whose byte-code reads X(0) (C67_register_refuted), y(65536) is taken for y(0) (C67_permanent_refuted)"
  },
  {
   "property": "C68",
   "status": "partial",
   "theorems": [
    "C68_arguments",
    "C68_arity_255_refuted"
   ],
   "note": "proved for at most 254 arguments (C68_arguments); refuted for 255 arguments: the debug flag is written into the register after the X registers, HB1 on x86_64 (C68_arity_255_refuted)"
  },
  {
   "property": "C69",
   "status": "partial",
   "theorems": [
    "C69_simplify",
    "C69_sound",
    "C69_complete",
    "C69_safe",
    "C69_errors",
    "C69_int_refuted"
   ],
   "note": "proved for any loader of arithmetic terms that satisfies load_ok (C69_simplify, C69_sound, C69_complete, C69_safe, C69_errors); refuted for integers that an int does not hold: 4294967296 is taken for 0 (C69_int_refuted)"
  },
  {
   "property": "C70",
   "status": "proved",
   "theorems": [
    "C70_bool_sound",
    "C70_bool_order",
    "C70_truth_sound",
    "C70_truth_exact",
    "C70_truth_starts"
   ],
   "note": "12 boolean primitives (C70_bool_sound, C70_bool_order) and 19 reified comparisons (C70_truth_sound, C70_truth_exact, C70_truth_starts); int arithmetic of the parameters is not bounded"
  },
  {
   "property": "C71",
   "status": "partial",
   "theorems": [
    "C71_indomain",
    "C71_order",
    "C71_pick",
    "C71_random",
    "C71_best_partial",
    "C71_best_refuted",
    "C71_cmp",
    "C71_labeling",
    "C71_labeling_mth",
    "C71_labeling_random"
   ],
   "note": "values: every method enumerates (C71_indomain, C71_order); variables: C71_pick, C71_random, C71_cmp; several variables: C71_labeling, C71_labeling_mth, C71_labeling_random; the chosen variable is the best one when the array is not packed (C71_best_partial), refuted for packed arrays: *res_elem is read after the packing (C71_best_refuted); domains with extra_cstr are left out"
  },
  {
   "property": "C72",
   "status": "partial",
   "theorems": [
    "C72_domain",
    "C72_reified",
    "C72_bounds_refuted",
    "C72_negative_refuted"
   ],
   "note": "proved for bounds in -(2^28-1)..2^28-1 and integers that are not negative (C72_domain, C72_reified); refuted for larger bounds (C72_bounds_refuted) and negative integers (C72_negative_refuted)"
  },
  {
   "property": "C73",
   "status": "partial",
   "theorems": [
    "C73_list",
    "C73_min_refuted"
   ],
   "note": "C73_list, for vectors below 2^28-1 and when the memory does not have INT_MIN at the field min, which is not set (C73_min_refuted)"
  },
  {
   "property": "C74",
   "status": "partial",
   "theorems": [
    "C74_all_different",
    "C74_i_to_v",
    "C74_v_to_i",
    "C74_var_i_to_v",
    "C74_var_v_to_i",
    "C74_write_refuted",
    "C74_mark_refuted",
    "C74_atmost",
    "C74_atleast",
    "C74_exactly",
    "C74_told"
   ],
   "note": "C74_all_different, C74_atmost, C74_atleast, C74_exactly, C74_told; fd_element (C74_i_to_v, C74_v_to_i) when the integers fit in a vector, else it writes outside of it (C74_write_refuted); the mark of its result is not set (C74_mark_refuted); fd_element_var: C74_var_i_to_v, C74_var_v_to_i"
  }
 ]
}