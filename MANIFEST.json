{
 "claims": [
  {
   "property": "C01",
   "status": "proved",
   "theorems": [
    "C01_fixnum_roundtrip",
    "C01_char_roundtrip",
    "C01_symbol_roundtrip",
    "C01_bool_roundtrip",
    "C01_is_bool_exact",
    "C01_immediates_disjoint",
    "C01_type_test_exact",
    "C01_heap_pointer_test",
    "C01_immediate_never_heap_pointer",
    "C01_heap_pointer_test_without_heap_refuted"
   ],
   "note": "All immediates round-trip, are disjoint, and are never taken for heap pointers once a heap exists; the variant without that proviso is refuted."
  },
  {
   "property": "C02",
   "status": "proved",
   "theorems": [
    "C02_fixnum_ring_ops",
    "C02_congruent_unique",
    "C02_fixnum_bit_ops",
    "C02_shifts",
    "C02_right_shift_is_logical_refuted",
    "C02_tests_min_max",
    "C02_nary_sums",
    "C02_nary_bit_ops",
    "C02_comparison_chains"
   ],
   "note": "Fixnum +, -, bit operations, shifts, tests, n-ary forms and comparison chains; \"logical\" right shift refuted"
  },
  {
   "property": "C03",
   "status": "proved",
   "theorems": [
    "C03_fixnum_mul_defined_iff",
    "C03_fixnum_mul_never_undefined_refuted",
    "C03_fxexpt"
   ],
   "note": "Multiplication is defined exactly when the int product does not overflow; \"never undefined\" is refuted with a witness."
  },
  {
   "property": "C04",
   "status": "proved",
   "theorems": [
    "C04_fixnum_division",
    "C04_division_by_zero_only_ub"
   ],
   "note": "Quotient/remainder laws for all fixnums with nonzero divisor; zero divisor is the only undefined case."
  },
  {
   "property": "C05",
   "status": "partial",
   "theorems": [
    "C05_boxing_unobservable_refuted",
    "C05_boxing_unobservable_partial",
    "C05_boxing_additive_partial"
   ],
   "note": "The full statement is refuted (an intermediate outside 24 bits); proved for expressions whose intermediate values stay in range and for additive expressions."
  },
  {
   "property": "C06",
   "status": "proved",
   "theorems": [
    "C06_collection_preserves_reachable",
    "C06_collection_unobservable"
   ],
   "note": "Any collection from any well-formed state (including the first one, growth, and in-place realloc) gives an isomorphic copy of exactly the reachable blocks; any mutator program over root cells runs as on a heap that is never collected."
  },
  {
   "property": "C07",
   "status": "proved",
   "theorems": [
    "C07_collection_frees_exactly_the_dead",
    "C07_freed_exactly_once_over_runs"
   ],
   "note": "A collection frees exactly the unreachable native blocks, each once; over whole runs every native object is either in the heap or was freed once."
  },
  {
   "property": "C08",
   "status": "proved",
   "theorems": [
    "C08_reservation_gives_room"
   ],
   "note": "hreserve leaves room for the request; a collection leaves the heap at least half empty beyond the request."
  },
  {
   "property": "C09",
   "status": "proved",
   "theorems": [
    "C09_compaction_preserves_the_window",
    "C09_reserve_gives_room",
    "C09_runs_agree_with_an_unbounded_window",
    "C09_reads_stay_inside_refuted",
    "C09_reads_inside_iff"
   ],
   "note": "window contents and room for all runs; the claim that compaction reads only inside the register file is refuted and its exact condition proved; that generated code stays within MAX_HOSTREGS is a hypothesis"
  },
  {
   "property": "C10",
   "status": "proved",
   "theorems": [
    "C10_symbols_are_their_names",
    "C10_symbols_keep_their_identity",
    "C10_symbol_objects",
    "C10_symbol_objects_unbounded_refuted",
    "C10_string_to_symbol_without_nul",
    "C10_string_to_symbol_refuted"
   ],
   "note": "any history of names without NUL, any hash; object identity up to 2^24 symbols; both limits are shown necessary by refutations"
  },
  {
   "property": "C11",
   "status": "proved",
   "theorems": [
    "C11_printing",
    "C11_read_print_roundtrip",
    "C11_string_to_fixnum_exactly",
    "C11_numerals_are_read",
    "C11_marked_numerals_are_read",
    "C11_result_in_range",
    "C11_only_numerals_refuted",
    "C11_only_numerals_libl_refuted"
   ],
   "note": "all radices and widths; strtol by the C standard; the converse claim (only numerals accepted) is refuted"
  },
  {
   "property": "C12",
   "status": "proved",
   "theorems": [
    "C12_list_p_decides_proper_lists"
   ],
   "note": "every heap and object; hypothesis: reachable objects carrying the pair tag are pair-sized blocks"
  },
  {
   "property": "C13",
   "status": "proved",
   "theorems": [
    "C13_length",
    "C13_reverse",
    "C13_reverse_in_place",
    "C13_append_shares_its_tail",
    "C13_list_tail",
    "C13_list_ref",
    "C13_last_pair",
    "C13_make_vector",
    "C13_vector_to_list",
    "C13_list_to_vector"
   ],
   "note": "primitives modelled after their hreserve; the reserved room is a hypothesis; length counts in an exact int"
  },
  {
   "property": "C14",
   "status": "proved",
   "theorems": [
    "C14_equal_is_structural_equality",
    "C14_denotes_unique",
    "C14_eqv",
    "C14_equal_on_nan_refuted"
   ],
   "note": "finite trees; decides structural equality unless both sides hold a NaN; refuted with NaN; strings are the characters up to the first NUL"
  },
  {
   "property": "C15",
   "status": "proved",
   "theorems": [
    "C15_memq",
    "C15_assq",
    "C15_memv",
    "C15_assv",
    "C15_member",
    "C15_assoc",
    "C15_search_for_nan_refuted"
   ],
   "note": "memq assq memv assv member assoc; NaN keys excluded, and the mismatch with eqv?/equal? for them is proved as a refutation"
  },
  {
   "property": "C16",
   "status": "proved",
   "theorems": [
    "C16_make_string",
    "C16_substring",
    "C16_copy",
    "C16_fill",
    "C16_ref_set",
    "C16_lists",
    "C16_string_to_list",
    "C16_append",
    "C16_append_fresh_refuted",
    "C16_literal",
    "C16_literal_nul_refuted"
   ],
   "note": "all strings, indices and argument lists; every access outside the allocated bytes is a distinct outcome excluded by the theorems; refuted: a literal with NUL is cut, string-append of one string is not a new string"
  },
  {
   "property": "C17",
   "status": "proved",
   "theorems": [
    "C17_up_to_nul",
    "C17_nul_free",
    "C17_full_contents_refuted",
    "C17_ci_ascii",
    "C17_ci_high_refuted"
   ],
   "note": "exact characterisation: lexicographic order up to the first NUL, hence of the full contents of NUL-free strings; refuted for strings containing NUL; case-insensitive predicates on ASCII, undefined behaviour beyond (refuted). equal? on strings calls the same strcmp (0.sf isequal)"
  },
  {
   "property": "C18",
   "status": "proved",
   "theorems": [
    "C18_write_then_read",
    "C18_lines_read_back",
    "C18_writing_is_injective",
    "C18_least_fixnum_refuted"
   ],
   "note": "every readable object (all fixnums but the least, booleans, report identifiers, 8-bit characters and strings, lists, vectors, boxes) before any delimiter, and sequences of lines; the least fixnum reads back as a procedure (refuted). Flonums not modelled"
  },
  {
   "property": "C19",
   "status": "proved",
   "theorems": [
    "C19_spacing_does_not_matter",
    "C19_two_spacings_same_datum",
    "C19_only_spacing"
   ],
   "note": "every tree of tokens, quotes, lists, dotted lists, vectors, boxes and #fload forms, every spacing (nested block comments, datum comments of any depth, line comments) and every reader whose extensions do not begin with a spacing, bracket or token character used by the text (the condition aside); here-strings are not covered"
  },
  {
   "property": "C20",
   "status": "proved",
   "theorems": [
    "C20_reading_returns",
    "C20_files_are_read",
    "C20_reading_may_not_return_refuted",
    "C20_reading_may_crash_refuted"
   ],
   "note": "all texts without #.( and without #read of an empty prefix, for every reader with such extensions; both exclusions are shown necessary: #read <x> as ... makes the reader call itself for ever (refuted), #.(terminator) makes it take the car of () (refuted)"
  },
  {
   "property": "C21",
   "status": "proved",
   "theorems": [
    "C21_accepted_lists_exactly",
    "C21_value_of_dotted_lists",
    "C21_wrong_bracket_rejected",
    "C21_dot_in_vector_rejected",
    "C21_only_legal_lists_refuted",
    "C21_dot_needs_a_datum_before_refuted"
   ],
   "note": "the claim is refuted as stated: (. a) reads as a, (a . b . c) reads as (a . b); the exact set of accepted item sequences and the value of each is proved, and wrong closing brackets and dots in vectors are rejected"
  },
  {
   "property": "C22",
   "status": "proved",
   "theorems": [
    "C22_literal_width",
    "C22_literal_only_numerals",
    "C22_compiled_constant"
   ],
   "note": "all signs, digit strings (any leading zeros, upper and lower case) and the four radices; exact converse; value of the compiled C constant for 24-bit literals"
  },
  {
   "property": "C23",
   "status": "proved",
   "theorems": [
    "C23_mangled_is_identifier",
    "C23_mangling_injective",
    "C23_labels_distinct",
    "C23_local_variables",
    "C23_kinds_disjoint",
    "C23_private_names_refuted"
   ],
   "note": "all names over the 256 characters; labels distinct given distinct timestamps below 2^33; names of lifted constants can coincide with user globals (refuted)"
  },
  {
   "property": "C24",
   "status": "proved",
   "theorems": [
    "C24_sort_by_is_a_stable_sort",
    "C24_stable_sort_unique"
   ],
   "note": "merge sort on mutable pairs, any weak order, any store; argument unchanged; the spec determines the result"
  },
  {
   "property": "C25",
   "status": "proved",
   "theorems": [
    "C25_ellipsis",
    "C25_bindings",
    "C25_expansion",
    "C25_rebuild",
    "C25_literals_refuted",
    "C25_tests",
    "C25_operations",
    "C25_dots"
   ],
   "note": "For every transformer that compile-syntax-rules accepts and every form and environment. The tests and conversions of boxes are specified on their own (C25_tests, C25_operations), as is what an ellipsis is (C25_dots); the conversions are those of the source, with the printing and reading of numbers left as parameters. A pattern with literals is not rebuilt (C25_literals_refuted: the literal is inserted by the template and so renamed)."
  },
  {
   "property": "C26",
   "status": "proved",
   "theorems": [
    "C26_renaming",
    "C26_inserted",
    "C26_fresh",
    "C26_siblings_refuted"
   ],
   "note": "Freshness holds for forms and environments whose numbers are below the counter, and the result meets that condition for the next counter. Numbers are unique along nested and successive expansions; expansions side by side start from the same counter and insert the same identifiers (C26_siblings_refuted). That the expander as a whole (expand-any, expand-body) keeps the condition on environments is not modelled."
  },
  {
   "property": "C27",
   "status": "proved",
   "theorems": [
    "C27_cached_queries_agree",
    "C27_cached_variable_queries_agree"
   ],
   "note": "memo tables with recursive (strategy) attribute functions, eviction and clearing; both one-key and two-key tables"
  },
  {
   "property": "C28",
   "status": "proved",
   "theorems": [
    "C28_free_vars_exact",
    "C28_use_counts",
    "C28_free_vars_suffice"
   ],
   "note": "Exactness is syntactic: the analysis lists each variable with a free occurrence once; the semantic half is that agreeing on them is enough for equal runs, for every meaning of primitives, stack and memory. A free variable in code that never runs influences nothing and is still listed."
  },
  {
   "property": "C29",
   "status": "proved",
   "theorems": [
    "C29_assignments_preserved",
    "C29_no_local_assignment",
    "C29_converts",
    "C29_names_distinct",
    "C29_effects_declared"
   ],
   "note": "Programs in which all bound variables are distinct (what parse-program produces); behaviours are compared up to the values of heap blocks and procedures, which are only seen through their shapes; the three box primitives are assumed to make, read and write a one-word block."
  },
  {
   "property": "C30",
   "status": "partial",
   "theorems": [
    "C30_meaning_preserved_partial",
    "C30_moved_read_refuted",
    "C30_moved_jump_refuted",
    "C30_moved_failure_refuted",
    "C30_crash_refuted",
    "C30_scope",
    "C30_converts",
    "C30_overrun"
   ],
   "note": "Meaning is preserved for settled programs (Spec_Letrec): an initial value that letrec* computes early is a procedure, a constant or a variable that never changes, all values of a letrec can be computed at any time; mutually recursive procedures, unreferenced bindings with effects and assigned variables are included. For all programs the claim is false of the code: four refutations, among them a program on which the pass takes car of the empty list. For every program: scopes, numbering and assignability are kept, and the pass succeeds exactly where its test for a letrec does not run over the end of a list. Missing: letrec* with other values that are moved, letrec with complex values."
  },
  {
   "property": "C31",
   "status": "proved",
   "theorems": [
    "C31_meaning_preserved",
    "C31_only_tail_calls",
    "C31_bounded_stack",
    "C31_converts",
    "C31_names_distinct",
    "C31_no_new_variables",
    "C31_late_continuation_refuted"
   ],
   "note": "Programs with distinct binders, no free local variables and no assignments to local variables (what assignment conversion leaves), in which the continuation expression of every withcc is a local variable, a lambda, a constant primitive such as ktrap(), or makes a call (all uses in the library are such; C31_late_continuation_refuted shows that others are evaluated too late). ktrap() is assumed to be a constant. Bounded stack: the number of waiting operations never exceeds the nesting depth of the converted text."
  },
  {
   "property": "C32",
   "status": "proved",
   "theorems": [
    "C32_extra_parameters",
    "C32_meaning_preserved",
    "C32_lifted_closed",
    "C32_unused_wrappers_refuted",
    "C32_flat",
    "C32_lifts"
   ],
   "note": "Programs with distinct binders and no free local variables. Variables of wrappers that are bound but not used do not count (C32_unused_wrappers_refuted: they may be unbound; the next pass drops them). Behaviour is preserved under the same comparison as in C29."
  },
  {
   "property": "C33",
   "status": "partial",
   "theorems": [
    "C33_meaning_preserved",
    "C33_scope",
    "C33_fine",
    "C33_capture_refuted",
    "C33_dropped_jump_refuted",
    "C33_moved_operand_refuted",
    "C33_choices"
   ],
   "note": "Meaning is preserved by runs that pass a check that follows the run (no capture, only quiet operands dropped, effects moved only past operands that touch nothing); scoping holds for every run, and C33_choices says for every operand which of the choices (drop, copy, move, keep) may be made. In general the claim is false of the code: three refutations, among them a captured variable in a program whose variables are all distinct. Missing: a condition on the program alone that makes every run careful."
  },
  {
   "property": "C34",
   "status": "proved",
   "theorems": [
    "C34_meaning_preserved",
    "C34_global_assert_refuted",
    "C34_total",
    "C34_well_formed",
    "C34_texts"
   ],
   "note": "Programs with no shadowing, no free local variables and no assignments to local variables, whose type assertions are not made of global variables (C34_global_assert_refuted shows that such a program may be folded wrongly). Primitives are assumed to keep what their texts say: fixnum(...) returns a fixnum, bool(is_T_$arg) tests for T, a value has one telling type; C34_texts characterises the texts the pass recognises."
  },
  {
   "property": "C35",
   "status": "proved",
   "theorems": [
    "C35_parallel_assignment",
    "C35_inline_operands_do_not_allocate"
   ],
   "note": "every environment, operand list, store and effect of primitives; both the in-place and the shifted-window jump"
  },
  {
   "property": "C36",
   "status": "proved",
   "theorems": [
    "C36_first_value",
    "C36_r7rs_once",
    "C36_chained_refuted"
   ],
   "note": "every order and nesting of force and of returns, including re-entered procedures; both the 0.sf and the r7rs (libl) promises; refuted: two promises chained by delay-force to the same promise need not end with its value"
  },
  {
   "property": "C37",
   "status": "proved",
   "theorems": [
    "C37_modules_run_once",
    "C37_same_base_name_refuted",
    "C37_load_order_refuted",
    "C37_declared",
    "C37_calls_declared_refuted"
   ],
   "note": "every load graph over files with distinct module names; refuted: two files of the same base name (the second is never loaded), order of independent loads (reversed), declarations of transitively loaded modules"
  },
  {
   "property": "C38",
   "status": "proved",
   "theorems": [
    "C38_truncated_division",
    "C38_floor_remainder",
    "C38_euclidean_division",
    "C38_exact_division",
    "C38_floor_quotient_refuted",
    "C38_floor_quotient_exactly",
    "C38_floor_pair_refuted"
   ],
   "note": "truncated, floor-remainder, Euclidean and exact division proved for all three library widths, checked and unchecked; floor-quotient is refuted (exact division with opposite signs) and its exact behaviour proved"
  },
  {
   "property": "C39",
   "status": "proved",
   "theorems": [
    "C39_gcd",
    "C39_expt",
    "C39_expt_checked",
    "C39_small_library_expt",
    "C39_sqrt",
    "C39_small_library_negative_expt",
    "C39_small_library_inverse_refuted"
   ],
   "note": "gcd, power (two libraries), integer square root, with explicit iteration bounds; a checked build never returns a wrong power"
  },
  {
   "property": "C40",
   "status": "proved",
   "theorems": [
    "C40_equal_decides_unfolding",
    "C40_bounded_stage",
    "C40_equivalence"
   ],
   "note": "Every finite heap of objects, circular or shared, every pair of words, any recursion bound above the number of objects. Blocks (also records and procedures) are compared field by field and flonums with ==, so a NaN equals only itself; that is part of the specification. Depth of the C stack and failure of calloc are not modelled."
  },
  {
   "property": "C41",
   "status": "proved",
   "theorems": [
    "C41_extents_are_respected",
    "C41_calls_are_determined"
   ],
   "note": "Every sensible sequence of dynamic-wind calls, returns, captures, throws and exits runs and calls exactly the thunks demanded by the tree of extents, which are determined. Thunks are any that come back to the extent they were called in."
  },
  {
   "property": "C42",
   "status": "proved",
   "theorems": [
    "C42_lambda",
    "C42_too_few_arguments",
    "C42_case_lambda",
    "C42_case_lambda_fails",
    "C42_apply",
    "C42_apply_case_lambda",
    "C42_argc_dispatch",
    "C42_void_continuation",
    "C42_apply_overruns",
    "C42_apply_any_list_refuted"
   ],
   "note": "Exact arguments for lambda with rest parameters, case-lambda, apply, the argument-count dispatcher and void continuations. The part \"for every argument count\" is refuted for apply: beyond 1024 registers it overruns the register buffer before it checks."
  },
  {
   "property": "C43",
   "status": "proved",
   "theorems": [
    "C43_rewrites_exactly",
    "C43_length",
    "C43_after_quote",
    "C43_register_moves",
    "C43_only_parentheses_refuted",
    "C43_context_refuted"
   ],
   "note": "all texts; exact set of rewritten pieces; same meaning for sequences of register moves; \"only parentheses change\" is refuted (self-moves become comments, context is ignored)"
  },
  {
   "property": "C44",
   "status": "proved",
   "theorems": [
    "C44_text_is_the_leaves",
    "C44_length_is_exact",
    "C44_copy_ends_at_the_end"
   ],
   "note": "string-forest-length and string-forest->string on all trees of strings, lists, vectors; contents of fresh string arbitrary"
  },
  {
   "property": "C45",
   "status": "proved",
   "theorems": [
    "C45_union",
    "C45_intersection",
    "C45_difference",
    "C45_adjoin",
    "C45_subset_and_equality",
    "C45_union_of_many"
   ],
   "note": "identifiers as integers compared by eq?"
  },
  {
   "property": "C46",
   "status": "proved",
   "theorems": [
    "C46_checked_arithmetic",
    "C46_unchecked_arithmetic_defined",
    "C46_checked_exact_division",
    "C46_checked_division"
   ],
   "note": "widths 24..30 bits; fxmul double comparison modelled by the exact product"
  },
  {
   "property": "C47",
   "status": "proved",
   "theorems": [
    "C47_prefix_and_suffix",
    "C47_first_occurrence",
    "C47_spans"
   ],
   "note": "all strings; every index proved in range"
  },
  {
   "property": "C48",
   "status": "proved",
   "theorems": [
    "C48_inline_meaning",
    "C48_inline_effects",
    "C48_repeated_test_refuted"
   ],
   "note": "effect-free expressions, and all others whose repeated tests are effect-free; refuted for a repeated test with an effect (evaluated once instead of twice)"
  },
  {
   "property": "C49",
   "status": "proved",
   "theorems": [
    "C49_meaning_preserved",
    "C49_hasty_refuted",
    "C49_stale_refuted",
    "C49_uses",
    "C49_scope",
    "C49_succeeds",
    "C49_found"
   ],
   "note": "Meaning is kept when parameters that get a type are sure to be used (gentle), tests are of local variables, and no operator is a degenerate let (neat: the earlier passes leave none; not shown necessary). Without gentle and without local tests the claim is false of the code: C49_hasty_refuted (a conversion at procedure entry reads a value that is not a flonum), C49_stale_refuted (the old value of a global variable is used). Conversions t_from_obj are taken to give the value back where they can be applied (bool_t is int in C: a heap pointer whose low 32 bits are 0 would read as false; not modelled; fixnums that overflow between operations are C05)."
  },
  {
   "property": "C50",
   "status": "proved",
   "theorems": [
    "C50_meaning",
    "C50_safe",
    "C50_compiled",
    "C50_grammar_refuted",
    "C50_argc",
    "C50_argc_refuted",
    "C50_order_refuted",
    "C50_letrec_refuted"
   ],
   "note": "For programs in which no letrec is without bindings (the macroexpander makes none; otherwise false, C50_letrec_refuted) and no call has 1000 operands (otherwise the check of the number of arguments is wrong, C50_argc_refuted). A global operator of a call with 5 or more operands is read after the operands, other operators before (C50_order_refuted says that this cannot be replaced by one order). Exactly the language is not what is compiled: C50_compiled gives the exact grammar, C50_grammar_refuted a form outside of the language. Pairs are immutable, procedures have no identity, primitives do not call procedures (no apply, no call/cc) and check their arguments themselves."
  },
  {
   "property": "C51",
   "status": "partial",
   "theorems": [
    "C51_meaning_partial",
    "C51_scope_refuted",
    "C51_early_refuted",
    "C51_private_rec_refuted",
    "C51_terminates_refuted",
    "C51_stack_refuted",
    "C51_stack"
   ],
   "note": "Meaning is kept for programs of which no function is moved to the C stack, if no variable is read before it is assigned, definitions found in the bodies of lets mention no local variables, and no private constant is a straight recursive procedure. Each of the three conditions is needed, the claim is false of the code without it: C51_early_refuted, C51_scope_refuted (a variable is put where it is not bound), C51_private_rec_refuted (the assignment is dropped although it is used). lifted says that the private constants come first, each after those it mentions, as parse-program makes them (3.sf 735-756). Identifiers with the same symbol are the same C variable (storage). The analysis can go on for ever (C51_terminates_refuted), and a function moved to the C stack can contain calls that cannot be compiled (C51_stack_refuted: the compiler stops with an error on a correct program). C51_stack: it does not in programs that start with their definitions, if simple definitions mention no later variables (forward). What functions on the C stack do is C58; joining it with C51_meaning_partial is missing."
  },
  {
   "property": "C52",
   "status": "proved",
   "theorems": [
    "C52_meaning_preserved",
    "C52_succeeds"
   ],
   "note": "C52_succeeds: programs of the form given by compiles get code. C52_meaning_preserved: for programs as lambda-lift and unbox-values leave them (ready). The C operands of one operation are computed one after another in any order; C also allows their parts to be interleaved, which is not modelled. Conversions to C types are taken to give the value back or fail, and boxing C values again is not modelled. Registers and heap have no limit here (the reserve is C08 and C09). What the texts of operations do is a parameter."
  },
  {
   "property": "C53",
   "status": "partial",
   "theorems": [
    "C53_operands",
    "C53_tame_partial",
    "C53_refuted"
   ],
   "note": "C53_operands: statement operations, closures and jumps never get old values. The full claim is false of the code (C53_refuted): cg-cexp? (7.sf:446-459) does not ask operands of C expressions to be gc-safe, so (write-string (symbol->string s) (open-output-file f)) is compiled to one C expression in which both operands allocate; the first one can be freed, and both change hp unsequenced. C53_tame_partial: it holds if C expressions of two or more operands have no operands that allocate. Boxing of C values inside of C expressions is not modelled."
  },
  {
   "property": "C54",
   "status": "proved",
   "theorems": [
    "C54_statements",
    "C54_runs",
    "C54_tables"
   ],
   "note": "C54_statements, C54_runs, C54_tables. Globals are told apart by their identifiers; that different ones have different C names is C23. Whether the collector updates all of the table is C07/C08."
  },
  {
   "property": "C55",
   "status": "proved",
   "theorems": [
    "C55_sort",
    "C55_cases"
   ],
   "note": "C55_sort, C55_cases. Lists are not changed in place in the model. That code refers to a closure by the number that lookup-curry-case-no gives is not part of the code model of C52, where labels stand for themselves; C55 is what makes that simplification right."
  },
  {
   "property": "C56",
   "status": "partial",
   "theorems": [
    "C56_declarations_partial",
    "C56_comments_partial",
    "C56_refuted",
    "C56_labels_refuted"
   ],
   "note": "C56_declarations_partial, C56_comments_partial: true for names without the two characters that end a comment (after joined lines). C56_refuted, C56_labels_refuted: false of the code for the symbol |a*/b|; the source has a Fixme about it at 7.sf:653. Trigraphs are left out; that c-format makes the texts of declarations is C57_declarations."
  },
  {
   "property": "C57",
   "status": "proved",
   "theorems": [
    "C57_format",
    "C57_counts",
    "C57_words",
    "C57_declarations",
    "C57_void_refuted",
    "C57_eleven_refuted"
   ],
   "note": "C57_format, C57_counts, C57_words, C57_declarations. Loops may have at most ten operands in their body (C57_eleven_refuted: with eleven the code stops with an error, because a finished loop is skipped with ten dummy operands), and no C type may have a name that ends in _void (C57_void_refuted: its value is thrown away); both are stated as hypotheses and neither occurs in the sources. Nested loops are not covered."
  },
  {
   "property": "C58",
   "status": "partial",
   "theorems": [
    "C58_stack",
    "C58_labels_partial",
    "C58_labels_refuted",
    "C58_succeeds",
    "C58_tail",
    "C58_calls_partial",
    "C58_calls_refuted",
    "C58_loops_partial"
   ],
   "note": "C58_stack: whatever the C function returns, the Scheme function may return, for the functions of the form s_function (the form the analysis accepts, with letrecs and loops in return position only; the generator is modelled for other positions up to labels that leave the letrec). C variables start with any value; operands are computed in any order, one after another. C58_labels_partial: jumps have labels in functions without loops; C58_loops_partial: also in functions whose loops jump only to themselves. C58_labels_refuted: false of the code for (define (f x) (let loop ([i x]) (if i (f i) (loop x)))): cg-contains-tail-call? does not look into loops, so the label of f is not written and the C compiler stops. Missing: that the C function returns whenever the Scheme function does; names of labels and variables in C. C58_succeeds: the generator gives code for every function of this form. C58_tail: no statement returns the value of a call, so tail calls do not let the C stack grow. C58_calls_partial: the C code calls only itself. C58_calls_refuted: false of the code for (define (f x) (begin (letrec ([g (lambda (y) (g y))]) x) x)), which the analysis accepts: the C code calls a function for g that does not exist."
  }
 ]
}