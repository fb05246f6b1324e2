{
 "claims": [
  {
   "property": "C01",
   "status": "proved",
   "theorems": [
    "C01_guru_dft",
    "C01_guru_split_dft",
    "C01_many_dft",
    "C01_plan_dft"
   ],
   "note": "every plan the modelled dft solvers can build (rank >= 1 loops, Cooley-Tukey with all twiddle policies, Rader, Bluestein, generic, buffered, indirect, rank-0 copies and transposes, dft-r2hc for rank 0); codelets are ideal kernels; strides must be sign-consistent (all input and output strides of a dimension non-zero with equal sign) when in place, see DESIGN.md"
  },
  {
   "property": "C02",
   "status": "proved",
   "theorems": [
    "C02_frame",
    "C02_frame_many"
   ],
   "note": ""
  },
  {
   "property": "C03",
   "status": "proved",
   "theorems": [
    "C03_new_array",
    "C03_new_array_split"
   ],
   "note": ""
  },
  {
   "property": "C04",
   "status": "proved",
   "theorems": [
    "C04_round_trip"
   ],
   "note": ""
  },
  {
   "property": "C05",
   "status": "proved",
   "theorems": [
    "C05_backward",
    "C05_backward_many"
   ],
   "note": ""
  },
  {
   "property": "C06",
   "status": "proved",
   "theorems": [
    "C06_pure"
   ],
   "note": ""
  },
  {
   "property": "C07",
   "status": "proved",
   "theorems": [
    "C07_safe_mulmod",
    "C07_MULMOD",
    "C07_power_mod"
   ],
   "note": "safe_mulmod, the MULMOD macro and power_mod, with every signed operation range-checked"
  },
  {
   "property": "C08",
   "status": "proved",
   "theorems": [
    "C08_prime_factors",
    "C08_generator"
   ],
   "note": "get_prime_factors (incl. the 16-entry array bound) and find_generator; termination included"
  },
  {
   "property": "C09",
   "status": "proved",
   "theorems": [
    "C09_first_divisor",
    "C09_is_prime",
    "C09_next_prime",
    "C09_factors_into",
    "C09_isqrt",
    "C09_choose_radix",
    "C09_modulo",
    "C09_isqrt_INT_MAX_refuted",
    "C09_first_divisor_top_refuted"
   ],
   "note": "bounds next to INT_MAX are necessary: two *_refuted theorems exhibit signed overflow there"
  },
  {
   "property": "C10",
   "status": "proved",
   "theorems": [
    "C10_plan_built",
    "C10_created_plan_built",
    "C10_wisdom_cannot_break",
    "C10_lookup_sound",
    "C10_lookup_complete"
   ],
   "note": "table level (PropWisdom): a lookup only returns a recorded solution licensed by the request; planner and API level (PropPlanner): every plan returned is one the solvers build for that very problem under the requested restrictions, whatever the tables contain"
  },
  {
   "property": "C11",
   "status": "proved",
   "theorems": [
    "C11_remembered",
    "C11_infeasible",
    "C11_created_is_blessed",
    "C11_kept",
    "C11_found_again"
   ],
   "note": "table level and planner level (re-planning does not search, measure or read the clock)"
  },
  {
   "property": "C12",
   "status": "proved",
   "theorems": [
    "C12_table_holds_history"
   ],
   "note": ""
  },
  {
   "property": "C13",
   "status": "proved",
   "theorems": [
    "C13_forget_wisdom",
    "C13_forget_accursed",
    "C13_creation_drops_accursed",
    "C13_forget_all"
   ],
   "note": ""
  },
  {
   "property": "C14",
   "status": "proved",
   "theorems": [
    "C14_failure_no_effect",
    "C14_only_exportable",
    "C14_terminates",
    "C14_api"
   ],
   "note": "any text, registry and state; C14_abort_possible and C14_overflow_possible exhibit the two texts kinds for which the C program ends instead of returning (a CK() on over-wide flags, overflow of a long)"
  },
  {
   "property": "C15",
   "status": "proved",
   "theorems": [
    "C15_merge",
    "C15_exact",
    "C15_stable"
   ],
   "note": "C15_exact needs that no record makes another superfluous; C15_merge is the general statement, C15_stable the second round trip"
  },
  {
   "property": "C16",
   "status": "proved",
   "theorems": [
    "C16_accepted",
    "C16_rejected",
    "C16_other_configuration"
   ],
   "note": "the digest is the RFC 1321 MD5 of the configuration bytes (C31)"
  },
  {
   "property": "C17",
   "status": "proved",
   "theorems": [
    "C17_wisdom_only",
    "C17_create"
   ],
   "note": "NULL without search or measurement if there is no feasible wisdom"
  },
  {
   "property": "C18",
   "status": "proved",
   "theorems": [
    "C18_scoped",
    "C18_timelimit"
   ],
   "note": "mkplan restores flags, thread count and wisdom state (except the BOGUS marker) for every set of solvers"
  },
  {
   "property": "C19",
   "status": "proved",
   "theorems": [
    "C19_no_leak",
    "C19_search_minimal",
    "C19_search_or_wisdom"
   ],
   "note": "no time limit; costs are integers; for every set of careful solvers"
  },
  {
   "property": "C20",
   "status": "proved",
   "theorems": [
    "C20_masks_fit",
    "C20_destroy_input",
    "C20_patience_ordered",
    "C20_planning_flags",
    "C20_patience_level",
    "C20_fallback",
    "C20_estimate"
   ],
   "note": ""
  },
  {
   "property": "C21",
   "status": "proved",
   "theorems": [
    "C21_range",
    "C21_unlimited",
    "C21_monotone",
    "C21_cast_exact"
   ],
   "note": "real-number model of the double arithmetic; the final cast is proved exact"
  },
  {
   "property": "C22",
   "status": "proved",
   "theorems": [
    "C22_cpy1d",
    "C22_cpy2d",
    "C22_cpy2d_tiled",
    "C22_tiledbuf_no_overrun",
    "C22_cpy2d_pair"
   ],
   "note": "all copy kernels incl. tiled ones, their buffers are never overrun; vl <= 512 for the tiled variants (the callers guarantee it)"
  },
  {
   "property": "C23",
   "status": "proved",
   "theorems": [
    "C23_transpose",
    "C23_transpose_tiled",
    "C23_tiledbuf_no_overrun"
   ],
   "note": "plain, tiled and tiled-with-buffers variants"
  },
  {
   "property": "C24",
   "status": "proved",
   "theorems": [
    "C24_toms513",
    "C24_toms513_any_move_size",
    "C24_gcd",
    "C24_cut",
    "C24_any_copy_plan"
   ],
   "note": "gcd, cut and TOMS 513 algorithms (the latter with its termination), plus every plan of any combination of rank-0 solvers"
  },
  {
   "property": "C25",
   "status": "proved",
   "theorems": [
    "C25_compress_contiguous",
    "C25_compress",
    "C25_identified",
    "C25_append_split",
    "C25_max_index",
    "C25_size"
   ],
   "note": ""
  },
  {
   "property": "C26",
   "status": "proved",
   "theorems": [
    "C26_inplace_locations",
    "C26_equal_strides_accepted"
   ],
   "note": "tensor-level check; the refusal itself is in the problem constructors modelled with the solvers"
  },
  {
   "property": "C27",
   "status": "proved",
   "theorems": [
    "C27_layout",
    "C27_r2c_layout",
    "C27_c2r_layout",
    "C27_inplace_rows"
   ],
   "note": "complex, r2c and c2r layouts"
  },
  {
   "property": "C28",
   "status": "proved",
   "theorems": [
    "C28_guru",
    "C28_many",
    "C28_null",
    "C28_null_many"
   ],
   "note": ""
  },
  {
   "property": "C29",
   "status": "proved",
   "theorems": [
    "C29_read_hex",
    "C29_int",
    "C29_int_min_refuted",
    "C29_hash_word",
    "C29_flags_word",
    "C29_percent_d",
    "C29_name",
    "C29_name_bounded",
    "C29_file_chunking",
    "C29_string_source"
   ],
   "note": "the most negative INT is excluded: C29_int_min_refuted shows its negation overflows"
  },
  {
   "property": "C30",
   "status": "proved",
   "theorems": [
    "C30_string_exact",
    "C30_file_exact"
   ],
   "note": ""
  },
  {
   "property": "C31",
   "status": "proved",
   "theorems": [
    "C31_md5",
    "C31_any_feeding"
   ],
   "note": ""
  },
  {
   "property": "C32",
   "status": "proved",
   "theorems": [
    "C32_contents",
    "C32_correct_table",
    "C32_correct_values",
    "C32_freed_when_unused",
    "C32_can_sleep",
    "C32_can_wake",
    "C32_ct_legal"
   ],
   "note": "tables over the reals (C33); linked lists as lists of addresses; assertions of the debug build are undefined behaviour in the model, so the theorems also show that they hold; requests are the legal ones (numerators below n in absolute value)"
  },
  {
   "property": "C33",
   "status": "proved",
   "theorems": [
    "C33_real_cexp",
    "C33_reduced_angle",
    "C33_cexp",
    "C33_rotate",
    "C33_table_size"
   ],
   "note": "exact real arithmetic with K2PI = 2*pi; n up to a quarter of the INT range"
  },
  {
   "property": "C34",
   "status": "proved",
   "theorems": [
    "C34_partition",
    "C34_one_per_thread"
   ],
   "note": "also the closed form for loopmax = nthr used by all solvers"
  },
  {
   "property": "C35",
   "status": "proved",
   "theorems": [
    "C35_deterministic",
    "C35_two_schedules_agree",
    "C35_concurrent_transforms",
    "C35_schedule_exists",
    "C35_sequential_plan",
    "C35_vector_loop",
    "C35_decimation_in_time",
    "C35_decimation_in_frequency"
   ],
   "note": "all interleavings of the pool and of several user threads; atomic actions are single memory accesses; programs of the blocks are arbitrary race-free programs that are correct alone"
  },
  {
   "property": "C36",
   "status": "proved",
   "theorems": [
    "C36_refines_fork_join",
    "C36_no_undefined_behaviour",
    "C36_no_deadlock",
    "C36_terminates",
    "C36_idle_workers",
    "C36_one_worker_per_block",
    "C36_cleanup",
    "C36_complete"
   ],
   "note": "any number of user threads, nested loops, all interleavings; sequentially consistent memory, atomic semaphores and mutexes"
  },
  {
   "property": "C37",
   "status": "proved",
   "theorems": [
    "C37_exactly_owned",
    "C37_no_undefined_behaviour",
    "C37_plans_stay",
    "C37_cleanup"
   ],
   "note": "for every sequence of legal calls; the one possible undefined operation (api/apiplan.c:150, a plan that cannot be made again) is stated in the theorem"
  },
  {
   "property": "C38",
   "status": "proved",
   "theorems": [
    "C38_allocated_memory",
    "C38_malloc",
    "C38_free",
    "C38_free_null",
    "C38_no_leak",
    "C38_stack_malloc",
    "C38_alignment_of",
    "C38_malloc_plain"
   ],
   "note": "the over-allocating allocator (WITH_OUR_MALLOC), all histories of a process; sizes with n + MIN_ALIGNMENT < 2^64 (the code wraps otherwise, see the Example)"
  },
  {
   "property": "C39",
   "status": "proved",
   "theorems": [
    "C39_guru_r2r",
    "C39_many_r2r",
    "C39_plan_r2r",
    "C39_plan_r2r_1d",
    "C39_null",
    "C39_inplace_transposed_refuted"
   ],
   "note": "exact reals; codelets are ideal kernels; solvers not in the model: dht-rader; in-place DCT/DST needs equal strides, C39_inplace_transposed_refuted exhibits the wrong plan otherwise"
  },
  {
   "property": "C40",
   "status": "proved",
   "theorems": [
    "C40_split_r2c",
    "C40_split_c2r",
    "C40_guru_r2c",
    "C40_guru_c2r",
    "C40_many_r2c",
    "C40_many_c2r",
    "C40_plan_dft_r2c",
    "C40_plan_dft_c2r",
    "C40_r2c_1d",
    "C40_c2r_1d",
    "C40_spectrum_hermitian",
    "C40_roundtrip",
    "C40_halfcomplex",
    "C40_halfcomplex_inverse",
    "C40_halfcomplex_roundtrip",
    "C40_null",
    "C40_inplace_dist_refuted"
   ],
   "note": "exact reals; codelets are ideal kernels; solvers not in the model: ct-hc2c; in place, rows must be equally spaced in both arrays: C40_inplace_dist_refuted exhibits a wrong result otherwise (rdft2-rdft, min_nbuf)"
  },
  {
   "property": "C41",
   "status": "proved",
   "theorems": [
    "C41_blocks",
    "C41_sum",
    "C41_default_block",
    "C41_guru",
    "C41_slabs",
    "C41_zero_refuted",
    "C41_full_output_block_refuted"
   ],
   "note": "C41_zero_refuted and C41_full_output_block_refuted exhibit the two corner cases; complex (not rdft2) sizes"
  },
  {
   "property": "C42",
   "status": "proved",
   "theorems": [
    "C42_schedule",
    "C42_exchange"
   ],
   "note": "all interleavings, all buffering decisions of MPI_Sendrecv"
  },
  {
   "property": "C43",
   "status": "proved",
   "theorems": [
    "C43_estimate_planner",
    "C43_estimate"
   ],
   "note": "planner and API"
  },
  {
   "property": "C44",
   "status": "proved",
   "theorems": [
    "C44_transpose"
   ],
   "note": "pairwise solver; the local transpositions are any rank-0 copy plans (C24)"
  },
  {
   "property": "C45",
   "status": "proved",
   "theorems": [
    "C45_generated_dft",
    "C45_generated_dft_in_bounds",
    "C45_settings_irrelevant",
    "C45_generated_roundtrip"
   ],
   "note": "Number.number is an exact real (50-digit rounding not modelled); exceptions and non-termination are None and are proved not to happen"
  },
  {
   "property": "C46",
   "status": "proved",
   "theorems": [
    "C46_notw",
    "C46_r2cf",
    "C46_r2cfII",
    "C46_r2cb",
    "C46_r2cbIII",
    "C46_r2r"
   ],
   "note": "the dag (list of stores) before the optimizer; exact reals; the -unitary option, which no codelet of the library uses, is modelled but excluded from the theorem"
  },
  {
   "property": "C47",
   "status": "proved",
   "theorems": [
    "C47_row_length",
    "C47_table_rows",
    "C47_twiddle",
    "C47_twidsq",
    "C47_hc2hc_dit",
    "C47_hc2hc_dif",
    "C47_hc2c_dit",
    "C47_hc2c_dif",
    "C47_hc2cdft_dit",
    "C47_hc2cdft_dif",
    "C47_is_kernel",
    "C47_simd_notw",
    "C47_simd_twiddle",
    "C47_log3_size1_refuted"
   ],
   "note": "the dag before the optimizer; exact reals; log3 needs n >= 2 (C47_log3_size1_refuted: for n = 1 the generator does not terminate), hc2cdft needs an even n (the generator pairs consecutive elements); gen_twidsq_c and gen_hc2cdft_c are not modelled"
  },
  {
   "property": "C48",
   "status": "proved",
   "theorems": [
    "C48_algsimp",
    "C48_computes",
    "C48_multiplicity_refuted",
    "C48_split_refuted"
   ],
   "note": "partial correctness: the statement is about runs that end (termination of the mutually recursive simplifiers is not claimed); exact reals; the randomised test is assumed sound; the two provisos on the run are recorded by a ghost bit and shown necessary by C48_multiplicity_refuted and C48_split_refuted; the network transposition of algsimp.ml is not part of this claim"
  },
  {
   "property": "C49",
   "status": "proved",
   "theorems": [
    "C49_transpose",
    "C49_round",
    "C49_algsimp",
    "C49_computes",
    "C49_right_constant_refuted",
    "C49_unshared_refuted"
   ],
   "note": "the dags of the two transpositions of a round are assumed linear in the written form (constant factor first) and to load each variable with one node: C49_right_constant_refuted and C49_unshared_refuted show that both are needed; that the simplifier always delivers such dags is not proved; when the loop stops (Stats.complexity) is not modelled; simplifier as in C48"
  },
  {
   "property": "C50",
   "status": "proved",
   "theorems": [
    "C50_alist",
    "C50_loads",
    "C50_once_refuted"
   ],
   "note": "exact arithmetic; the recursion of the code is modelled with fuel and shown to succeed; the transcendents CONJ, MULTI_A and MULTI_B are not in the expression type; C50_once_refuted records that an operation may be done twice (to_alist.ml:83), which is a matter of speed"
  },
  {
   "property": "C51",
   "status": "proved",
   "theorems": [
    "C51_order",
    "C51_codelet",
    "C51_type1_refuted",
    "C51_inline_loads_refuted"
   ],
   "note": "exact arithmetic; the loops of the code are modelled with fuel and shown to end; a codelet body is one iteration of its loop; -schedule-type 1 (C51_type1_refuted) and -inline-loads (C51_inline_loads_refuted) are excluded because the statement is false of the code there"
  },
  {
   "property": "C52",
   "status": "proved",
   "theorems": [
    "C52_text",
    "C52_codelet"
   ],
   "note": "exact arithmetic; the loops are modelled with fuel and shown to end; List.sort is any function that permutes its argument (the comparison of reorder is not an order); no buddies (gen_notw_c -store-multiple rewrites stores, annotate.ml:190-221, not modelled); the text is the list of instructions with the blocks around them, not characters"
  },
  {
   "property": "C53",
   "status": "proved",
   "theorems": [
    "C53_expression",
    "C53_text",
    "C53_codelet"
   ],
   "note": "exact arithmetic; text at the level of tokens: a variable with its subscript (T3, ri[WS(is, 1)]) and a constant (KP500000000) are one token; scalar codelets only (no SIMD: simd.ml prints those); unparse_expr_generic (-generic-arith, its macros are not in the repository) and the statements around the block (for loops, function header) are not modelled"
  },
  {
   "property": "C54",
   "status": "proved",
   "theorems": [
    "C54_notw",
    "C54_twiddle"
   ],
   "note": "exact arithmetic; scalar split codelets of sign -1 (gen_notw, gen_twiddle) as built by standard_optimizer; loop counters and pointer increments are modelled as the address of each variable in iteration i; `compiled` requires the optimized expressions to contain no complex product; the kernels of dft/*.c are those of C01/C08 (kdft, kdftw of DftModel.v); twidsq, hc2hc, hc2c and r2c codelets are covered up to their dags (C46, C47), not linked here"
  },
  {
   "property": "C55",
   "status": "proved",
   "theorems": [
    "C55_r2r",
    "C55_twidsq",
    "C55_hc2hc"
   ],
   "note": "exact arithmetic; gen_r2r (without -unitary), gen_twidsq and gen_hc2hc as built by standard_optimizer; modelled as in C54; for the cosine kinds without -threemult, with which gen_r2r would print the placeholder text of the missing imaginary parts; the kernels are kr2r (RdftModel.v), kdftwsq (DftModel.v) and khc2hc (HcModel.v), which the solver theorems use; hc2c and r2c codelets are covered up to their dags (C46, C47), not linked here"
  },
  {
   "property": "C56",
   "status": "proved",
   "theorems": [
    "C56_r2cb"
   ],
   "note": "exact arithmetic; gen_r2cb with and without -dft-III, sign 1, as built by standard_optimizer; modelled as in C54; the kernel is kr2c (RdftModel.v) with kinds HC2R and HC2RIII, which the solver theorems use; out of place only: when direct-r2c is used in place, Cr[j] and R0[j] share a location for the generator while R0 has stride 2*is, so the cells that coincide are not those the generator knows about, and the order of loads and stores then rests on the schedule of the shipped codelets, which is not modelled"
  },
  {
   "property": "C57",
   "status": "partial",
   "theorems": [
    "C57_r2cf_partial",
    "C57_dropped_partial",
    "C57_never_stored_partial",
    "C57_r2cf_whole_partial"
   ],
   "note": "C57_r2cf_partial: exact arithmetic; gen_r2cf with and without -dft-II, sign -1; modelled as in C54; the kernel is kr2c (RdftModel.v) with kinds R2HC and R2HCII; out of place only (see C56). Its hypothesis is that the optimized codelet does not store at the slot that is always 0. C57_r2cf_whole_partial has no such hypothesis: it is the whole way for gen_r2cf without -dft-II, every n, and with -dft-II for even n, with real multiplications (not -threemult), network transposition on (the default), and a first simplification whose randomised equality test (likely_equal, oracle.ml) does not take an expression that loads an input for one that loads none (apart; no condition with -no-randomized-cse); from C57_never_stored_partial and C57_dropped_partial, by GenConst.v: the algebraic simplifier keeps a store that loads nothing free of loads. Missing: that the randomised test is so, which is a matter of probability; and -dft-II with n odd, where the slot gets the imaginary part that the complex FFT of size 2n computes, not a literal 0 (the test 2i+1 = n in rdftII comes after i < n-i and is never reached)"
  }
 ]
}