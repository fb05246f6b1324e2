STATUS={
'C07':('proved','safe_mulmod, the MULMOD macro and power_mod, with every signed operation range-checked'),
'C08':('proved','get_prime_factors (incl. the 16-entry array bound) and find_generator; termination included'),
'C09':('proved','bounds next to INT_MAX are necessary: two *_refuted theorems exhibit signed overflow there'),
}
STATUS.update({
'C22':('proved','all copy kernels incl. tiled ones, their buffers are never overrun; vl <= 512 for the tiled variants (the callers guarantee it)'),
'C23':('proved','plain, tiled and tiled-with-buffers variants'),
'C25':('proved',''),
'C26':('proved','tensor-level check; the refusal itself is in the problem constructors modelled with the solvers'),
})
STATUS.update({
'C24':('proved','gcd, cut and TOMS 513 algorithms (the latter with its termination), plus every plan of any combination of rank-0 solvers'),
})

STATUS.update({
'C01':('proved','every plan the modelled dft solvers can build (rank >= 1 loops, Cooley-Tukey with all twiddle policies, Rader, Bluestein, generic, buffered, indirect, rank-0 copies and transposes, dft-r2hc for rank 0); codelets are ideal kernels; strides must be sign-consistent (all input and output strides of a dimension non-zero with equal sign) when in place, see DESIGN.md'),
'C02':('proved',''),'C03':('proved',''),'C04':('proved',''),'C05':('proved',''),'C06':('proved',''),
'C20':('proved',''),'C21':('proved','real-number model of the double arithmetic; the final cast is proved exact'),
'C27':('proved','complex, r2c and c2r layouts'),'C28':('proved',''),
})
STATUS.update({
'C10':('proved','table level: a lookup only returns a recorded solution licensed by the request, for every sequence of insertions; planner level in PropPlanner'),
'C11':('proved',''),'C12':('proved',''),'C13':('proved',''),
'C29':('proved','the most negative INT is excluded: C29_int_min_refuted shows its negation overflows'),
'C30':('proved',''),'C31':('proved',''),
})
STATUS.update({
'C10':('proved','table level (PropWisdom): a lookup only returns a recorded solution licensed by the request; planner and API level (PropPlanner): every plan returned is one the solvers build for that very problem under the requested restrictions, whatever the tables contain'),
'C11':('proved','table level and planner level (re-planning does not search, measure or read the clock)'),
'C13':('proved',''),
'C17':('proved','NULL without search or measurement if there is no feasible wisdom'),
'C18':('proved','mkplan restores flags, thread count and wisdom state (except the BOGUS marker) for every set of solvers'),
'C19':('proved','no time limit; costs are integers; for every set of careful solvers'),
'C37':('proved','for every sequence of legal calls; the one possible undefined operation (api/apiplan.c:150, a plan that cannot be made again) is stated in the theorem'),
'C43':('proved','planner and API'),
})
STATUS.update({
'C14':('proved','any text, registry and state; C14_abort_possible and C14_overflow_possible exhibit the two texts kinds for which the C program ends instead of returning (a CK() on over-wide flags, overflow of a long)'),
'C15':('proved','C15_exact needs that no record makes another superfluous; C15_merge is the general statement, C15_stable the second round trip'),
'C16':('proved','the digest is the RFC 1321 MD5 of the configuration bytes (C31)'),
})
STATUS.update({
'C41':('proved','C41_zero_refuted and C41_full_output_block_refuted exhibit the two corner cases; complex (not rdft2) sizes'),
'C42':('proved','all interleavings, all buffering decisions of MPI_Sendrecv'),
'C44':('proved','pairwise solver; the local transpositions are any rank-0 copy plans (C24)'),
})
STATUS.update({
'C34':('proved','also the closed form for loopmax = nthr used by all solvers'),
'C36':('proved','any number of user threads, nested loops, all interleavings; sequentially consistent memory, atomic semaphores and mutexes'),
})
STATUS.update({
'C35':('proved','all interleavings of the pool and of several user threads; atomic actions are single memory accesses; programs of the blocks are arbitrary race-free programs that are correct alone'),
})
STATUS.update({
'C38':('proved','the over-allocating allocator (WITH_OUR_MALLOC), all histories of a process; sizes with n + MIN_ALIGNMENT < 2^64 (the code wraps otherwise, see the Example)'),
})
STATUS.update({
'C32':('proved','tables over the reals (C33); linked lists as lists of addresses; assertions of the debug build are undefined behaviour in the model, so the theorems also show that they hold; requests are the legal ones (numerators below n in absolute value)'),
'C33':('proved','exact real arithmetic with K2PI = 2*pi; n up to a quarter of the INT range'),
})
STATUS.update({
'C39':('proved','exact reals; codelets are ideal kernels; solvers not in the model: dht-rader; in-place DCT/DST needs equal strides, C39_inplace_transposed_refuted exhibits the wrong plan otherwise'),
})
STATUS.update({
'C40':('proved','exact reals; codelets are ideal kernels; solvers not in the model: ct-hc2c; in place, rows must be equally spaced in both arrays: C40_inplace_dist_refuted exhibits a wrong result otherwise (rdft2-rdft, min_nbuf)'),
})
STATUS.update({
'C45':('proved','Number.number is an exact real (50-digit rounding not modelled); exceptions and non-termination are None and are proved not to happen'),
})
STATUS.update({
'C46':('proved','the dag (list of stores) before the optimizer; exact reals; the -unitary option, which no codelet of the library uses, is modelled but excluded from the theorem'),
})
STATUS.update({
'C47':('proved','the dag before the optimizer; exact reals; log3 needs n >= 2 (C47_log3_size1_refuted: for n = 1 the generator does not terminate), hc2cdft needs an even n (the generator pairs consecutive elements); gen_twidsq_c and gen_hc2cdft_c are not modelled'),
})
STATUS.update({
'C48':('proved','partial correctness: the statement is about runs that end (termination of the mutually recursive simplifiers is not claimed); exact reals; the randomised test is assumed sound; the two provisos on the run are recorded by a ghost bit and shown necessary by C48_multiplicity_refuted and C48_split_refuted; the network transposition of algsimp.ml is not part of this claim'),
})
STATUS.update({
'C49':('proved','the dags of the two transpositions of a round are assumed linear in the written form (constant factor first) and to load each variable with one node: C49_right_constant_refuted and C49_unshared_refuted show that both are needed; that the simplifier always delivers such dags is not proved; when the loop stops (Stats.complexity) is not modelled; simplifier as in C48'),
})
STATUS.update({
'C50':('proved','exact arithmetic; the recursion of the code is modelled with fuel and shown to succeed; the transcendents CONJ, MULTI_A and MULTI_B are not in the expression type; C50_once_refuted records that an operation may be done twice (to_alist.ml:83), which is a matter of speed'),
})
STATUS.update({
'C51':('proved','exact arithmetic; the loops of the code are modelled with fuel and shown to end; a codelet body is one iteration of its loop; -schedule-type 1 (C51_type1_refuted) and -inline-loads (C51_inline_loads_refuted) are excluded because the statement is false of the code there'),
})

STATUS.update({'C52':('proved','exact arithmetic; the loops are modelled with fuel and shown to end; List.sort is any function that permutes its argument (the comparison of reorder is not an order); no buddies (gen_notw_c -store-multiple rewrites stores, annotate.ml:190-221, not modelled); the text is the list of instructions with the blocks around them, not characters')})

STATUS.update({'C53':('proved','exact arithmetic; text at the level of tokens: a variable with its subscript (T3, ri[WS(is, 1)]) and a constant (KP500000000) are one token; scalar codelets only (no SIMD: simd.ml prints those); unparse_expr_generic (-generic-arith, its macros are not in the repository) and the statements around the block (for loops, function header) are not modelled')})

STATUS.update({'C54':('proved','exact arithmetic; scalar split codelets of sign -1 (gen_notw, gen_twiddle) as built by standard_optimizer; loop counters and pointer increments are modelled as the address of each variable in iteration i; `compiled` requires the optimized expressions to contain no complex product; the kernels of dft/*.c are those of C01/C08 (kdft, kdftw of DftModel.v); twidsq, hc2hc, hc2c and r2c codelets are covered up to their dags (C46, C47), not linked here')})
STATUS.update({'C55':('proved','exact arithmetic; gen_r2r (without -unitary), gen_twidsq and gen_hc2hc as built by standard_optimizer; modelled as in C54; for the cosine kinds without -threemult, with which gen_r2r would print the placeholder text of the missing imaginary parts; the kernels are kr2r (RdftModel.v), kdftwsq (DftModel.v) and khc2hc (HcModel.v), which the solver theorems use; hc2c and r2c codelets are covered up to their dags (C46, C47), not linked here')})
STATUS.update({'C56':('proved','exact arithmetic; gen_r2cb with and without -dft-III, sign 1, as built by standard_optimizer; modelled as in C54; the kernel is kr2c (RdftModel.v) with kinds HC2R and HC2RIII, which the solver theorems use; out of place only: when direct-r2c is used in place, Cr[j] and R0[j] share a location for the generator while R0 has stride 2*is, so the cells that coincide are not those the generator knows about, and the order of loads and stores then rests on the schedule of the shipped codelets, which is not modelled')})
STATUS.update({'C57':('partial','C57_r2cf_partial: exact arithmetic; gen_r2cf with and without -dft-II, sign -1; modelled as in C54; the kernel is kr2c (RdftModel.v) with kinds R2HC and R2HCII; out of place only (see C56). Its hypothesis that the optimized codelet does not store at the slot that is always 0 is proved by C57_dropped_partial, for gen_r2cf without -dft-II and with -dft-II for even n, from: real multiplications (not -threemult), network transposition on (the default), and the first simplification keeps a store that loads nothing free of loads. Missing: that it does so always; the randomised common-subexpression elimination (likely_equal) may in principle replace the constant 0 by an expression that it takes for 0. Also missing: -dft-II with n odd, where the slot gets the imaginary part that the complex FFT of size 2n computes, not a literal 0 (the test 2i+1 = n in rdftII comes after i < n-i and is never reached)')})
STATUS.update({'C57':('partial','C57_r2cf_partial: exact arithmetic; gen_r2cf with and without -dft-II, sign -1; modelled as in C54; the kernel is kr2c (RdftModel.v) with kinds R2HC and R2HCII; out of place only (see C56). Its hypothesis is that the optimized codelet does not store at the slot that is always 0. C57_r2cf_whole_partial has no such hypothesis: it is the whole way for gen_r2cf without -dft-II, every n, and with -dft-II for even n, with real multiplications (not -threemult), network transposition on (the default), and a first simplification whose randomised equality test (likely_equal, oracle.ml) does not take an expression that loads an input for one that loads none (apart; no condition with -no-randomized-cse); from C57_never_stored_partial and C57_dropped_partial, by GenConst.v: the algebraic simplifier keeps a store that loads nothing free of loads. Missing: that the randomised test is so, which is a matter of probability; and -dft-II with n odd, where the slot gets the imaginary part that the complex FFT of size 2n computes, not a literal 0 (the test 2i+1 = n in rdftII comes after i < n-i and is never reached)')})
