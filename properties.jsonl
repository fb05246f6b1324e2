{"id": "C01", "title": "Any complex-DFT plan computes the DFT", "statement": "Whatever plan fftw_plan_dft / plan_many_dft / plan_guru_dft ends up with, executing it leaves in the output array exactly the documented unnormalised multi-dimensional DFT Y[k1..kd] = sum_j X[j1..jd] exp(-2*pi*i*(j1 k1/n1+...+jd kd/nd)) of the values the input array held before, independently for every index of the howmany dimensions.", "quantifier": "every rank, every list of sizes and strides, every howmany tensor, in-place or out-of-place, every tree of sub-plans the solvers can compose, every input content (exact arithmetic)", "why_tests_cant": "the set of sizes, strides and plan trees is infinite; bench/check.pl samples a few hundred sizes and only ever sees the one plan the planner happened to pick", "anchors": ["dft/ct.c:applicable0,mkplan,apply_dit,apply_dif", "dft/vrank-geq1.c", "dft/rank-geq2.c", "dft/rader.c", "dft/bluestein.c", "dft/generic.c", "dft/indirect.c", "dft/buffered.c", "dft/dftw-generic.c", "dft/nop.c", "rdft/rank0.c", "rdft/dft-r2hc.c"]}
{"id": "C02", "title": "Executing a plan touches nothing but the output (and, if allowed, the input)", "statement": "Execution writes only the locations of the output array described by the plan's sizes/strides; if the plan was made with FFTW_PRESERVE_INPUT and is out-of-place the input array is unchanged as well. Padding between elements, other arrays and other vectors are never modified.", "quantifier": "every plan, every memory content, every address outside the described locations", "why_tests_cant": "a test can compare a few guard words; it cannot look at all addresses for all plans", "anchors": ["dft/indirect.c:applicable0", "dft/rank-geq2.c:applicable", "dft/ct.c:applicable0", "dft/buffered.c", "dft/vrank-geq1.c"]}
{"id": "C03", "title": "New-array execute", "statement": "fftw_execute_dft(p,in2,out2) on arrays with the same in-place/out-of-place relation as the planning arrays computes the same transform of in2 into out2; nothing depends on the addresses used for planning.", "quantifier": "every plan and every pair of replacement arrays with the same in-placeness", "why_tests_cant": "requires quantification over all addresses", "anchors": ["api/execute-dft.c:execute_dft", "kernel/align.c"]}
{"id": "C04", "title": "Forward then backward multiplies by n", "statement": "A forward transform followed by the backward transform of the same size returns the input multiplied by the product of the sizes, for any plans for the two.", "quantifier": "every size, every input, every two plans", "why_tests_cant": "analytic identity over all sizes; tests sample sizes and tolerances", "anchors": ["doc/reference.texi", "kernel/extract-reim.c", "dft/ct.c"]}
{"id": "C05", "title": "FFTW_BACKWARD is the conjugate-sign transform", "statement": "A plan created with sign=+1 computes sum_j X_j exp(+2*pi*i*jk/n), although internally only the sign -1 transform exists: the library swaps the real and imaginary pointers.", "quantifier": "every size, sign, strides, input", "why_tests_cant": "needs to hold for all plans and inputs", "anchors": ["kernel/extract-reim.c:extract_reim", "api/apiplan.c:mkapiplan", "api/execute-dft.c:execute_dft", "kernel/ifftw.h:FFT_SIGN"]}
{"id": "C06", "title": "Execution is a pure function of the input", "statement": "The output of executing a plan depends only on the input array's contents and not on what uninitialised work buffers, the old output array or earlier executions contained.", "quantifier": "every plan, every pre-state of every other memory location", "why_tests_cant": "tests run with whatever malloc returned", "anchors": ["dft/buffered.c:apply", "dft/rader.c:apply", "dft/bluestein.c:apply", "dft/dftw-genericbuf.c:apply"]}
{"id": "C07", "title": "Modular multiplication and powers never overflow", "statement": "For every modulus representable as INT and every reduced pair x,y the modular product used for primitive roots is x*y mod p and no intermediate result leaves the INT range; modular powers likewise equal n^m mod p.", "quantifier": "all p <= INT_MAX, all 0<=x,y<p, all exponents m>=0", "why_tests_cant": "2^62+ inputs; overflow shows only at extreme moduli", "anchors": ["kernel/primes.c:safe_mulmod,power_mod", "kernel/ifftw.h:MULMOD"]}
{"id": "C08", "title": "Rader permutation really is a permutation", "statement": "For every prime size p the generator found by the library is a primitive root, so the powers of it enumerate 1..p-1 each exactly once; p-1 is factored correctly with at most the reserved number of distinct factors.", "quantifier": "all primes p", "why_tests_cant": "infinitely many primes; a wrong root would corrupt only certain sizes", "anchors": ["kernel/primes.c:find_generator,get_prime_factors,X(find_generator)", "dft/rader.c:mkomega,apply"]}
{"id": "C09", "title": "Prime tests, divisors and radix choices", "statement": "first_divisor returns the smallest prime factor, is_prime decides primality exactly, next_prime the least prime >= n, isqrt the floor square root, factors_into the exact smoothness predicate, and choose_radix always returns 0 or a divisor r of n (with the documented meaning of r<0: exact square root times).", "quantifier": "all n >= 1, all radix parameters", "why_tests_cant": "infinite domain, algorithms with early exits", "anchors": ["kernel/primes.c:first_divisor,is_prime,next_prime,isqrt,factors_into,factors_into_small_primes,choose_radix,modulo"]}
{"id": "C10", "title": "Wisdom lookups are sound", "statement": "A wisdom hit for a problem returns only a record that was stored for a problem with the same signature and whose flags license its reuse for the request (a feasible record found with at least the request's hard restrictions and at most its impatience; an infeasible record only with fewer restrictions and no more remaining time).", "quantifier": "every sequence of insertions, growth, forgetting and lookups, every hash collision pattern", "why_tests_cant": "depends on the whole history and collision pattern of an open-addressing table", "anchors": ["kernel/planner.c:subsumes,htab_lookup,hlookup,hinsert"]}
{"id": "C11", "title": "Recorded wisdom is found again", "statement": "After a record is stored, a lookup with the same signature and the same flags succeeds and yields a record that subsumes the request, whatever else is stored afterwards without subsuming it and however often the table is grown.", "quantifier": "every table state reachable by any sequence of operations", "why_tests_cant": "history- and collision-dependent", "anchors": ["kernel/planner.c:hinsert,insert0,hinsert0,rehash,hgrow"]}
{"id": "C12", "title": "The wisdom table never loops, overflows or loses entries", "statement": "Every probe sequence terminates (there is always a free slot when inserting, the probe increment visits every slot), the element count equals the number of live entries, and growing keeps exactly the live set.", "quantifier": "every reachable table state", "why_tests_cant": "termination over all hash values", "anchors": ["kernel/planner.c:h1,h2,addmod,nextsz,minsz,rehash,hgrow,fill_slot,kill_slot"]}
{"id": "C13", "title": "Forgetting wisdom", "statement": "fftw_forget_wisdom removes every record; the weaker internal forget after planning removes exactly the records not on the path of the returned plan and keeps all blessed ones usable.", "quantifier": "every reachable table state", "why_tests_cant": "history-dependent", "anchors": ["kernel/planner.c:forget,htab_destroy,mkhashtab", "api/forget-wisdom.c", "api/apiplan.c:mkapiplan"]}
{"id": "C14", "title": "Failed wisdom import changes nothing", "statement": "If importing wisdom fails at any byte - wrong preamble, wrong configuration signature, unknown solver, malformed number, premature end - the accumulated (exportable) wisdom, and everything else in the planner, is exactly what it was before; import of any text ends.", "quantifier": "every byte string, every prior wisdom, every failure point", "why_tests_cant": "arbitrary input bytes and failure positions", "anchors": ["kernel/planner.c:imprt", "kernel/scan.c"]}
{"id": "C15", "title": "Wisdom export/import round trip", "statement": "Exported text is accepted by any planner with the same registered solvers, whatever follows it in the file; importing adds only records of the text, and (unless the two planners contradict each other) afterwards exactly those requests are answered that either could answer. Into an empty planner the import reproduces exactly the exported set of records (signature, flags, time-limit class, solver) if none of them makes another superfluous; a second round trip is always exact.", "quantifier": "every set of records, every solver registry, every file/stream chunking", "why_tests_cant": "all record contents and table layouts", "anchors": ["kernel/planner.c:exprt,imprt", "kernel/print.c", "kernel/scan.c"]}
{"id": "C16", "title": "Wisdom from a different configuration is rejected", "statement": "Import succeeds only if the text carries this library's preamble and the MD5 digest of the importing library's configuration (precision, names and numbers of all solvers); otherwise it fails without effect. Wisdom exported under a different solver set is therefore only accepted if MD5 collides.", "quantifier": "every input text and solver registry", "why_tests_cant": "all inputs", "anchors": ["kernel/planner.c:signature_of_configuration,imprt"]}
{"id": "C17", "title": "FFTW_WISDOM_ONLY never plans from scratch", "statement": "With FFTW_WISDOM_ONLY a plan is returned only if wisdom for the problem is present, and no solver search is run otherwise (result NULL).", "quantifier": "every wisdom state, every problem", "why_tests_cant": "history-dependent", "anchors": ["kernel/planner.c:mkplan", "api/apiplan.c:mkplan0,mkplan,mkapiplan"]}
{"id": "C18", "title": "Planner flags are dynamically scoped", "statement": "Whatever solvers do recursively - changing flags, failing, timing out - the planner's flags, nthr and wisdom state after a planning call are those before it, so an outer plan is never constrained by an inner solver's settings.", "quantifier": "all recursion trees of solver invocations", "why_tests_cant": "arbitrary recursion", "anchors": ["kernel/planner.c:invoke_solver,mkplan,search,search0", "kernel/ifftw.h:mkplan_f_d,mkplan_d"]}
{"id": "C19", "title": "The search returns a cheapest candidate and never one that is unusable", "statement": "Without a time limit, the plan chosen by a search has minimal estimated/measured cost among all candidate solvers that produced a plan, is NULL only if every candidate failed, and all losing plans are destroyed.", "quantifier": "all candidate lists and cost assignments", "why_tests_cant": "all schedules of solver outcomes", "anchors": ["kernel/planner.c:search0,search,evaluate_plan"]}
{"id": "C20", "title": "Flag mapping is consistent", "statement": "For every combination of API flags the planner's lower/upper impatience masks satisfy l subset of u, both fit the 20-bit fields, FFTW_PRESERVE_INPUT forbids and FFTW_DESTROY_INPUT allows input destruction, ESTIMATE/MEASURE/PATIENT/EXHAUSTIVE are ordered (more patience never adds restrictions), and FFTW_ESTIMATE never measures.", "quantifier": "all 2^32 flag words", "why_tests_cant": "combinatorially many flag words", "anchors": ["api/mapflags.c:mapflags,map_flags"]}
{"id": "C21", "title": "Time limits map monotonically", "statement": "The time limit is encoded in 9 bits: negative means unlimited (0), larger limits never map to more impatience, and the result always fits.", "quantifier": "all real time limits", "why_tests_cant": "continuous domain", "anchors": ["api/mapflags.c:timelimit_to_flags"]}
{"id": "C22", "title": "Multi-dimensional copies copy exactly", "statement": "Each of the rank-0/1/2 copy kernels (plain, input- or output-ordered, tiled, tiled with buffer, interleaved pair) stores for every index the input element at the corresponding output location, provided the input and output locations do not overlap, and writes nowhere else; the tile recursion visits every index exactly once and never overruns its fixed-size buffer.", "quantifier": "all sizes, strides, vector lengths", "why_tests_cant": "tiling corner cases for all sizes/strides", "anchors": ["kernel/cpy1d.c", "kernel/cpy2d.c", "kernel/cpy2d-pair.c", "kernel/tile2d.c", "kernel/tile2d.c:compute_tilesz"]}
{"id": "C23", "title": "In-place square transposition", "statement": "The in-place square transpose (plain, tiled, tiled with two buffers) swaps element (i,j) with (j,i) for every pair, for vector elements too.", "quantifier": "all n, strides, vector length", "why_tests_cant": "tiling recursion for all sizes", "anchors": ["kernel/transpose.c:transpose,transpose_tiled,transpose_tiledbuf"]}
{"id": "C24", "title": "In-place non-square transposition", "statement": "The gcd, cut and cycle-following in-place transpose algorithms turn an n x m row-major matrix of vl-vectors into its m x n transpose.", "quantifier": "all n, m, vl", "why_tests_cant": "cycle structure differs for every (n,m)", "anchors": ["rdft/vrank3-transpose.c:apply_gcd,apply_cut,apply_toms513,transpose_toms513"]}
{"id": "C25", "title": "Problem canonicalisation preserves meaning", "statement": "Removing unit dimensions, sorting and merging contiguous dimensions leaves the set of (input offset, output offset) pairs, with multiplicity, unchanged, so two guru problems that FFTW identifies perform the same data movement.", "quantifier": "all tensors", "why_tests_cant": "all ranks and strides", "anchors": ["kernel/tensor7.c:tensor_compress,tensor_compress_contiguous,compare_by_istride,tensor_inplace_locations", "kernel/tensor7.c:tensor_split", "kernel/tensor5.c:tensor_append"]}
{"id": "C26", "title": "In-place problems whose input and output locations differ are refused", "statement": "If an in-place problem is accepted, the set of addresses read equals the set of addresses written; otherwise no plan is returned.", "quantifier": "all in-place tensors", "why_tests_cant": "all strides", "anchors": ["kernel/tensor7.c:tensor_inplace_locations", "dft/problem.c:mkproblem_dft", "kernel/problem.c:mkproblem_unsolvable"]}
{"id": "C27", "title": "Row-major layouts are the documented ones", "statement": "In the basic and advanced interfaces element (i0,..,id-1) of transform m lives at m*dist + stride*(((i0*e1+i1)*e2+..)+id-1) with the embedding e (nembed or n, with the r2c padding in the last dimension).", "quantifier": "all ranks, sizes, embeds, strides", "why_tests_cant": "all ranks", "anchors": ["api/mktensor-rowmajor.c:mktensor_rowmajor", "api/plan-many-dft.c", "api/rdft2-pad.c"]}
{"id": "C28", "title": "Illegal arguments yield NULL, legal ones are accepted", "statement": "Planner entry points return NULL exactly when rank<0, howmany<0 or a size is non-positive (advanced), and for guru when a size is negative/rank invalid; no plan is created and no memory is read through the arguments in that case.", "quantifier": "all argument values", "why_tests_cant": "all values", "anchors": ["api/plan-guru-dft.h", "kernel/tensor9.c:tensor_kosherp", "api/mktensor-rowmajor.c:many_kosherp", "api/mktensor-iodims.h"]}
{"id": "C29", "title": "Wisdom text numbers and names parse back", "statement": "For every integer, name (up to the documented maximal length) and 32-bit hash the library's printer and scanner are inverse, independent of where the text is split across reads.", "quantifier": "all INT values, all 32-bit words, all names", "why_tests_cant": "all values", "anchors": ["kernel/print.c:putint,putulong", "kernel/scan.c:getlong,mygets,vscan"]}
{"id": "C30", "title": "Exporting wisdom to a string allocates exactly enough", "statement": "fftw_export_wisdom_to_string's counting pass and writing pass produce the same number of characters, so the buffer is never overrun and is NUL terminated.", "quantifier": "all wisdom states", "why_tests_cant": "all contents", "anchors": ["api/export-wisdom-to-string.c", "api/mkprinter-str.c"]}
{"id": "C31", "title": "MD5 streaming is MD5", "statement": "The incremental hash used for problem signatures equals MD5 of the concatenated byte stream (padding, length, block boundaries), for messages of any length.", "quantifier": "all byte strings and all ways of feeding them", "why_tests_cant": "all lengths around block boundaries", "anchors": ["kernel/md5.c:md5begin,md5putc,md5end,doblock", "kernel/md5-1.c"]}
{"id": "C32", "title": "Shared twiddle tables are correct for every sharer", "statement": "Twiddle factors obtained from the cache equal those a fresh computation would give for that plan, for any history of creations and destructions; memory is freed exactly when the last user goes away.", "quantifier": "all histories of plan awakening/sleeping", "why_tests_cant": "history-dependent sharing", "anchors": ["kernel/twiddle.c:mktwiddle,twiddle_destroy,equal_instr,ok_twid,lookup,twlen0,compute"]}
{"id": "C33", "title": "Trigonometric tables are exact in exact arithmetic", "statement": "The octant reduction and the sqrt(n)-table method both give exp(2*pi*i*m/n) exactly (over the reals) for every m and n.", "quantifier": "all 0<=m<n", "why_tests_cant": "all octants and sizes", "anchors": ["kernel/trig.c:real_cexp,cexpl_sqrtn_table,mktriggen"]}
{"id": "C34", "title": "Parallel loops cover every iteration exactly once", "statement": "For any loop bound and thread count the blocks handed to the workers partition [0,loopmax), there are at most nthr of them, none is empty, and every worker index is < nthr.", "quantifier": "all loopmax, nthr", "why_tests_cant": "all pairs", "anchors": ["threads/threads.c:spawn_loop", "threads/openmp.c", "threads/dft-vrank-geq1.c", "threads/ct.c"]}
{"id": "C35", "title": "Parallel execution is deterministic", "statement": "Whatever the interleaving of worker threads, a multi-threaded plan's result equals the sequential one, because the workers' write sets are disjoint from each other's read and write sets.", "quantifier": "all interleavings", "why_tests_cant": "exponentially many schedules", "anchors": ["threads/dft-vrank-geq1.c:spawn_apply", "threads/ct.c:apply_dit,apply_dif", "threads/threads.c"]}
{"id": "C36", "title": "The worker pool never loses or duplicates work", "statement": "A worker is never in the idle queue while it is running work, each submitted block is executed exactly once, spawn_loop returns only when all its blocks have been executed, and the pool is emptied on cleanup.", "quantifier": "all interleavings of any number of concurrent spawn_loop calls", "why_tests_cant": "all schedules", "anchors": ["threads/threads.c:spawn_loop,worker,enqueue,dequeue,kill_workforce"]}
{"id": "C37", "title": "Plans have independent lifetimes", "statement": "Plan creation copies the winning plan, destroying a plan leaves all others executable, wisdom survives destruction, and fftw_cleanup resets the planner to its initial state.", "quantifier": "all sequences of create/destroy/cleanup", "why_tests_cant": "history-dependent", "anchors": ["api/apiplan.c:mkapiplan,destroy_plan", "kernel/awake.c", "api/the-planner.c", "kernel/plan.c"]}
{"id": "C38", "title": "fftw_malloc returns aligned, disjoint memory that fftw_free can free", "statement": "The over-allocating allocator returns a pointer aligned to MIN_ALIGNMENT, inside the block obtained from malloc with n bytes behind it, and free recovers the original pointer.", "quantifier": "all sizes and all addresses malloc may return", "why_tests_cant": "depends on the system allocator", "anchors": ["kernel/kalloc.c:our_malloc,our_free", "kernel/align.c:ialignment_of"]}
{"id": "C39", "title": "r2r transforms compute their documented definitions", "statement": "fftw_execute or fftw_execute_r2r of a plan from fftw_plan_guru_r2r, fftw_plan_many_r2r or fftw_plan_r2r* leaves in the output array the transform documented for its kinds (R2HC, HC2R, DHT, REDFT00/01/10/11, RODFT00/01/10/11, separable in several dimensions) of what the input array held, and changes nothing but the output array and, if destroying the input is allowed, the input array. In-place problems with DCT/DST kinds need equal input and output strides: without that the claim is false of the code (solvers in reodft/ accept in-place transposed problems and overwrite their input).", "quantifier": "all ranks, sizes, kinds, strides, vector loops, inputs, and every plan the modelled solvers can produce for them", "why_tests_cant": "the plan space and the sizes are unbounded; the planner may pick any applicable plan", "anchors": ["reodft/reodft010e-r2hc.c", "reodft/redft00e-r2hc-pad.c", "reodft/rodft00e-r2hc-pad.c", "reodft/reodft11e-r2hc-odd.c", "reodft/reodft11e-radix2.c", "reodft/reodft00e-splitradix.c", "rdft/problem.c:mkproblem_rdft", "rdft/rank-geq2.c", "rdft/indirect.c", "rdft/buffered.c", "rdft/generic.c", "api/plan-guru-r2r.h", "api/map-r2r-kind.c", "rdft/dht-r2hc.c", "rdft/rdft-dht.c", "doc/reference.texi"]}
{"id": "C40", "title": "Real-input transforms are the non-redundant half of the DFT", "statement": "r2c output is the first n/2+1 DFT coefficients and the halfcomplex format packs exactly those; c2r inverts r2c up to the factor n.", "quantifier": "all n, inputs", "why_tests_cant": "all n", "anchors": ["rdft/rdft2-rdft.c:c2hc,hc2c", "rdft/hc2hc-generic.c", "rdft/generic.c", "doc/reference.texi"]}
{"id": "C41", "title": "MPI block distribution covers the data", "statement": "fftw_mpi_local_size_* gives each process the slab [local_start, local_start+local_n) so that every row belongs to exactly one process, for the default and for user block sizes; the slabs add up to n; the size returned by local_size is enough for the input, output and transposed-output slabs of that process. (Two corner cases where the code departs from this are exhibited: a dimension of size 0, and an output block that covers the whole dimension.)", "quantifier": "all dimensions, howmany, process counts and block sizes", "why_tests_cant": "all combinations of sizes, blocks and process counts", "anchors": ["mpi/block.c:num_blocks,default_block,block,num_blocks_ok", "mpi/api.c:default_sz,local_size_guru,local_size_many_transposed", "mpi/dtensor.c"]}
{"id": "C42", "title": "MPI pairwise exchange is a correct, deadlock-free exchange", "statement": "The pairwise transpose builds for every process a schedule in which process a talks to b in step k exactly when b talks to a in step k, each process meets each other process once; executing MPI_Sendrecv along the schedules never deadlocks, whatever the interleaving and whichever sends MPI buffers, and every process ends with exactly the chunks the others had for it, in place (through the exchange buffer or the sorted schedule) or out of place.", "quantifier": "all matrix sizes, block sizes, process counts, interleavings and buffering decisions of the MPI library", "why_tests_cant": "exponentially many interleavings for every process count", "anchors": ["mpi/transpose-pairwise.c:fill1_comm_sched,sort1_comm_sched,transpose_chunks,mkplan"]}
{"id": "C43", "title": "Estimating never measures", "statement": "Creating a plan with FFTW_ESTIMATE never executes a plan, so the user's arrays are not touched, whatever the wisdom, the time limit and the fallbacks taken.", "quantifier": "all problems, solver sets, wisdom, flag words", "why_tests_cant": "all planning histories", "anchors": ["api/apiplan.c:mkapiplan,force_estimator", "kernel/planner.c:evaluate_plan,mkplan"]}
{"id": "C44", "title": "The MPI distributed transpose transposes", "statement": "Executing the pairwise distributed-transpose plan on all processes, with any interleaving, ends after a bounded number of steps with the transposed matrix distributed over the processes in the layout asked for (FFTW_MPI_TRANSPOSED_IN/OUT or not), in place or out of place; nothing outside the output slab changes, and with FFTW_PRESERVE_INPUT semantics the input array is unchanged.", "quantifier": "all matrix sizes, tuple sizes, block sizes, process counts, flags, interleavings", "why_tests_cant": "all schedules and sizes", "anchors": ["mpi/transpose-pairwise.c:apply,mkplans_posttranspose,mkplan", "mpi/transpose-problem.c:mkproblem_transpose", "mpi/api.c:plan_many_transpose"]}
{"id": "C45", "title": "The code generator builds correct transforms", "statement": "For every size n, sign, and setting of the generator (Rader threshold and list, alternate convolution, three-multiplication complex products, decimation in time or frequency, rescaled split radix), genfft's symbolic DFT terminates without raising an exception, never reads an input outside 0..n-1, and the expressions it produces have as value exactly the DFT of the values of the inputs; different settings give codelets that compute the same function.", "quantifier": "all n, signs, generator settings, input expressions, values of the variables, physical-sharing decisions", "why_tests_cant": "codelets can be tested one size and one setting at a time; the statement is for all of them", "anchors": ["genfft/fft.ml", "genfft/complex.ml", "genfft/littlesimp.ml", "genfft/number.ml", "genfft/util.ml"]}
{"id": "C46", "title": "The real codelets compute the documented transforms", "statement": "For every size n and every setting of the generator, the codelet bodies that gen_notw, gen_r2cf (also -dft-II), gen_r2cb (also -dft-III) and gen_r2r build succeed and store exactly the documented DFT, real DFT, halfcomplex inverse, shifted variants, Hartley, cosine and sine transforms of what they load, each output at its place, and the dead slots get 0; the value does not depend on the imaginary parts that the cosine and sine generators load from a non-existing array.", "quantifier": "all n, generator settings, transform kinds, normalisation factors, values of the inputs, index maps", "why_tests_cant": "codelets can be tested one size, kind and setting at a time", "anchors": ["genfft/trig.ml", "genfft/genutil.ml:load_array_c,load_array_r,load_array_hc,store_array_c,store_array_r,store_array_hc", "genfft/gen_notw.ml:generate", "genfft/gen_r2cf.ml:generate,rdftII", "genfft/gen_r2cb.ml:generate,hcdftIII", "genfft/gen_r2r.ml:generate,rescale"]}
{"id": "C47", "title": "The twiddle codelets compute the butterflies with the tables of the library", "statement": "For every radix and every twiddle policy (load all, log2, log3), the codelet bodies that gen_twiddle, gen_twidsq, gen_hc2hc, gen_hc2c, gen_hc2cdft and the complex-arithmetic (SIMD) generators gen_notw_c and gen_twiddle_c build succeed and, when W points to row j of the twiddle table that the library computes from the instructions the codelet itself exports, store exactly the decimation-in-time or decimation-in-frequency butterfly of radix n with the j-th twiddle factors; the number of reals by which the codelet advances W per iteration is the length of a row of that table.", "quantifier": "all radices, policies, signs, DIT/DIF, table sizes and rows, generator settings, values of the inputs, index maps", "why_tests_cant": "a test fixes the radix, the policy and the row", "anchors": ["genfft/twiddle.ml", "genfft/gen_twiddle.ml:generate", "genfft/gen_twidsq.ml:generate", "genfft/gen_hc2hc.ml:generate", "genfft/gen_hc2c.ml:generate", "genfft/gen_hc2cdft.ml:generate", "genfft/gen_notw_c.ml:generate", "genfft/gen_twiddle_c.ml:generate", "genfft/genutil.ml:twiddle_array", "kernel/twiddle.c:compute,twlen0"]}
{"id": "C48", "title": "The code generator's simplifier preserves what a codelet computes", "statement": "The algebraic simplifier and common-subexpression pass applied to every generated codelet returns the same stores, to the same places and in the same order, each with the same value for all values of the inputs, for every setting of the generator (with and without FMA, any collection depth), whatever the hash functions answer; provided that the randomised equality test never equates two different functions (nothing is assumed with -no-randomized-cse), that no two sums are equated that differ only in how often a term is repeated, and that no product of two shared terms is split. Each of the last two provisos is needed: the code takes x+x+y and x+y+y for the same subexpression, and splits x*y into parts that add up to 3*x*y.", "quantifier": "all dags, generator settings, hash values, order of table look-ups, values of the variables (complex)", "why_tests_cant": "the simplifier sees a different dag for every codelet; tests of the library check only the codelets that were generated", "anchors": ["genfft/algsimp.ml:AlgSimp", "genfft/assoctable.ml", "genfft/monads.ml", "genfft/oracle.ml:likely_equal,should_flip_sign", "genfft/magic.ml"]}
{"id": "C49", "title": "The code generator's network transposition preserves what a codelet computes", "statement": "The transposition pass turns a dag of stores of linear functions into the dag of the transposed linear map, with one store for each loaded variable; the optimizer (simplify, then transpose, simplify, transpose, simplify any number of times) leaves at every place the value that the unoptimized codelet stores there, for all inputs; the only stores it may drop are those of functions that are 0 for all inputs, and in one round it always drops the stores of expressions that load nothing (so the halfcomplex codelets do not write the imaginary part of output 0). The transposition relies on the constant being the first factor of each product and on every variable being loaded by one shared node; each condition is needed.", "quantifier": "all dags and sharing, any number of rounds, generator settings, hash values, values of inputs and constants (complex)", "why_tests_cant": "the pass sees a different dag for every codelet and no test checks the intermediate dags", "anchors": ["genfft/algsimp.ml:Transpose,algsimp,simplification_loop", "genfft/littlesimp.ml"]}
{"id": "C50", "title": "The code generator's assignment list computes what the dag computes", "statement": "For every setting of the generator, a codelet's dag of stores is turned into a list of assignments that assigns every variable at most once, uses only variables the dag loads and temporaries assigned earlier in the list, contains one assignment for each variable the dag stores, and, run from first to last, gives each of these variables the value the dag gives it and changes nothing else but new temporaries. Unless loads are inlined, an array element is only mentioned by an assignment that loads it into a temporary, so that no store reads the arrays. (An operation can be done twice: a node used through a shared negation is counted once.)", "quantifier": "all dags and sharing, all generator settings, values of the variables (complex)", "why_tests_cant": "the list is different for every codelet and setting; library tests see only the codelets that were generated", "anchors": ["genfft/to_alist.ml", "genfft/expr.ml:find_vars", "genfft/variable.ml:make_temporary", "genfft/monads.ml", "genfft/magic.ml"]}
{"id": "C51", "title": "The code generator's instruction schedule keeps every assignment and every dependency", "statement": "For every list of at most 100000 assignments without circular dependencies, and every setting of the generator except -schedule-type 1, the scheduler finishes without failure (with and without the isolation of the precomputed twiddle factors), and every order of execution that its schedule stands for executes each assignment exactly once, no assignment before one whose result it uses, and none that overwrites an array location before one that reads this location. Consequently the scheduled instructions of every codelet compute in memory what its dag means, also when the input and output arrays are the same: each stored element gets the value of its expression in the memory before the codelet, and nothing but stored elements and temporaries changes. With -schedule-type 1 the load of a twiddle factor can be lost, and with -inline-loads an in-place codelet can have no schedule; the theorem excludes both.", "quantifier": "all dags and assignment lists, all generator settings but -schedule-type 1 (and, for codelets, -inline-loads), all placements of the arrays in which only declared locations coincide, all initial memories", "why_tests_cant": "a test of a codelet runs one schedule of one size in place or out of place; the compiler sees a different order for every codelet and setting", "anchors": ["genfft/schedule.ml", "genfft/dag.ml", "genfft/variable.ml:same_location", "genfft/util.ml:min_list", "genfft/magic.ml"]}
{"id": "C52", "title": "The code generator's final text runs the scheduled instructions in a correct order inside correct declarations", "statement": "For every schedule of a list of assignments (each variable assigned once, no circular dependencies, no array element overwritten that another instruction reads except after the read), and every combination of the generator's reordering passes (linearization, scheduling for a pipeline with any latency, moving together instructions that use the same variables, stores and loads of the same complex number) and every limit on the number of variables of a block, the generator finishes without failure; the text it prints contains each instruction exactly once, in an order that respects all dependencies; every temporary variable the text assigns is declared exactly once, nothing else is declared, and each mention of a temporary variable is inside the block that declares it. Consequently, for every codelet, the printed instructions run from first to last compute in memory what its dag means, in place or not.", "quantifier": "all dags, schedules, generator settings (latency, passes, number of variables per block), all orders a sort with an inconsistent comparison can return, all memories", "why_tests_cant": "a test of a compiled codelet sees one text for one combination of settings; a wrong order or a misplaced declaration in another codelet shows only when that codelet is generated", "anchors": ["genfft/annotate.ml", "genfft/c.ml:unparse_annotated", "genfft/schedule.ml:sequentially", "genfft/magic.ml"]}
{"id": "C53", "title": "The C text of a generated codelet means what the generator's dag means", "statement": "For every expression of a scalar codelet, the C text printed for it (with the multiply-add macros, minus signs and parentheses) has exactly one reading by the grammar of C, and the value of this reading is the value of the expression. For every codelet and all generator settings but -inline-loads and -schedule-type 1, the generator prints a block of nested declarations and assignments that can be executed by the rules of C in every initial state (no undeclared variable is used, no uninitialized value matters, whatever the declared variables contain), and every execution leaves in each stored element the value of its expression in the initial memory and changes nothing else in memory, also when outputs are at the places of the inputs.", "quantifier": "all dags, generator settings, initial memories, contents of uninitialized variables, placements of the arrays in which only declared locations coincide", "why_tests_cant": "a missing parenthesis or a wrong macro shows only for expressions of a certain shape, and a wrong scope only in codelets with a certain nesting; tests compile the codelets of one configuration", "anchors": ["genfft/c.ml:unparse_expr_c", "genfft/c.ml:unparse_annotated", "kernel/ifftw.h:FMA", "genfft/annotate.ml", "genfft/to_alist.ml"]}
{"id": "C54", "title": "The printed C codelets are the codelets that the planner's plans assume", "statement": "For every size, the loop over the C text that the code generator prints for a complex DFT codelet without twiddle factors computes, for all strides, vector lengths and initial memories, exactly the memory that the plans call for: vl transforms of size n, in place or out of place, every result stored at its place and no other cell changed, whatever the optimizer, the schedule, the annotation passes and uninitialized local variables do. The same holds for the twiddle codelets (decimation in time and in frequency, every twiddle policy): the loop over butterflies mb..me-1 reading the twiddle table that the library makes from the codelet's own instructions computes exactly the twiddled butterflies in place. No result is dropped by the optimizer, because none is identically zero.", "quantifier": "all sizes and radices, generator settings (except -inline-loads and -schedule-type 1), strides, vector lengths, ranges of butterflies, twiddle policies, array placements admitted by the plan, initial memories and local variables", "why_tests_cant": "the tests run the codelets of the shipped sizes with a few strides; that the generated text is right for every size and every layout, and that it is the very operation the plan composition relies on, is a statement about all generator runs", "anchors": ["genfft/gen_notw.ml", "genfft/gen_twiddle.ml", "genfft/genutil.ml:standard_optimizer", "genfft/c.ml", "dft/direct.c", "dft/dftw-direct.c", "kernel/twiddle.c"]}
{"id": "C55", "title": "The printed real, transposing and halfcomplex C codelets are the codelets that the planner's plans assume", "statement": "For every size, the loop over the C text that the code generator prints for a discrete Hartley, cosine or sine transform codelet computes, for all strides, vector lengths and initial memories, exactly what the real-to-real plans call for: vl transforms of size n of that kind, in place or out of place, every result at its place and no other cell changed; the text never mentions the imaginary part of an input, which does not exist in the C program. The same holds for the codelets that do r butterflies and transpose the r by r results (twiddle square) and for the halfcomplex butterflies in both directions, whose pointers move towards each other and which start at the second row of the twiddle table's blocks: the loop over butterflies mb..me-1 computes exactly the butterflies in place.", "quantifier": "all sizes and radices, all real-to-real kinds, generator settings (except -inline-loads and -schedule-type 1; for cosine transforms, without three-multiplication complex products), strides, vector lengths, ranges of butterflies, twiddle policies, array placements admitted by the plan, initial memories and local variables", "why_tests_cant": "the tests run the codelets of the shipped sizes with a few strides; that the generated text is right for every size and layout, and that it is the very operation the plan composition relies on, is a statement about all generator runs", "anchors": ["genfft/gen_r2r.ml", "genfft/gen_twidsq.ml", "genfft/gen_hc2hc.ml", "genfft/trig.ml", "genfft/genutil.ml:standard_optimizer", "genfft/c.ml", "rdft/direct-r2r.c", "dft/dftw-directsq.c", "rdft/hc2hc-direct.c", "kernel/twiddle.c"]}
{"id": "C56", "title": "The printed halfcomplex-to-real C codelets are the codelets that the planner's plans assume", "statement": "For every size, the loop over the C text that the code generator prints for a halfcomplex-to-real codelet (of either type: the inverse real DFT, and the inverse of the transform with outputs at half-integers) computes, for all strides, vector lengths and initial memories, exactly what the plans call for out of place: vl inverse transforms, read from a real array Cr and an imaginary array Ci with their own strides, even elements written through R0 and odd ones through R1, every result at its place and no other cell changed; the text reads the real parts of elements 0 to n/2 and the imaginary parts strictly between only, never the imaginary part of element 0 or of the middle element.", "quantifier": "all sizes, both types, generator settings (except -inline-loads and -schedule-type 1), the five strides and offsets, vector lengths, array placements admitted by an out-of-place plan, initial memories and local variables", "why_tests_cant": "the tests run the codelets of the shipped sizes with the strides of a few plans; a read of an imaginary part that the format does not have is invisible to a test whose memory happens to hold zero there", "anchors": ["genfft/gen_r2cb.ml", "genfft/trig.ml", "genfft/genutil.ml:load_array_hc", "genfft/c.ml", "rdft/direct-r2c.c", "rdft/codelet-rdft.h"]}
{"id": "C57", "title": "The printed real-to-halfcomplex C codelets are the codelets that the planner's plans assume, and never touch the slot that is always 0", "statement": "For every size, the loop over the C text that the code generator prints for a real-to-halfcomplex codelet (the real DFT and its variant with outputs at half-integers) computes, for all strides, vector lengths and initial memories, exactly what the plans call for out of place: vl forward transforms, even elements read through R0 and odd ones through R1, the real and imaginary parts of the outputs written through Cr and Ci with their own strides, every result at its place and no other cell changed. The generator also makes a store of the one result that is 0 for all inputs (the imaginary part of output 0; for the half-integer variant the unused slot or the imaginary part at n/2), whose place may lie outside the caller's array: the text does not contain it, because the optimizer drops it.", "quantifier": "all sizes, both types, generator settings (except -inline-loads and -schedule-type 1), the five strides and offsets, vector lengths, array placements admitted by an out-of-place plan, initial memories and local variables", "why_tests_cant": "a store of a zero one slot outside the halfcomplex array overwrites memory that belongs to a neighbouring transform or to the caller, which a test sees only for layouts where that slot is in use; the tests run the shipped sizes with a few strides", "anchors": ["genfft/gen_r2cf.ml", "genfft/trig.ml", "genfft/genutil.ml:store_array_hc,standard_optimizer", "genfft/algsimp.ml:algsimp", "genfft/c.ml", "rdft/direct-r2c.c", "rdft/codelet-rdft.h"]}
