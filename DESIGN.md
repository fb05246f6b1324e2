# Formal model of FFTW/fftw3 in Rocq (Coq 8.16.1)

All Coq sources are in `rocq/theories`, logical name `Verif`. Only the standard
library is used. Four kinds of file:

* `Spec*.v` — small specifications, written without the model's helpers (DFT sums, row-major
  positions, what "a distributed matrix" or "a legal history" is);
* `*Model.v`, `Api*.v` — the transcription of the C code, each definition with file and lines;
* `Prop*.v` — the theorems `Cnn_*` claimed in `MANIFEST.json`, each with non-vacuity `Example`s
  and `Print Assumptions`;
* everything else — proofs.

`properties.jsonl` is generated by `tools/props.py`, `MANIFEST.json` by `tools/manifest.py`,
`ASSUMPTIONS.md` by `tools/assumptions.py`, and `seeded/LOG.jsonl` by `tools/mut.py` from the edits in `tools/mutants/`.

## Modelling conventions

* `INT` (`ptrdiff_t`) is an unbounded `Z` unless the property is about overflow; there the
  model is parametrised by the largest INT value and overflow is a distinct outcome (`UB`).
* Outcomes (`Base.v`): `Ret`, `UB` (overflow, out-of-bounds access, null dereference, failed release-mode assertion),
  `Diverge` (abort by `CK`, or a loop that exceeds its bound; the theorems exclude it or describe it).
* Floating point numbers are the reals of `Coq.Reals`; rounding is not modelled, constants such as K2PI, SQRT2 are exact.
* Memory is a total map from (block, offset) to values; a buffer obtained by MALLOC is a
  block distinct from the user's, with arbitrary initial contents (so no theorem can rely on them: C06).
* A plan is an execution function `nx -> I -> O -> mem -> mem` (nx: first free block); "the planner may return
  this plan for this problem" is an inductive relation with one rule per solver, transcribing the
  solver's `applicable`/`mkplan`. Tests in `applicable` that only prune the search for speed are dropped
  (the relation then contains more plans, so the theorems get stronger). The choice among applicable solvers is
  nondeterministic, so the theorems hold for any choice, wisdom and timing.
* Codelets generated by genfft are ideal kernels: they read all their inputs, then write the DFT they are documented to compute.
* Threaded solvers appear in the plan relations with blocks run in any order; that the order/interleaving
  within a block does not matter is C35, at the level of single memory accesses.

## Per property

| id | what is modelled | how it is proved |
|----|------------------|------------------|
| C01-C06 | `DftModel.v`: problem canonicalisation, nop, rank-0 via dft-r2hc, codelets `direct`, vrank-geq1, rank-geq2, indirect, indirect-transpose, buffered, generic, Rader, Bluestein, Cooley-Tukey DIT/DIF with direct, directbuf, generic and generic-bytwiddle twiddle passes, dftw-genericbuf, threaded vrank and ct. `ApiModel.v`: plan_dft*, plan_many_dft, plan_guru{,64}{,_split}_dft, execute* | one induction over the plan relation: every plan satisfies `Correct` (values, and a frame condition) for every memory, block number and pair of pointers; index bookkeeping by multisets of offsets (`Offs`, `XForm`), mathematics in `Cplx`, `DftMath`. C03, C06 follow from the quantification over pointers/memories; C04 by orthogonality |
| C07-C09 | `PrimesModel.v` = kernel/primes.c, range-checked | loop invariants; Fermat, orders of elements, pigeonhole (`NumTheory.v`) |
| C10-C13 | `HashModel.v` = the tables of kernel/planner.c | open-addressing invariant by induction over operation sequences; refinement to a set of records |
| C14-C16, C29-C30 | `TextModel.v`, `ImportModel.v` = kernel/print.c, scan.c, planner.c import/export, api wisdom entry points | digit induction; scanner/printer inverse; whole-text induction |
| C17-C19, C43 | `PlannerModel.v` = mkplan/search/invoke_solver/evaluate_plan, for **every** set of solvers (free-monad programs); `ApiPlanModel.v` = api/apiplan.c | induction over fuel and solver programs with a trace of effects (measure, clock, execute) |
| C20-C21 | `FlagsModel.v` = api/mapflags.c | bit-level reasoning; monotonicity of log and floor |
| C22-C24 | `CopyModel.v`, `Rank0Model.v`, `Toms513.v` = cpy*.c, tile2d.c, transpose.c, rank0.c, vrank3-transpose.c | induction over tile recursion; cycle-leader argument for TOMS 513 |
| C25-C28 | `TensorModel.v` = kernel/tensor*.c, api/mktensor-*.c, mapflags/kosher checks | multiset of (in,out) offset pairs is invariant; row-major arithmetic |
| C31 | `Md5Model.v` = kernel/md5*.c | streaming invariant against RFC 1321 padding (`SpecMd5.v`) |
| C32-C33 | `TwModel.v`, `TrigModel.v` = kernel/twiddle.c, trig.c | reference-count invariant over histories; trigonometric identities |
| C34-C36 | `ThreadModel.v` = threads/threads.c (spawn_loop, worker pool, queues) | partition arithmetic; inductive invariant over all interleavings; race-free programs commute (`RaceProofs`, `ParProofs`) |
| C37 | `ApiPlanModel.v` | invariant over histories of API calls |
| C38 | `AllocModel.v` = kernel/kalloc.c, alloc.c | address arithmetic with 64-bit wraparound; histories of a process |
| C39 | `RdftModel.v` = rdft/problem.c, nop, rank0, vrank3-transpose, vrank-geq1, rank-geq2, indirect, buffered, direct-r2r, direct-r2c, generic, dht-r2hc, rdft-dht, reodft/* (all eight solvers), hc2hc Cooley-Tukey (hc2hc-direct with and without buffer, hc2hc-generic; `HcModel.v`) and its threaded form, threaded vrank; `ApiR2R.v` = plan_r2r*, plan_many_r2r, plan_guru_r2r, execute_r2r | same induction as C01; the trigonometric sums in `RMath`, `RSum` |
| C40 | `R2Model.v` = rdft/problem2.c, nop2, rank0-rdft2, direct2, rdft2-rdft, buffered2, vrank-geq1-rdft2, rank-geq2-rdft2, rdft2-inplace-strides, threads/vrank-geq1-rdft2; `ApiR2C.v` = plan_dft_r2c*, plan_dft_c2r*, many, guru, split, execute | same induction with a second notion of in-place correctness (`IForm.v`) |
| C41-C42, C44 | `MpiModel.v` (block.c, local_size family), `MpiTransModel.v`, `MpiDistModel.v` (transpose-pairwise.c) | arithmetic; round-robin tournament; invariant over all interleavings of the processes |
| C45 | `GenExpr.v`, `GenCplx.v`, `GenFft.v` = genfft/util.ml (integers), number.ml, expr.ml, littlesimp.ml, complex.ml, fft.ml | denotational semantics of expressions; induction on n with one lemma per algorithm (prime, Rader with both convolutions, Cooley-Tukey, prime factor, split radix DIT/DIF, rescaled split radix) |
| C46 | `GenTrig.v` = genfft/trig.ml, the loads and stores of genutil.ml, and the part of gen_notw.ml, gen_r2cf.ml, gen_r2cb.ml, gen_r2r.ml that builds the dag | a codelet body is a list of stores; `computes` says that the list exists and which value (a finite sum over the kernel `rk` of SpecR2R.v) goes to which variable, for every assignment of reals to the variables; on top of C45's DFT, one trigonometric lemma per transform (`GenTrigRk.v`) |
| C47 | `GenTwid.v` = genfft/twiddle.ml and the part of gen_twiddle.ml, gen_twidsq.ml, gen_hc2hc.ml, gen_hc2c.ml, gen_hc2cdft.ml, gen_notw_c.ml, gen_twiddle_c.ml that builds the dag | `table_row` says that W points to row j of the table that `TwModel.tw_block` (C32's model of kernel/twiddle.c) computes from the instructions of the codelet; the powers rebuilt by the log2/log3 policies are proved equal to the roots by strong induction on the exponent; the butterflies are those of DftModel/HcModel (`C47_is_kernel`) |
| C48 | `GenAlg.v` = genfft/assoctable.ml, the state and memo monads, the module AlgSimp of algsimp.ml, oracle.ml's likely_equal and should_flip_sign as oracles whose answer may change with every call | a relational Hoare logic on the state monad: the two tables only ever map a key to an expression with the same value and the same store; the mutually recursive simplifiers are iterated with a fuel and every statement is about runs that end |
| C49 | `GenTrans.v` = the module Transpose of genfft/algsimp.ml on a heap of nodes with identities, and the simplification loop | `GenTransProofs.v`: the visit returns the reachable nodes and a parent table that holds each edge once; exchanging the order of summation over the edges between non-constant nodes gives the bilinear identity; `GenAlgVars.v` shows that the simplifier of C48 introduces no loads, so that no new place is stored |
| C50 | `GenAlist.v` = genfft/to_alist.ml (counting visit, memoized second visit, fma patterns, all settings) on the heap of GenTrans.v; `GenExec.v` = what a list of assignments does | `GenAlistProofs.v`: the first visit leaves a table that contains every node the second one asks for; invariant of the second visit: the list is in single assignment form and each expression in the table has, after the list, the value of its node |
| C51 | `GenSched.v` = genfft/dag.ml (dependencies, breadth-first search) and genfft/schedule.ml (connected components, red/blue partition, isolation of precomputations), on the lists of GenAlist.v | `GenSchedProofs.v`: the labels of the search reach exactly one component; the coloring loops keep RED closed under predecessors and BLUE under successors and leave nothing uncolored; termination by the number of undecided nodes; `exec_ordered`: any order that respects the dependencies gives, in memory, the values of the single assignment form |
| C52 | `GenAnnot.v` = genfft/annotate.ml (linearize, reorder, anticipate/delay friends, schedule_for_pipeline, analyze, rewrite_declarations) and the block structure printed by c.ml:161-188, on the schedules of GenSched.v | `GenAnnotProofs*.v`: each pass returns a Par-free schedule of a permutation of the instructions that is again ordered (friends use the same variables, so a friend may move to the first one; a store may move to the last one), the pipeline scheduler makes progress each round because the first delayed instruction depends on nothing unscheduled; declarations by induction on the schedule: each temporary is either declared in the block or undeclared and handed to the enclosing one, and live-variable analysis keeps what is used outside |
| C53 | `GenPrint.v` = genfft/c.ml:75-126, 158-189 (unparse_expr_c, unparse_annotated) on the blocks of GenAnnot.v; specification: the C grammar of expressions (`reads`), the macros of kernel/ifftw.h (`macro_value`), the execution of nested blocks with scopes and uninitialized variables (`cruns`) | `GenPrintProofs.v`: a recursive-descent parser that is complete for the grammar, hence at most one reading; the printer by induction on the size of the expression, the ten cases of unparse_plus as one `pick`; `GenPrintScalar.v`: the assignments of a dag without complex products are printable; `GenPrintExec.v`: running a block simulates the flat list, a temporary leaves its scope only after its last use |
| C54 | `GenLink.v` composes algsimp..unparse (`compiled`), `GenInputs.v` says which variables the generators of GenFft/GenTrig/GenTwid can load, `GenKernel.v` and `PropGenlink.v`: arrays as the C code addresses them (`io_layout`), the for loops of gen_notw.ml:108-129 and gen_twiddle.ml:95-113 (`loop_gives`); the specification is the kernels kdft, kdftw of DftModel.v which C01/C08 use | C53_text and C49 give the stored values; a unit in input 0 shows that no result is identically 0, so none is dropped; Wf of the plan gives the disjointness the generator assumes (equal places only for element j of input and output); induction on the iterations |
| C55 | `GenKernel2.v` (real codelets), `GenKernel3.v` (complex codelets in place), `PropGenlink2.v`: the arrays of gen_r2r.ml:176-201, gen_twidsq.ml:88-127, gen_hc2hc.ml:92-128 as addressed by the C code (`rio_layout`, `ip_layout`) and their loops; the specification is the kernels kr2r, kdftwsq, khc2hc of RdftModel.v, DftModel.v, HcModel.v | as C54; which variables are loaded is refined for gen_r2r (only real parts); every row of every real-to-real kind has a nonzero first coefficient, every output of a (halfcomplex) butterfly is nonzero for a unit input |
| C56 | `GenKernel4.v`, `PropGenlink3.v`: the arrays Cr, Ci, R0, R1 of gen_r2cb.ml:93-109 as addressed by the C code (`cb_layout`) and the loop :112-127; the specification is the kernel kr2c of RdftModel.v, kinds HC2R and HC2RIII | as C55 through `real_codelet`; the variables loaded are those of the halfcomplex format only (`gen_r2cb_loads`); in every row some coefficient is nonzero (`cb_row`) |
| C57 | `GenReal.v`, `GenConst.v`, `GenLink2.v`, `GenKernel5.v`, `GenKernel6.v`, `PropGenlink4.v`: the arrays R0, R1, Cr, Ci of gen_r2cf.ml:89-108 as addressed by the C code (`cf_layout`, which says nothing of the place of the result that is always 0) and the loop :112-127; the specification is the kernel kr2c, kinds R2HC and R2HCII | `printed_runs`: a codelet whose optimizer drops stores changes only the places that remain; `real0_dft`: output 0 of every FFT algorithm of fft.ml has no load in its imaginary part when no input has one; `algsimp_const` (GenConst.v): algebraic simplification keeps a store without loads free of loads; `rounds_drop`: network transposition drops such stores. Partial: see MANIFEST |

## What is not modelled (exactly)

* Rounding, SIMD codelets and alignment taint, `extra_iter` of dftw-direct (only used by SIMD codelets).
* dft: rdft/dft-r2hc for rank ≥ 1. rdft: dht-rader, hc2c (rdft2) Cooley-Tukey. mpi: transpose-alltoall, transpose-recurse, the distributed
  dft/rdft solvers, the rdft2 variant of default sizes and fftw_mpi_plan_guru. genfft except the files of C45-C57 (the C printer's functions and loops around a codelet's block, simd.ml, gen_twidsq_c and gen_hc2cdft_c are not modelled), libbench, the Fortran and `tests/` directories, `simd-support/`, codelet sources.
* C01: transform sizes' strides must be `sign_consistent` (the input and the output stride of a dimension have the same sign, or the dimension sign pattern is uniform, `PropDft.v`);
  the input (output) locations of distinct indices must be distinct.
* C10-C19: planner costs are integers; MPI hooks of the planner are null; a table of 2^30 entries or more is `Diverge`. The API layer theorems are for `e_debug = false`.
* C14: an import may end the program by a `CK` (over-wide flag fields) or overflow a `long`; both are exhibited by theorems. C15 needs records to be `representable`. `long` is 64 bits.
* C32: linked lists are lists; requests are `legal`; INT maximum ≥ 2^31−1; reference counts do not overflow `int`.
* C35, C36: sequentially consistent memory, atomic semaphores and mutexes, `pthread_create` never fails; the race between sem_post and sem_destroy of the termination semaphore is not modelled.
  C35's atomic actions are single reads or writes; its programs are race-free fork-join programs over read-only tables.
* C37: the one undefined operation (a NULL plan when a plan cannot be re-created, api/apiplan.c:150) is in the statement.
* C38: only the over-allocating allocator (`WITH_OUR_MALLOC`); system malloc behaves as in the C standard.
* C39: in-place DCT/DST problems need equal input and output strides: redft00e-r2hc-pad, rodft00e-r2hc-pad, reodft010e-r2hc, reodft11e-radix2 and reodft11e-r2hc-odd
  do not check for in-place strides, and `C39_inplace_transposed_refuted` proves that the program is wrong without that hypothesis.
* C40: the strides of the complex array must not have both signs; in place, the rows of both arrays must be equally spaced and disjoint (`good_rc` in `SpecR2C.v`):
  rdft2-rdft accepts in-place problems with different distances and is wrong for them (`C40_inplace_dist_refuted`).
* C41-C44: INT overflow is unmodelled; division by zero is UB. `MPI_Sendrecv` may be eager or rendezvous, message contents are taken when posted.
* C45: `Number.number` is an exact real and Newton's iteration returns its limit; OCaml integers are unbounded; physical equality is any function that implies equality.

## Refutations (places where the code does not do what the documentation says)

`C09_*_refuted` (overflow next to INT_MAX), `C14_abort_possible`/`C14_overflow_possible`, `C29_int_min_refuted`,
`C39_inplace_transposed_refuted`, `C40_inplace_dist_refuted`, `C41_zero_refuted`, `C41_full_output_block_refuted`. They are theorems about the model, kept beside the positive theorems whose hypotheses exclude them.
Observation without theorem: the hash of the mpi-transpose problem omits its flags.

## Trusted base

* Coq's kernel (coqc 8.16.1; coqchk can recheck the .vo files).
* The axioms of the standard library listed in `ASSUMPTIONS.md`, theorem by theorem. Over all theorems these are exactly
  `ClassicalDedekindReals.sig_forall_dec`, `ClassicalDedekindReals.sig_not_dec` (construction of the reals),
  `FunctionalExtensionality.functional_extensionality_dep`, and `Classical_Prop.classic` (analysis lemmas of `Coq.Reals`).
  The theorems on planner, wisdom, import, threads, MPI distribution and allocation are closed under the global context.
* The faithfulness of the transcription (each definition cites file and lines in /repo and says where it simplifies).
* `tools/*.py` are not trusted: they only generate text files.

## Mutation testing

`tools/mut.py` copies `rocq/` to a scratch directory, edits one definition the way a realistic bug would, rebuilds the files that state the affected
claim and appends the outcome to `seeded/LOG.jsonl`. Surviving mutants are either explained there (the edit does not make the claim
false) or led to tightened theorems.
