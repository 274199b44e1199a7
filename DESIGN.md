# Formal model of Nek5000/gslib in Rocq (Coq 8.16.1)

The properties: `properties.jsonl`.  Theorems per property and their status: `MANIFEST.json`.
Wrong programs the theorems were tested against: `seeded/LOG.jsonl`.

## 1. How the code is modelled

* Plain executable Gallina, standard library only (but for Flocq in `Binary64*.v`).  Every definition of the model cites the file and lines of /repo it
  models, and says what it simplifies.  Model files (`Sort.v`, `Net.v`, `Gs.v`, ...) contain no proofs; specification files
  (`*Spec.v`) contain the vocabulary in which the properties are stated and do not use the model's algorithms;
  `Properties_*.v` contain the theorems, `Print Assumptions` and examples meeting the hypotheses; the rest is proof.
* `Base.v`: `res A := Ok a | UB | Abort | OutOfFuel`.  Array reads and writes are checked: an
  out-of-range access is `UB` (undefined behaviour), a call of `fail()`/`die()` is `Abort`, an exhausted loop bound is
  `OutOfFuel`.  Theorems conclude `= Ok ...`, so they include index ranges and termination.
* Loops become recursion on explicit fuel (computed inside the model from the data size, exhaustion reported as
  `OutOfFuel`) or structural recursion.
* C integers: `nat` for lengths, ranks and indices, `N`/`Z` for values; wrap-around, conversions and sentinels (`UINT_MAX`) are
  explicit where the code relies on them or where a property is about them (C09, C11, C36, C38, C40-C42).
* Parallel code: `Net.v` defines SPMD processes as programs `Ret r | Stop | Post sends recvs k | Wait h k`
  (post a group of sends and receives; wait for a posted group, continue with the received messages)
  and an interleaving semantics: one step = one process posting or completing a group.  A send completes when its receive is
  posted or, if the MPI library buffers, immediately; the buffering is universally quantified, wait by wait.  Messages of
  one (src,dst,tag) channel match in order (MPI's rule); a message longer than its receive buffer is an error.
  A schedule is an arbitrary list of ranks.  The metatheorem C17: if one unbuffered run leads to results `rs`, then every
  schedule and every policy can only lead to `rs`, never deadlocks, and the number of steps is fixed.  All parallel
  theorems are stated with `always_returns`, i.e. for every schedule and every buffering.
* Numerical code: exact arithmetic.  tensor.c over any commutative ring; poly.c, lob_bnd.c, obbox.c and
  findpts_el_2.c and findpts_el_3.c over the real numbers of the standard library; the hash tables of findpts over rationals with a rounding
  function after every operation that is only assumed monotone, exact at 0 and at most doubling.

## 2. Property by property

| id | modelled | method | simplified / not modelled |
|----|----------|--------|---------------------------|
| C01, C02 | sort_imp.h: merge sort on two buffers, radix sort (counting, offsets, skipped digits, ping-pong), heap sort, the dispatch of sortv | simulation of the iterative schedule by recursion; counting-sort invariant; heap invariant; uniqueness of sorting | strided input is the list of strided values |
| C03, C04 | sortp (merge and radix on pairs, start_perm) | as C01, with stability | |
| C05 | sarray_permute_ cycle loop with marks, sarray_perm_invert | invariant over cycles | |
| C06 | sarray_sort_2/3/4 macros, sarray_sort_field | composition of stable sorts | struct fields are projection functions |
| C07 | the double instances of sort_imp.h | any strict weak order | NaN excluded (not a strict weak order) |
| C08 | fcrystal_tuple_sort, fcrystal_ituple_sort | as C06 | |
| C09, C10 | mem.h array_reserve, array_cat, buffer, align_as; scratch layouts of sort and permute, byte level | induction over histories; arithmetic | allocation failure (calls fail) |
| C11 | gs_defs.h operations on integers of any width, gs_op bpr loop | algebra; bits | signed overflow wraps; float domains |
| C12, C13 | gs_local.c, all kernels, in place and not | induction over the map | products i*vn not reduced mod 2^32 |
| C14-C16 | comm.c scan_imp, allreduce_imp, comm_reduce as Net programs | induction over the tree of processes, lockstep | MPI_Allreduce by contract |
| C17 | Net semantics | confluence | |
| C18, C19 | crystal.c as Net programs over word arrays | induction over the recursive halving | |
| C20-C24 | sarray_transfer.c, byte level packing; cap_rows; fcrystal_ituple_transfer | round trips; C24's documented truncation refuted | |
| C25-C33 | gs.c: topology discovery, local maps, setup and execution of the three methods, gs, gs_vec, gs_many, gs_unique, gs_setup | refinement to a specification by groups of equal ids | dry-run timing of gs_auto (arbitrary choice, equal on all processes); reporting; mem_size accounting |
| C34-C36 | igs, igs_vec, igs_many, gs_isend/gs_wait tables, two outstanding operations | Net with overlapping groups; invariants over histories; C34 for every operation: an exchange that always returns from the start can be replayed after any balanced history (NetReplay*.v), so igs follows gs without going through what gs computes | MPI_Iallreduce by contract |
| C37-C39, C50 | Fortran tables of gs.c, fcrystal.c, findpts.c; fgs_fields strides; figs_many; static buffers | invariants over histories | LP64 sizes; lifetime of locals by stack frames; ownership, not contents, of the static buffer (C50) |
| C40, C41 | findpts_local_imp.h: hash table construction and search, map_points_to_els | order arguments valid for any monotone rounding | Newton solver and oriented-box test are arbitrary functions of element and point; far-away infinities only as n/0 |
| C42, C43 | findpts.c/findpts_imp.h: global hash, routing of points, merge of the candidates, findpts_setup, findpts | Net refinement | as C40; structs without padding bytes; the double sum of hash sizes is exact |
| C44 | findpts_eval and its local evaluation cache | Net refinement | evaluation at (element, r) is a function of the data of the element |
| C45, C46 | poly.c lagrange_setup/lagrange_fun families, legendre, legendre_d1, legendre_d2 | algebra, derivatives over R | exact reals |
| C47 | tensor.c, tensor.h, products, interpolation, gradients, with and without mxm | algebra over any commutative ring | CBLAS / user mxm by contract (record `good`) |
| C48 | lob_bnd.c, all functions | piecewise linear bounds; validity of stored bounds proved for n = 2, 3, 4 with enough points | PI is π; arrays in one memory with offsets |
| C49 | obbox.c, all functions, obbox.h tests | linear algebra, convexity | parts of data are separate arrays; contents of tensor_ig's work area |
| C51 | poly_imp.h generated tables and gll_lag functions, gen_poly_imp.c's output | reflection on the statements; interval arithmetic for the nodes | poly_imp.h was turned into Gallina by `gen/polyimp.py`, which is trusted to copy statements; literals are exact decimals |
| C52 | gauss_nodes, gauss_quad, lobatto_nodes, lobatto_quad | integrals of polynomials, orthogonality, real roots | the Newton iteration on one root is a parameter, assumed to return distinct roots in (-1,0) |
| C53 | findpts_el_2.c (all of it), findpts_el_start_2 | model in exact arithmetic (FindptsEl2.v); invariant of a point during the search, counting sort, lazily computed edges and corners; history of the structure as an inductive relation | the Jacobian of the element must not vanish on the closed square; division by 0 is UB; the areas of the scratch array are separate arrays whose total size is checked |
| C54 | the same | affine elements: the Newton step from the nearest node is exact; a counterexample for points outside | |
| C55 | `findptsms` (FindptsMs.v): the merge for `ims=1`, sort by (index, session) and the loop with the two winners; the search stages are those of C43 | loop = per point fold over the sorted entries; invariant with the list of finished sessions, their candidates and winners; the stages of C43 are proved for any session rule | |
| C56 | findpts_el_3.c (all of it), findpts_el_start_3 | model in exact arithmetic (FindptsEl3.v), as in C53: the active-set loop of newton_vol terminates since the objective decreases strictly between visits of the same constraint set, newton_face and newton_edge solve their subproblems exactly, faces, edges and corners are computed lazily with a bit mask | as in C53 |
| C57 | the same | affine elements: the Newton step from the nearest node is exact; a counterexample for points outside | |
| C58 | comm_dot | tensor_dot and the all-reduce of C15 | rounding |
| C59 | sequences of findpts_el_start, findpts_el, findpts_el_eval (2-D, 3-D) | induction on the sequence over the histories of C53/C56; the answer of a fresh one-point structure is the function | elements with a singular map where searched; rounding |
| C60 | gs, gs_vec, gs_many with an operation of any algebra | relational parametricity of the network semantics and of the gs programs in the value type (Param.v, ParamGs.v), applied to the free algebra (expressions) and to the counting monoid, for which C25-C30 give the exact result; rounding by induction on expressions; the counterexample by one computed schedule | which bracketing the pairwise and crystal methods use (only that it is one, and independent of values and schedule) |
| C61 | comm_allreduce, comm_reduce, comm_dot, comm_scan with an operation of any algebra | the induction over the tree of processes of C15 with the halving expression instead of the reduction, and for the scan the prefix expression on the way down; rounding by induction on the halving | MPI_Allreduce; underflow and overflow |
| C62 | copies on different processes with gs_all_reduce and any operation | the exchange puts the same vector (C61) on every process; the rows of the handle recovered from the topology; entries never exchanged hold the identity on both sides or their group is on one process (ArCopiesProof.v) | MPI_Allreduce; the crystal-router method; unique handles |
| C63 | rounding error of the kernels of tensor.h, with rounded addition and multiplication | the kernels as left folds of arbitrary operations, then error propagation with exponents counting the roundings (one lemma per contraction); data may carry errors of their own (TensorFold.v, TensorRoundProof*.v) | overflow and underflow; the rounding of the weights themselves |
| C64 | rounding error of lagrange_setup and lagrange_eval (value, first and second derivative), and of interpolation and gradients with the weights they return | the routines for arbitrary operations (PolyRound.v; the exact ones are an instance); values by products of factors in [1-eps, 1/(1-eps)], derivatives by the error propagation of C63 against the same recurrences with absolute values, which are derivatives of a shifted product (PolyRoundProof*.v) | the functions of poly_imp.h (C65); the rounding error of the nodes; overflow and underflow |
| C65 | rounding error of the bases of gll_lag_setup, for n <= 24 (the functions of poly_imp.h) and n > 24 | the programs of PolyImp.v for arbitrary operations and arbitrary values of the literals (PolyGllRound.v; the exact ones are an instance); an operation count over every program, checked by computation and proved sound against the recurrences of C64; doubling of machine numbers is assumed exact; literals within eps <= 1/1000; type double meets all hypotheses (Binary64*.v, with Flocq: round to nearest even with 53 bits) | overflow and underflow; the error of Newton's method for n > 24 (the nodes are a parameter) |
| C66 | gen_poly_imp.c, the generator of poly_imp.h: what it prints for n points is right for every n, not only those of the header; its nodes | its printing loops (PolyGen.v) as functions from n to the programs of PolyImpSyntax.v; the checks that C51 and C65 do by computation for n <= 24 are proved for every n by induction over the loops (PolyGenProof1/2.v); the whole header equals what the model prints (this also cross-checks gen/polyimp.py); three-term recursions and Newton's method as a relation (PolyGenNodes.v), error bound from the logarithmic derivative of a polynomial with real roots only | multiple-precision numbers are exact reals for the nodes; the printed digits are an argument; that Newton's method stops, and at a different root for every node; spaces and line breaks of the output |
| C67 | the nodes and the rule found by poly.c's own Newton iteration are nearly right | the loop with its stopping test and the step after it (PolyNewton.v), an argument of the models of gauss_nodes and lobatto_nodes_n of C52; lower bounds on the distances of the roots of P_n and P_n' from the differential equation's energy and bounds of P_n', P_n'' (PolyNewtonProof1.v); the last step is quadratic (PolyNewtonProof2.v, logarithmic derivative without one factor); nearly exact nodes into C52's perturbed quadrature (PolyNewtonProof5.v); near a root every step divides the error by 3, so the test is passed (PolyNewtonProof6.v) | exact reals; PI is exact; the loops are proved to stop only from first values within 1/(32 n^5) of a root: that they stop from the cosines of the code and that different first values lead to different roots is not proved (the latter is a hypothesis on the written nodes in C67_lobatto_quad; it is shown to return for n = 2 (Gauss) and n = 4 (Lobatto), so the hypotheses of C67_lobatto_quad have no witness here) |
| C68 | communicators: comm_init, comm_dup, comm_split, comm_free and every constructor and destructor that calls them | MPI's communicators as a resource of one process (CommLife.v); invariant over histories: live = the program's + the objects' + the lost ones, by counting | memory of the objects (Mem.v), the other processes (the result of MPI_Comm_split is an argument) |
| C69 | the memory a gs handle keeps, for every method and gs_auto | blocks as a resource (GsMem.v), the stages' maps as slots that are set or not; each setup gains, each free loses exactly a list of blocks, by counting; invariant over histories | work arrays, contents of the blocks |

Nothing is modelled of: fail.c's output, name.h's mangling macros, the serial (no MPI) build, the ids in messages (comm_gbl_id),
timing, verbose reporting.  Floating-point rounding is modelled in C40-C42, C60, C61 and C63-C65 only (relative errors; overflow and underflow are not).

## 3. Trusted base

* The kernel of Coq 8.16.1, including `vm_compute` (used for small closed computations).
* The reading of the C code: nothing was compiled or run.
* `gen/polyimp.py` (C51) as a translator of the straight-line code of poly_imp.h.
* Flocq's definition of rounding (generic_format, round, FLX_exp, ZnearestE), in Binary64*.v only; it has no axioms of its own.
* The MPI semantics of `Net.v`; MPI_Allreduce and MPI_Iallreduce by contract.
* Axioms, as printed by `Print Assumptions`:
  * none ("Closed under the global context"): every theorem of C01, C02, C03, C04, C05, C06, C07, C08, C09, C10, C11, C12, C13, C14, C15, C16, C17, C18, C19, C20, C21, C22, C23, C24, C25, C26, C27, C28, C29, C30, C31, C32, C33, C34, C35, C36, C37, C38, C39, C40, C41, C42, C43, C44, C47, C50, C55, C58, C62, C66_header, C68, C69, and every theorem of C60 and C61 but C60_rounding, C61_rounding, C61_comm_dot_rounding, C61_scan_rounding.
  * `ClassicalDedekindReals.sig_forall_dec`, `ClassicalDedekindReals.sig_not_dec`, `Classical_Prop.classic`, `FunctionalExtensionality.functional_extensionality_dep`: C49_calc_2, C49_calc_3, C66_lobatto_node, C67_gauss, C67_lobatto, C67_lobatto_quad, C67_gauss_stops, C67_lobatto_stops, C49_folded_refuted, C52_integral_unique, C52_roots, C52_gauss, C52_lobatto, C52_lobatto_table, C52_gauss_positive, C52_lobatto_positive, C52_lobatto_table_positive, C60_binary64, C63_binary64, C64_binary64, C65_binary64.
  * `ClassicalDedekindReals.sig_forall_dec`, `ClassicalDedekindReals.sig_not_dec`, `FunctionalExtensionality.functional_extensionality_dep`: C51_nodes, C66_gauss_node, C48_setup, C48_small, C48_more_points_refuted, C49_small, C52_gauss_nodes, C52_lobatto_points.
  * `ClassicalDedekindReals.sig_forall_dec`, `FunctionalExtensionality.functional_extensionality_dep`: C60_rounding, C61_rounding, C61_comm_dot_rounding, C61_scan_rounding, C63_dot, C63_products, C63_mtxm, C63_with_mxm, C63_interpolation, C63_gradient, C63_tensor_products, C64_exact, C64_lagrange, C64_shifted, C64_interpolation, C64_gradient, C65_exact, C65_table, C66_generated, C66_exact, C66_legendre, C65_newton, C59_solver_2, C59_solver_3, C45_lagrange, C45_nodes, C45_interpolation, C45_polynomial, C46_legendre, C46_legendre_d1, C46_legendre_d2, C46_preconditions_refuted, C51_gll_lag, C51_gll_lag_large, C48_points, C48_lin_1, C48_lin_2, C48_lin_3, C48_interval_1, C48_interval_2, C48_interval_3, C49_axis_test_2, C49_axis_test_3, C49_test_2, C49_test_3, C49_merge, C49_expand, C53_points, C53_setup, C53_search, C53_independent, C53_eval, C54_rectangle_exact, C54_nearest_refuted, C56_setup, C56_search, C56_independent, C56_eval, C57_brick_exact, C57_nearest_refuted.

## 4. Behaviour of the code found to differ from its documentation or from what a user would expect

Each is stated as a theorem named `..._refuted` (or `..._never`, `..._undefined`), next to a theorem for the case in which the expectation holds.

| where | what | theorem |
|-------|------|---------|
| sarray_transfer_ext_/fcrystal cap_rows | rows above the capacity are not dropped as documented (sign error) | C24_refuted |
| sarray_transfer.c | a struct with only the processor field divides by zero | C20_needs_payload_refuted |
| gs.h | claim that flagged entries are never set | C28_flagged_set_refuted |
| gs_setup unique | a flagged entry before the unflagged one on a process | C32_setup_unique_refuted |
| gs with the pairwise method and a non-associative operation | the copies of a value on different processes can come out different (with gs_all_reduce they agree: C62) | C60_copies_on_processes_refuted |
| igs | never works with the crystal router, nor in general with all-reduce | C35_* |
| comm_scan | its prefixes do not combine in rank order: with four processes the last gets v2 (v0 v1), wrong for an associative operation that does not commute (none of gs's) | C61_scan_in_order_refuted |
| gs_wait | waiting twice, negative or stale numbers | C36_*_refuted |
| hf2c tables | functions that do not check the handle | C37_hf2c_unchecked_refuted |
| fgs_fields | stride wrong for 64-bit integers; negative strides | C38_* |
| allreduce_free | never frees req: one block per setup with, or trial of, the all-reduce method | C69_all_reduce_refuted, C69_auto_refuted |
| fgs_unique | loses an MPI communicator per call | C68_fgs_unique_refuted |
| figs_many | keeps a pointer to a local array | C39_* |
| Fortran buffers | one static buffer shared by overlapping operations | C50_* |
| findpts local hash | closed boxes, flat boxes, no elements, far points, overflow of the table, small limits | C40_*_refuted, C41_*_refuted |
| findpts global hash | truncated sizes, flat elements | C42_*_refuted |
| findpts_eval | results for other points than those of findpts | C44_other_points_refuted |
| array_reserve | size_t wrap-around | C09_overflow_refuted |
| scratch layouts | element sizes not a multiple of the alignment | C10_unaligned_size_refuted |
| tensor_mtxv | zero columns | C47_mtxv_empty_refuted |
| legendre_d1/d2 | need n at least 1 / 2 | C46_preconditions_refuted |
| lob_bnd | bounds not valid for n=4, m=5 | C48_more_points_refuted |
| obbox | boxes need not contain folded elements | C49_folded_refuted |
| findpts_el_2 | a search started at a corner can stop there, flagged as converged, although the distance decreases along a side (the constraints are relaxed only where `dr*y < 0`, and dr is 0) | C54_nearest_refuted |
| findpts_el_3 | the same in 3-D; newton_vol's comment claims the exact solution of the trust region problem, which its result is not here (0 instead of (-1/2,0,0)) | C57_nearest_refuted |
| findpts_el_3 | dist2 belongs to the position before the last step, as in 2-D | C56_search (f3_dist) |
| findptsms | a session whose best element only has the point at its border can win over a session that has the point inside, if its interface distance is greater | ms_result (Properties_FindptsMs.v) |
| findpts_el_2 | dist2 is the squared distance of the position before the last step (oldr), not of r, unless the last step was rejected | C53_search (fo_dist) |

Seen while reading, not formalised: findpts_local_setup keeps pointers to its own stack variables (nsid, distfint; harmless with ims=0, where they are
not read), findptsms_setup keeps pointers to the caller's; ffindpts_setup leaves members uninitialised in 3D; findpts_local leaks; min/max on doubles use
±DBL_MAX rather than infinities as identities; iabsl of the most negative id overflows;
lob_bnd_lin_3 needs ns*nt <= ms*mt for its work area; fcrystal_ituple_sort does not check the range of its keys.
