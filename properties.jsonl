{"id": "C01", "title": "sortv returns the sorted multiset", "statement": "For separate input and output arrays, sortv_T(out,A,n,stride,buf) leaves in out exactly the n input values in ascending order (a permutation of the input, sorted), touches no memory outside out, the scratch buffer and its counters, and terminates, for n on both sides of the merge/radix switch-over at 256.", "quantifier": "all n, all key values of the unsigned type (any number of 8-bit digits), all strides", "why_tests_cant": "the merge sort is an iterative bit-trick schedule over two buffers whose shape depends on every bit of n, and radix skips digits depending on the OR of all keys; tests sample n and keys", "anchors": ["src/sort_imp.h: sortv, merge_sortv, MERGE_SORT, radix_sortv, radix_count, radix_offsets, radix_zeros, radix_passv"]}
{"id": "C02", "title": "in-place sortv", "statement": "When out aliases A and stride equals the element size, sortv sorts the array in place (sorted permutation of the input) for every n; for 2 <= n < 256 a non-unit stride with aliasing is rejected by fail().", "quantifier": "all n and key values with A==out", "why_tests_cant": "heap sort index arithmetic and the radix ping-pong buffer choice must be right for every n and every set of non-zero digits", "anchors": ["src/sort_imp.h: heap_sortv, sortv, radix_sortv"]}
{"id": "C03", "title": "sortp returns the stable sorting permutation", "statement": "sortp_T(buf,0,A,n,stride) returns perm, a permutation of 0..n-1, such that A[perm[0]],A[perm[1]],... is ascending and equal keys keep increasing index order (stability).", "quantifier": "all n, keys and strides", "why_tests_cant": "stability and bijectivity must hold for every pattern of equal keys and every n", "anchors": ["src/sort_imp.h: sortp, merge_sortp0, radix_sortp, radix_passp0_b, radix_passp_m, radix_passp_e, radix_passp0_be, merge_copy_perm"]}
{"id": "C04", "title": "sortp with a starting permutation re-arranges it stably", "statement": "sortp_T(buf,1,A,n,stride) with perm already in buf returns the stable re-arrangement of that perm: the output lists the same indices, keys ascending, and entries with equal keys stay in the order they had in the input perm. The one-element case is covered too.", "quantifier": "all n, keys, strides and starting permutations", "why_tests_cant": "composition of several sorts relies on stability for all inputs", "anchors": ["src/sort_imp.h: sortp, merge_sortp, radix_sortp, radix_passp_b, radix_passp_be"]}
{"id": "C05", "title": "sarray_permute applies the permutation in place and restores it", "statement": "For every permutation perm of 0..n-1, sarray_permute sets A[i] to the old A[perm[i]] for every i, leaves the perm array as it found it, terminates and stays in bounds, using one item of scratch.", "quantifier": "all n, all permutations, all item contents, n < 2^(w-1) for the sign-marking", "why_tests_cant": "the cycle-following loop marks visited entries by negating them inside perm; correctness depends on the cycle structure of the permutation", "anchors": ["src/sarray_sort.c: sarray_permute_, sarray_permute_buf_"]}
{"id": "C06", "title": "sarray_sort_k sorts structs lexicographically and stably", "statement": "sarray_sort / _2 / _3 / _4 leave the array a permutation of its structs, sorted lexicographically by (field1,...,fieldk), with ties in original order.", "quantifier": "all struct arrays, all key values, any number of keys", "why_tests_cant": "depends on stability of every pass for every tie pattern", "anchors": ["src/sarray_sort.h: sarray_sort_field, sarray_sort, sarray_sort_2, sarray_sort_3, sarray_sort_4", "src/sarray_sort.c"]}
{"id": "C07", "title": "floating-point sorts", "statement": "sortv/sortp on double/float produce a sorted (stable) permutation for every input on which < is a strict weak order (no NaN).", "quantifier": "all n and all key sequences over any strict weak order", "why_tests_cant": "needs all orderings; NaN-free domain", "anchors": ["src/sort_imp.h (REALSORT branch)", "src/sort.c"]}
{"id": "C08", "title": "crystal_tuple_sort keeps columns together", "statement": "crystal_tuple_sort (and crystal_ituple_sort) re-orders the vi/vl/vr columns by one common permutation which sorts them lexicographically by the listed keys; an out-of-range key is rejected; no key means no change.", "quantifier": "all array sizes, keys lists and contents", "why_tests_cant": "the same permutation buffer is re-used for three in-place permutes, so each must restore it", "anchors": ["src/fcrystal.c: fcrystal_tuple_sort, fcrystal_ituple_sort"]}
{"id": "C09", "title": "dynamic array growth", "statement": "After array_reserve(a,min): capacity >= min, capacity never shrinks, element count and contents unchanged; array_cat appends exactly the given items after the old ones; after any history of reserve and cat the array contains what was appended, in order, and k reallocations need more than (3/2)^(k-1) items. Holds while twice the bytes needed fit size_t; otherwise sizes wrap around (counterexample).", "quantifier": "all histories of reserve/cat operations", "why_tests_cant": "histories are unbounded", "anchors": ["src/mem.h: array_reserve_, array_resize_, array_cat_"]}
{"id": "C10", "title": "alignment and scratch layout", "statement": "align_as_(a,n) is the least multiple of a not below n; the scratch areas used by sarray_permute_buf_, sortv and sortp are aligned, lie inside the reserved buffer and do not overlap (item sizes multiples of their alignment; counterexample otherwise).", "quantifier": "all n, sizes and alignments (size a multiple of align)", "why_tests_cant": "layout arithmetic for all sizes", "anchors": ["src/mem.h: align_as_", "src/sarray_sort.c: sarray_permute_buf_", "src/sort_imp.h: sortp"]}
{"id": "C11", "title": "gs operations are commutative monoids", "statement": "On the integer domains add, mul, min, max and (on unsigned values of the local integer width) bpr are associative and commutative and the listed identity element is neutral; bpr computes the longest common binary prefix.", "quantifier": "all values of the domain", "why_tests_cant": "algebraic laws over 2^64 values", "anchors": ["src/gs_defs.h: GS_DO_add..GS_DO_bpr, GS_DEFINE_MONOID_ID"]}
{"id": "C12", "title": "gather/scatter/init kernels", "statement": "gs_gather(out,in,map): each listed out[i] becomes out[i] op in[j1] op in[j2]..., in order, everything else is unchanged; gs_scatter copies in[i] to each listed out[j], everything else unchanged; gs_init sets exactly the listed entries to the identity; array versions act elementwise.", "quantifier": "all maps (terminated by the sentinel), arrays, ops and domains, strides", "why_tests_cant": "map shapes are unbounded", "anchors": ["src/gs_local.c: DEFINE_GATHER, DEFINE_SCATTER, DEFINE_INIT, gs_gather_array, gs_init_array"]}
{"id": "C13", "title": "vector and multi-array kernels agree with the plain ones", "statement": "gs_gather_vec, gs_scatter_vec, gs_init_vec on vn interleaved components, and the *_many, vec_to_many and many_to_vec kernels, do for each component k exactly what the plain kernel does on that component alone, with no effect across components.", "quantifier": "all vn >= 1, maps, arrays", "why_tests_cant": "strided addressing for every vn and map", "anchors": ["src/gs_local.c: gs_gather_vec, gs_scatter_vec, gs_init_vec, gs_gather_many, gs_scatter_many, gs_init_many, gs_gather_vec_to_many, gs_scatter_many_to_vec, gs_scatter_vec_to_many"]}
{"id": "C14", "title": "comm_scan", "statement": "On every number of processes, comm_scan gives rank r the reduction of the contributions of ranks 0..r-1 (identity for r=0) in out[0] and of all ranks in out[1]; it completes without deadlock under every schedule and every MPI buffering policy.", "quantifier": "all np, vector lengths, commutative associative operations with the listed identity, all message schedules", "why_tests_cant": "np unbounded, schedules unbounded", "anchors": ["src/comm.c: scan_imp, comm_scan"]}
{"id": "C15", "title": "comm_allreduce (by-hand tree)", "statement": "On every number of processes the by-hand all-reduce leaves on every rank the same value, the reduction of all contributions; no deadlock, independent of schedule and buffering.", "quantifier": "all np, vector lengths, commutative associative operations, schedules", "why_tests_cant": "np and schedules unbounded", "anchors": ["src/comm.c: allreduce_imp, comm_allreduce"]}
{"id": "C16", "title": "comm_reduce_T", "statement": "comm_reduce_T(op,in,n) returns on all ranks the reduction of every element of every rank's array, including ranks with n=0.", "quantifier": "all np, array lengths and contents", "why_tests_cant": "unbounded sizes", "anchors": ["src/comm.c: comm_reduce__T"]}
{"id": "C17", "title": "results do not depend on message timing", "statement": "For any message-passing program in the library's style (posted receives with explicit source and tag, posted sends, wait on all): if one schedule that relies on no send buffering runs to completion, then every schedule, under every send-buffering policy, can only go on to completion, with the same result on every rank (no deadlock, no other result); and any two runs that complete, under any buffering, agree.", "quantifier": "all programs of this form, all schedules, all buffering policies", "why_tests_cant": "schedules are unbounded", "anchors": ["src/comm.h: comm_isend, comm_irecv, comm_wait, comm_send, comm_recv"]}
{"id": "C18", "title": "crystal_router delivers every message exactly once", "statement": "After crystal_router, the messages held by rank r are exactly (as a multiset) the messages that any rank held with target r before the call, with source field, length and payload intact; no deadlock under any schedule/buffering.", "quantifier": "all np >= 1, all message lists with target < np, payload lengths, schedules", "why_tests_cant": "np and message sets unbounded; odd sizes exercise the 3-way exchange", "anchors": ["src/crystal.c: crystal_router, crystal_move, crystal_exchange"]}
{"id": "C19", "title": "crystal_router uses about log2 P rounds", "statement": "crystal_router performs at most ceil(log2 np) exchange stages on every rank.", "quantifier": "all np and ranks", "why_tests_cant": "np unbounded", "anchors": ["src/crystal.c: crystal_router", "src/gs.c: cr_schedule"]}
{"id": "C20", "title": "sarray_transfer moves each struct to the named process", "statement": "sarray_transfer(T,A,proc,set_src,cr): on rank r afterwards A holds exactly the structs that any rank held with proc field r, all other bytes unchanged, proc field = source rank if set_src, = r otherwise; A.n is their number, for structs with at least one byte besides the proc field (for a struct that is only the proc field the call divides by zero).", "quantifier": "all np, arrays, struct sizes, field offsets, schedules", "why_tests_cant": "packing/unpacking byte layout for all sizes and unbounded np", "anchors": ["src/sarray_transfer.c: sarray_transfer_many, pack_int, unpack_int, num_rows, sarray_transfer_"]}
{"id": "C21", "title": "two transfers restore the array up to order", "statement": "Two consecutive sarray_transfer(...,1,...) calls return every rank's array to its original contents up to ordering.", "quantifier": "all np and arrays with valid proc fields", "why_tests_cant": "unbounded", "anchors": ["src/sarray_transfer.h", "src/sarray_transfer.c"]}
{"id": "C22", "title": "sarray_transfer_ext", "statement": "sarray_transfer_ext moves struct i to rank proc[i] with every byte unchanged.", "quantifier": "all np, arrays, struct sizes, strides", "why_tests_cant": "unbounded", "anchors": ["src/sarray_transfer.c: pack_ext, unpack_more, sarray_transfer_ext_"]}
{"id": "C23", "title": "multi-array transfer keeps columns together", "statement": "sarray_transfer_many / crystal_tuple_transfer move row i of all arrays together: on arrival, row k of each array comes from one and the same source row.", "quantifier": "all numbers of arrays, sizes and contents", "why_tests_cant": "unbounded", "anchors": ["src/sarray_transfer.c: pack_more, unpack_more, sarray_transfer_many", "src/fcrystal.c: fcrystal_tuple_transfer"]}
{"id": "C24", "title": "fixed-capacity transfer: correct within capacity, documented truncation does not hold", "statement": "crystal_tuple_transfer with capacity max: if at most max rows arrive at every rank, n is their number and all are in the caller's arrays. The documentation says that otherwise the first max rows are kept and the rest lost; this does not hold: there are inputs for which the arrays are written past max.", "quantifier": "all numbers of arriving rows and capacities", "why_tests_cant": "the truncation path runs only when a process receives more than max rows, split over messages in arbitrary ways", "anchors": ["src/sarray_transfer.c: cap_rows", "src/fcrystal.c: doc comment, fcrystal_tuple_transfer"]}
{"id": "C25", "title": "gs computes the group reduction", "statement": "With all ids non-negative, after gs(v,dom,op,t,g) with a handle of any method every v[i] with id[i]!=0 equals the op-reduction of all v[j] on all ranks whose id equals id[i]; setup returns on every rank.", "quantifier": "all np, id arrays, values, commutative monoid operations", "why_tests_cant": "unbounded process counts, id patterns, values", "anchors": ["src/gs.c: gs_setup, get_topology, gs_aux, pw_setup, pw_exec"]}
{"id": "C26", "title": "gs ignores zero ids", "statement": "Entries with id 0 neither contribute to nor are changed by any gs operation.", "quantifier": "all np, ids, values, modes, methods", "why_tests_cant": "unbounded", "anchors": ["src/gs.c: nonzero_ids, gs_aux"]}
{"id": "C27", "title": "gs with flagged ids, transpose=0", "statement": "With transpose==0, entries with negative id do not contribute but receive the reduction over unflagged members of their group (of all ranks); a group with no unflagged member gets the identity on the flagged entries.", "quantifier": "all np, ids with signs, values", "why_tests_cant": "unbounded", "anchors": ["src/gs.c: local_map, flagged_primaries_map, gs_aux, pw_comm_setup"]}
{"id": "C28", "title": "gs with flagged ids, transpose=1", "statement": "With transpose!=0, all entries contribute and unflagged entries are set to the reduction; flagged entries keep their value, except that where a group has only flagged entries on a rank the first of them is set to the reduction of those entries (so the claim in gs.h that flagged entries are never set is false when there are two or more such entries).", "quantifier": "all np, ids with signs, values", "why_tests_cant": "unbounded", "anchors": ["src/gs.c: local_map, gs_aux, pw_exec"]}
{"id": "C29", "title": "all gs methods agree", "statement": "gs_pairwise, gs_crystal_router, gs_all_reduce (and therefore whichever gs_auto picks) give the same result on every input.", "quantifier": "all np, ids, values, operations (associative+commutative)", "why_tests_cant": "unbounded; auto choice is timing dependent", "anchors": ["src/gs.c: pw_exec, cr_exec, allreduce_exec, auto_setup"]}
{"id": "C30", "title": "gs_vec and gs_many are repeated gs", "statement": "gs_vec(v,k,...) acts on each of the k components, and gs_many(vs,k,...) on each of the k arrays, exactly as gs would alone.", "quantifier": "all k>=1, np, ids, values", "why_tests_cant": "unbounded", "anchors": ["src/gs.c: gs_vec, gs_many, gs_aux"]}
{"id": "C31", "title": "gs_unique leaves exactly one unflagged member per group", "statement": "After gs_unique, |id[i]| is unchanged, zero stays zero, and for every non-zero label that had at least one unflagged (non-negative) entry on input exactly one (rank,index) pair in the whole machine carries it with positive sign.", "quantifier": "all np and id arrays", "why_tests_cant": "the owner is elected independently on each rank from its local view of the sharing list; agreement must hold for all sharing patterns", "anchors": ["src/gs.c: make_topology_unique, gs_unique"]}
{"id": "C32", "title": "gs_setup(unique) equals gs_unique followed by gs_setup", "statement": "Setting the unique argument gives the same gs behaviour as first calling gs_unique on a copy of the ids, provided on every rank no flagged entry comes before the first unflagged entry of its group; without that proviso (which gs.h does not mention) the claim is false.", "quantifier": "all np, ids", "why_tests_cant": "unbounded", "anchors": ["src/gs.c: gs_setup_aux, make_topology_unique"]}
{"id": "C33", "title": "topology discovery", "statement": "Setup finds for each rank exactly the pairs (label, other rank) where both ranks hold the label and at least one of them holds it unflagged; it reports them symmetrically with consistent primary indices and flags; the number of shared labels reported is exact and the ordinals given to shared labels are distinct, contiguous from 0 and agreed by all ranks.", "quantifier": "all np and id arrays", "why_tests_cant": "unbounded", "anchors": ["src/gs.c: nonzero_ids, unique_ids, shared_ids, shared_ids_aux"]}
{"id": "C34", "title": "igs ... gs_wait equals gs", "statement": "With a pairwise handle, igs (igs_vec, igs_many), then any other collective work that does not use the same arrays (including other gs and igs operations), then gs_wait leaves in the user's array exactly what gs (gs_vec, gs_many) would, without deadlock, and the work in between gives what it gives alone; two operations on two handles and buffers can be outstanding at once and waited for in either order. This holds for every operation, also one that is neither associative nor commutative (floating-point addition): the result is bit for bit the one of gs, the same bracketing of the contributions, depending only on the ids and the handle.", "quantifier": "all np, ids, values, operations and domains whatever their algebra, schedules, work in between", "why_tests_cant": "unbounded; overlapping of operations", "anchors": ["src/gs.c: igs, gs_wait, gs_aux_irecv, gs_aux_isend, gs_aux_wait, pw_exec_irecv, pw_exec_isend, pw_exec_wait, allreduce_exec_i"]}
{"id": "C35", "title": "igs with the methods other than pairwise", "statement": "igs/gs_wait work with an all-reduce handle on one process, or when the library uses MPI_Iallreduce, MPI knows datatype and operation, and at least one id is shared. In every other case they never complete normally: with a crystal-router handle (including one gs_auto picked) the function pointers are unset; with all-reduce on several MPI processes and no GSLIB_USE_NBC, or gs_bpr, the program stops; with nothing shared the request does not exist. The expectation that igs can be used wherever gs can is refuted.", "quantifier": "all methods, build configurations, ids, schedules", "why_tests_cant": "function pointers left unset are only observed on some paths", "anchors": ["src/gs.c: cr_setup, auto_setup, gs_aux_irecv"]}
{"id": "C36", "title": "non-blocking handle table", "statement": "In any history of igs and gs_wait calls in which every wait is for an operation not yet waited for, in any order and with any number outstanding, gs_wait(h) completes exactly the operation h was returned for and nothing is undefined; when none is outstanding the table is released; a number beyond the table is ignored. Waiting twice while another operation is outstanding, or for a negative number, is undefined (refuted expectation).", "quantifier": "all histories of igs*/gs_wait calls", "why_tests_cant": "histories unbounded", "anchors": ["src/gs.c: igs, igs_vec, igs_many, gs_wait"]}
{"id": "C37", "title": "Fortran handle checking", "statement": "For any history of setup/use/free calls with any integers: the k-th setup returns handle k (handles are distinct, never reused); a use with valid codes reaches exactly the object set up under that handle with the datatype and operation the codes mean; a number never handed out, negative or freed, or codes out of range, stop the program with fail(); nothing is undefined. findpts: ndim must be 2 or 3 and objects only reach functions of their dimension. (gs_hf2c checks nothing: refuted expectation.)", "quantifier": "all histories of setup/op/free calls", "why_tests_cant": "histories unbounded", "anchors": ["src/gs.c: fgs_setup_pick, fgs_check_handle, fgs_check_parms, fgs_free", "src/fcrystal.c: fcrystal_setup, CHECK_HANDLE, fcrystal_free", "src/findpts.c: ffindpts_setup"]}
{"id": "C38", "title": "gs_op_fields strides by the datatype's size", "statement": "gs_op_fields works on the n fields starting at u and stride elements of the datatype apart: true for double precision, and for all datatypes when sint and slong are int. With 64-bit integers (slong in the default build) the integer datatypes are strided by 4 bytes per element, so the expectation is refuted; negative strides fail where sint is int.", "quantifier": "all table states, datatypes, integer-width configurations, strides, n", "why_tests_cant": "depends on build configuration x datatype", "anchors": ["src/gs.c: fgs_fields, fgs_dom, gs_dom_size"]}
{"id": "C39", "title": "non-blocking Fortran multi-array operation keeps its arrays alive", "statement": "igs_op and igs_op_vec can be waited for after any other operations, and the wait completes exactly that call. igs_op_many never can: the wait reads an array of pointers that was a local variable of igs_op_many (expectation refuted).", "quantifier": "all call histories, all operations in between", "why_tests_cant": "dangling pointer behaviour depends on the stack history", "anchors": ["src/gs.c: figs_many, igs_many, gs_wait"]}
{"id": "C40", "title": "hash lookup never misses a candidate element", "statement": "After the setup of the search on one process (element boxes not degenerate, table sizes in range), for each point whose cell can be computed every element whose axis-aligned box contains the point - below its upper faces, or these being at the end of the mesh - and passes the box test is considered, and the search returns the best candidate; no index is out of range. Counterexamples for the excluded cases: a point on an upper face inside the mesh is not found in that element; a flat box at the end of the mesh makes the setup write outside the table; a process without elements and points far outside have undefined conversions.", "quantifier": "all boxes, points, table sizes; every monotone rounding", "why_tests_cant": "unbounded geometry", "anchors": ["src/findpts_local_imp.h: hash_index, hash_range, hash_build, hash_count, hash_opt_size"]}
{"id": "C41", "title": "local hash table respects its size limit", "statement": "The local hash table built with limit max_size >= nel+2 has at most max_size integers, exactly as many as are used, and the list of each cell contains each element whose box overlaps the cell exactly once and nothing else. Counterexamples: entry counts that overflow uint, and max_size <= nel.", "quantifier": "all element boxes and limits", "why_tests_cant": "unbounded", "anchors": ["src/findpts_local_imp.h: hash_opt_size, hash_build"]}
{"id": "C42", "title": "global hash routes each point to every process that may own it", "statement": "findpts_setup returns on all processes in every execution; then for each point all processes compute the same cell, and the process keeping the cell lists, once each, exactly the processes having an element whose box overlaps the cell, in particular every process having an element whose box contains the point (below its upper faces, or these being at the end of the mesh). Counterexamples: tables with more cells than a uint when np is not a power of two, and flat elements.", "quantifier": "all np, boxes, points, schedules; every monotone rounding", "why_tests_cant": "unbounded", "anchors": ["src/findpts_imp.h: hash_build, fill_hash, set_local_mask, table_from_hash, hash_index", "src/findpts.c: set_bit, get_bit, count_bits"]}
{"id": "C43", "title": "findpts merge picks the best candidate", "statement": "findpts returns in every execution; for each point the result (code,proc,el,r,dist2) is that of an internal candidate if any is considered, otherwise of a border candidate with minimum dist2, and 'not found' only if no element of any process is a candidate, where every element of any process whose box contains the point is considered; the data of points that are not found (el, r, dist2) are untouched, and each result is written to its own point.", "quantifier": "all np, meshes, point sets, solver results, schedules and arrival orders", "why_tests_cant": "arrival order is arbitrary", "anchors": ["src/findpts_imp.h: findptsms (merge)", "src/findpts_local_imp.h: findptsms_local"]}
{"id": "C44", "title": "findpts_eval returns each value to its own point", "statement": "findpts_eval returns in every execution, out[i] is the value of the input field at (proc,el,r) of point i for every found point; entries of unfound points are unchanged; this holds again for further fields at the same points. Counterexample: a second call with other points and no findpts in between uses the points of the first call.", "quantifier": "all np, point sets, fields", "why_tests_cant": "unbounded", "anchors": ["src/findpts_imp.h: setup_fev_aux, findptsms_eval", "src/findpts_local_imp.h: findptsms_local_eval"]}
{"id": "C45", "title": "Lagrange basis evaluation", "statement": "lagrange_setup/lagrange_eval: for distinct nodes the computed p_i(x) is the Lagrange basis (1 at node i, 0 at the others, and sums interpolate every polynomial of degree < n exactly), and the returned first/second derivatives are its derivatives (exact arithmetic).", "quantifier": "all n, distinct nodes, all x", "why_tests_cant": "identity over the reals", "anchors": ["src/poly.c: lagrange_eval, lagrange_coef, lagrange_setup"]}
{"id": "C46", "title": "Legendre evaluation", "statement": "legendre, legendre_d1, legendre_d2 compute P_n, P_n', P_n'' (exact arithmetic) for every n >= 0, 1, 2 (as their comments require; below these legendre_d1 and legendre_d2 are wrong).", "quantifier": "all n and x", "why_tests_cant": "identity over the reals for all n", "anchors": ["src/poly.c: legendre, legendre_d1, legendre_d2"]}
{"id": "C47", "title": "tensor kernels", "statement": "tensor_dot/mxv/mtxv/mxm/mtxm compute the dot and matrix products they document without touching the rest of the result array, and tensor_i1..i3, ig1..ig3, 2t, 3t the tensor-product contractions, with the documented work sizes (exact arithmetic); tensor_mtxv needs a non-empty inner dimension (counterexample).", "quantifier": "all sizes and entries of any commutative ring; every correct implementation of the matrix products", "why_tests_cant": "unbounded sizes", "anchors": ["src/tensor.c", "src/tensor.h"]}
{"id": "C48", "title": "lob_bnd bounds enclose the polynomial", "statement": "If the piecewise-linear functions that lob_bnd_setup stores bound the Lagrange basis functions, then lob_bnd_lin_1/2/3 write piecewise (bi-, tri-)linear bounds for each of the polynomials and lob_bnd_1/2/3, with the work space lob_bnd.h asks for, return an interval containing every value of the polynomial on the reference element, and write nothing else (lob_bnd_lin_3/lob_bnd_3 need ns*nt <= ms*mt). lob_bnd_setup stores the Lobatto nodes, projection functionals, Chebyshev points and the bounds from tangents; these are bounds for n=2, for n=3 with m>=4, for n=4 with m>=7, but not for all m>n: with n=4, m=5 the returned interval can miss values of the polynomial (exact arithmetic).", "quantifier": "all n, m, numbers of polynomials, nodal values, memory contents, evaluation points in [-1,1]^d", "why_tests_cant": "continuum of points", "anchors": ["src/lob_bnd.c: lob_bnd_setup, lob_bnd_fst, lob_bnd_ext, lob_bnd_lin_1, lob_bnd_lin_2, lob_bnd_lin_3, minmax, lob_bnd_1, lob_bnd_2, lob_bnd_3", "src/lob_bnd.h: lob_bnd_size"]}
{"id": "C49", "title": "bounding boxes contain the elements", "statement": "obbox_test_2/3 (obbox_axis_test_2/3) is non-negative exactly for the points in both boxes (in the axis-aligned box). obbox_calc_2/3 with sufficient points per direction and tol >= 0 writes, without reading or writing outside its arrays, for each element boxes such that every boundary point is in the axis-aligned box and, if the Jacobian of the element does not vanish inside, every point of the element is in the axis-aligned and in the oriented box. For folded elements this is false (obbox.h states it for all).", "quantifier": "all elements (nodal coordinates), all points of the reference square/cube, all orders and numbers of points for which lob_bnd_setup is right, all tolerances >= 0, any number of elements", "why_tests_cant": "continuum of points and elements; the argument is that a linear function of a regular map has no extremum inside", "anchors": ["src/obbox.h: obbox_axis_test_2/3, obbox_test_2/3", "src/obbox.c: obbox_calc_2, obbox_calc_3, dbl_range_merge, dbl_range_expand, bbox_2_tfm, bbox_3_tfm, copy_strided, mat_inv_2, mat_inv_3"]}
{"id": "C50", "title": "overlapping operations in Fortran share one buffer", "statement": "While an operation started by igs_op that exchanges data is outstanding, any other Fortran gs operation that exchanges data, blocking or not, on any handle, overwrites messages in flight (the expectation that they can overlap, true in C with two buffers, is refuted); with nothing outstanding there is no conflict.", "quantifier": "all histories", "why_tests_cant": "the damage depends on message timing and history", "anchors": ["src/gs.c: static_buffer, figs, figs_vec, fgs, gs_aux, gs_aux_irecv"]}
{"id": "C51", "title": "Gauss-Lobatto-Legendre nodes and bases", "statement": "lobatto_nodes(z,n) for 2 <= n <= 24 writes exactly n increasing numbers from -1 to 1, the inner ones within 10^-17 of the n-2 points where P_(n-1)' vanishes (all of them); the specialised function returned by gll_lag_setup, after the setup has filled gll_lag_size(n) numbers, returns in every sequence of evaluations the Lagrange basis for these nodes and its first and second derivatives, and for n > 24 the general one does so for the computed nodes (exact arithmetic).", "quantifier": "all 23 generated functions, all points x, all sequences of evaluations, all n", "why_tests_cant": "2000 lines of generated straight-line code must be polynomial identities; the table must be complete and accurate beyond double precision", "anchors": ["src/poly_imp.h: gll_lag_02..gll_lag_24, gllz_table, gll_lag_table", "src/poly.c: lobatto_nodes_fix, lobatto_nodes, gll_lag_size, gll_lag_setup"]}
{"id": "C52", "title": "Quadrature rules integrate polynomials exactly", "statement": "gauss_quad with n nodes gives nodes (the n roots of the Legendre polynomial P_n) and weights such that the weighted sum of the values of any polynomial of degree at most 2n-1 is its integral over [-1,1]; lobatto_quad with n nodes (-1, 1 and the extrema of P_(n-1)) integrates every polynomial of degree at most 2n-3. With exact arithmetic and roots found by the Newton iteration this is exact; for the tabulated Lobatto nodes (n <= 24) the error is at most 2e-11 times the sum of the absolute values of the coefficients. All weights are positive (and, but for the tables' error, sum to 2).", "quantifier": "every number of nodes, every polynomial up to the degree, every Newton iteration that converges to distinct negative roots", "why_tests_cant": "There are infinitely many polynomials and node counts; a test on some monomials with a tolerance cannot tell an exact rule from one that is merely close.", "anchors": ["src/poly.c: gauss_nodes, lobatto_nodes_aux, lobatto_nodes_n, lobatto_nodes, gauss_quad, lobatto_quad", "src/poly.h"]}
{"id": "C53", "title": "The 2-D element search is memory-safe, total, and reports truthfully", "statement": "After findpts_el_setup_2 and any sequence of findpts_el_start_2 (new element), findpts_el_2 and findpts_el_eval_2 calls, a search of up to npt points in an element whose Jacobian does not vanish terminates within 50 steps without out-of-bounds access or division by zero, and leaves for every point, in its own slot: coordinates r inside [-1,1]^2; flags that name only sides r really lies on; dist2 equal to the squared distance at the last accepted position and never larger than that of any node of the element; dist2p equal to the predicted decrease of the last step (of the linear or, along an edge, the quadratic model), a step from an interior position being a minimum of the linear model in a neighbourhood; and a converged flag only if the last step was shorter than tol, or r is a corner at which the distance does not decrease to first order, or a rejected step predicted a decrease below tol times the squared distance. The result depends only on the point, the element and tol (not on the batch, the slot, the capacity, lazily computed edge data or earlier calls). findpts_el_eval_2 returns the interpolated values.", "quantifier": "all numbers of nodes (Lobatto nodes; 2..24 from the table), all elements with non-vanishing Jacobian, all points nearer than sqrt(DBL_MAX) to a node, all batches and histories, exact arithmetic", "why_tests_cant": "the points are regrouped by constraint after every step with a counting sort over shared scratch, faces are computed lazily and cached, and every step branches on real comparisons; no test covers all elements, points, batches and histories", "anchors": ["src/findpts_el_2.c: findpts_el_setup_2, findpts_el_2, findpts_el_eval_2, findpt_area, findpt_edge, findpt_pt, newton_area, newton_edge, reject_prior_step_q, seed, get_edge, get_pt", "src/findpts_el.h: findpts_el_start_2"]}
{"id": "C54", "title": "Points in a rectangle are found exactly; a converged position outside need not be nearest", "statement": "If the element is a rectangle (in any position and direction), findpts_el_2 finds every point of the element: r is exactly its reference position and the flags say converged, on no side, for every tol > 0. For points outside, the position reported as converged is not always the nearest point of the element, not even to first order: for a parallelogram and any tol > 0 the search stops at a corner from which the distance decreases along a side (refutation).", "quantifier": "all rectangles, node numbers, points, batches, tolerances; refutation for every tolerance", "why_tests_cant": "exactness holds for all points and all rectangles; the failure outside needs a particular geometry", "anchors": ["src/findpts_el_2.c: findpts_el_2, newton_area, seed"]}
{"id": "C55", "title": "Search with several sessions returns the winner of the sessions' winners", "statement": "After findptsms_setup on every process (process q belonging to session sid q), findptsms returns on all processes in every execution, and for every point: with session_id_match=1 only elements of processes of the point's own session are considered, otherwise only those of the other sessions; every such element whose box contains the point (not on an upper face) and whose box test is passed is considered; within a session the winner is an element the point is inside of, or else one of least distance; of the sessions' winners the one with the greatest interface distance is returned (even if it is a border result and another session has the point inside); a point no session finds gets code NOT_FOUND with r, dist2 and el unchanged.", "quantifier": "all numbers of processes, sessions, meshes, points, session ids, results before the call, message schedules", "why_tests_cant": "the winner must be right for every distribution of sessions, candidates and ties over processes and every order in which results come back", "anchors": ["src/findpts_imp.h: findptsms, findptsms_setup", "src/findpts_local_imp.h: findptsms_local"]}
{"id": "C56", "title": "The 3-D element search is memory-safe, total, and reports truthfully", "statement": "After findpts_el_setup_3 and any sequence of findpts_el_start_3 (new element), findpts_el_3 and findpts_el_eval_3 calls, a search of up to npt points in an element whose Jacobian does not vanish terminates within 50 steps without out-of-bounds access or division by zero, and leaves for every point, in its own slot: coordinates r inside [-1,1]^3; flags that name only faces r really lies on; dist2 equal to the squared distance at the last accepted position and never larger than that of any node of the element; dist2p equal to the predicted decrease of the last step, by the linear model inside, where the step reaches the point if the linear model does so in the trust region, and by the quadratic model on a face or edge, where the step is the best one of that face or edge in the trust region; and a converged flag only if the last step was shorter than tol, or r is a corner at which the distance does not decrease to first order, or a rejected step predicted a decrease below tol times the squared distance. The result depends only on the point, the element and tol (not on the batch, the slot, the capacity, lazily computed face and edge data or earlier calls). findpts_el_eval_3 returns the interpolated values.", "quantifier": "all numbers of nodes (Lobatto nodes; 2..24 from the table), all elements with non-vanishing Jacobian, all points nearer than sqrt(DBL_MAX) to a node, all batches and histories, exact arithmetic", "why_tests_cant": "the points are regrouped by 27 constraint classes after every step with a counting sort over shared scratch, faces, edges and corners are computed lazily and cached, and every step branches on real comparisons; no test covers all elements, points, batches and histories", "anchors": ["src/findpts_el_3.c: findpts_el_setup_3, findpts_el_3, findpts_el_eval_3, findpt_vol, findpt_face, findpt_edge, findpt_pt, newton_vol, newton_face, newton_edge, reject_prior_step_q, seed, get_face, get_edge, get_pt", "src/findpts_el.h: findpts_el_start_3"]}
{"id": "C57", "title": "Points in a brick are found exactly; a converged position outside need not be nearest", "statement": "If the element is a brick (a rectangular parallelepiped in any position and direction), findpts_el_3 finds every point of the element: r is exactly its reference position and the flags say converged, on no face, for every tol > 0. For points outside, the position reported as converged is not always the nearest point of the element, not even to first order: for a parallelepiped and any tol > 0 the search stops at a corner from which the distance decreases along an edge (refutation).", "quantifier": "all bricks, node numbers, points, batches, tolerances, histories; refutation for every tolerance", "why_tests_cant": "exactness holds for all points and all bricks", "anchors": ["src/findpts_el_3.c: findpts_el_3, newton_vol, seed"]}
{"id": "C58", "title": "comm_dot returns the global inner product on all processes", "statement": "comm_dot(comm,v,w,n) returns in every execution, and on every process, the sum over all processes of the products v[i]*w[i] of their first n entries, for any number of processes and any n per process (also 0); no process reads beyond its n entries.", "quantifier": "all process counts, vectors, per-process lengths and schedules; exact arithmetic (any commutative ring)", "why_tests_cant": "all process counts and message schedules", "anchors": ["src/comm.c: comm_dot", "src/tensor.c: tensor_dot"]}
{"id": "C59", "title": "The element solver is a fixed function of the element and the point over any sequence of calls", "statement": "Between findpts_el_setup and the end of its life, one element structure answers every sequence of findpts_el_start, findpts_el and findpts_el_eval calls as if each answer for a point were computed by one fixed function of the current element's coordinates and the point: earlier elements, earlier searches and evaluations, the other points of the batch, the batch size the structure was set up for, and the routine used for matrix products leave no trace in code, reference coordinates and distance; and evaluation returns the value of the nodal polynomial. The function's answers are those of C53 and C56 (critical point, distance).", "quantifier": "all sequences of calls, all elements (regular where searched), all points within reach of DBL_MAX, all batch sizes; 2-D and 3-D; exact arithmetic", "why_tests_cant": "ranges over all histories of the structure's caches and work areas", "anchors": ["src/findpts_el_2.c: findpts_el_2, findpts_el_eval_2", "src/findpts_el_3.c: findpts_el_3, findpts_el_eval_3", "src/findpts_local_imp.h: findpts_local, findpts_local_eval"]}
{"id": "C60", "title": "What a gather-scatter computes when the operation is not associative (floating-point addition)", "statement": "gs, gs_vec and gs_many return on every process, in every execution, for every operation whatever its algebra, and each result is one bracketing of exactly the values that contribute to that entry, each used once, with the operation (and the identity) passed; the bracketing depends on the ids, the handle and transpose only, not on the values, the operation or the schedule. Hence for rounded addition with relative error eps the result is within ((1+eps)^(n-1)-1) times the sum of absolute values of the exact sum of its n contributions, for every method. On one process all entries of a group come out identical. With an operation that commutes and has its identity as neutral element, every entry with one contribution gets exactly that value and every entry with two gets exactly op of the two, on every process and with every method, so copies shared by two entries agree bit for bit. With more, copies on different processes need not agree: with the pairwise method and three processes the copies of one group can differ, even for a commutative operation.", "quantifier": "all ids that fit, all methods, all operations and domains, all values, all buffer contents, all schedules, any number of processes", "why_tests_cant": "ranges over all operations, id patterns and schedules; the disagreement across processes appears only for particular roundings", "anchors": ["src/gs.c: gs, gs_vec, gs_many, gs_setup, pw_exec, cr_exec, allreduce_exec", "src/gs_local.c: gs_gather, gs_scatter", "src/comm.c: comm_allreduce_imp"]}
{"id": "C61", "title": "comm_allreduce, comm_reduce, comm_dot and comm_scan with a non-associative operation: same result everywhere, by halving", "statement": "comm_allreduce as the library itself implements it returns, in every execution, the same vector on every process for every operation whatever its algebra: element i combines the elements i of the processes in rank order, by recursive halving (first np/2 ranks with the rest), so each value passes through at most ceil(log2 np) operations. comm_reduce first folds each process's numbers from left to right starting with the identity, comm_dot adds its products from left to right starting with zero. Hence with rounded addition (relative error eps) comm_allreduce is within ((1+eps)^ceil(log2 np) - 1) times the sum of absolute values of the exact sum, and comm_dot of at most N numbers per process within ((1+eps)^(ceil(log2 np)+N+1) - 1) times that of the products. comm_scan gives process p, for every operation, one fixed combination of the values of the processes before p, each used once and passed through at most 2 ceil(log2 np) - 1 operations, followed by the comm_allreduce combination of all; with rounded addition each prefix is within ((1+eps)^(2 ceil(log2 np) - 1) - 1) times its sum of absolute values. The prefix does not combine in rank order: with four processes the last gets v2 (v0 v1), so an associative operation that does not commute does not give the scan.", "quantifier": "all numbers of processes, all vectors, all operations and domains, all schedules; the library's implementation (MPI_Allreduce, used instead for types and operations that MPI has, is outside)", "why_tests_cant": "ranges over all process counts, operations and schedules", "anchors": ["src/comm.c: comm_allreduce, comm_allreduce_imp, comm_reduce, comm_dot, comm_scan, scan_imp"]}
{"id": "C62", "title": "With the all-reduce method the copies of a value agree on all processes, whatever the operation", "statement": "After gs, gs_vec or gs_many with a handle set up by gs_all_reduce, any two entries, on any two processes (or the same one), that belong to the same group come out identical, for every operation whatever its algebra (so also for floating-point addition): with transpose = 0 all entries whose ids agree up to sign, with transpose = 1 the unflagged entries with the same id.", "quantifier": "all ids that fit, all operations and domains, all values, all buffer contents, all schedules, any number of processes; the library's own all-reduce", "why_tests_cant": "ranges over all operations, id patterns, values and process counts; a disagreement shows only for particular roundings", "anchors": ["src/gs.c: gs_setup, gs, gs_vec, gs_many, allreduce_exec, allreduce_setup", "src/comm.c: comm_allreduce_imp"]}
{"id": "C63", "title": "The rounding error of interpolation, gradient and tensor products is bounded", "statement": "Let addition and multiplication return the exact result up to a relative error of at most eps. Then the scalar product, the matrix products, the interpolation and gradient kernels (1 to 3 dimensions) and the tensor products of 2 and 3 matrices return, in place of the exact sum of products S, a value that differs from S by at most ((1+eps)^k - 1) A, where A is the same sum with all weights and values replaced by their absolute values, and k is n+1 for a sum of n products, nr+1, nr+ns+2, nr+ns+nt+3 for interpolation and each gradient component from nr, ns, nt points, and mr+ms+2, mr+ms+mt+3 for tensor products. If the weights and values carry relative errors of their own (kx, ky, kz, ku roundings), k grows by their sum. Nothing outside the result is written and the kernels always return.", "quantifier": "all eps, all such additions and multiplications, all sizes, arrays and weights; for the matrix products either those of tensor.c or any with the same entrywise error bound", "why_tests_cant": "rounding errors depend on the values and the order of the operations; a bound must hold for every input", "anchors": ["src/tensor.h: tensor_dot, tensor_i1, tensor_i2, tensor_i3, tensor_ig1, tensor_ig2, tensor_ig3, tensor_2t, tensor_3t", "src/tensor.c: tensor_mxv, tensor_mtxv, tensor_mxm, tensor_mtxm"]}
{"id": "C64", "title": "Lagrange weights are computed with high relative accuracy, and interpolation with them has a bounded rounding error", "statement": "Let every arithmetic operation return the exact result up to a factor between 1-eps and 1+eps, eps < 1, and let 1+h = 1/(1-eps). For n distinct nodes, after lagrange_setup every call of lagrange_eval in any sequence returns basis values with relative error at most (1+h)^(6n-1) - 1 at every point; first derivatives that differ from the exact ones by at most ((1+h)^(7n) - 1) times the sum of the absolute values of their terms, second derivatives with 7n+2 in place of 7n; nothing outside lagrange_size(n) numbers of data and the n(der+1) numbers of p is touched. Interpolating with such weights in 1, 2 or 3 dimensions gives the value of the interpolant at the point up to ((1+h)^(7N) - 1) times the sum of the absolute values of its terms, where N is the total number of nodes over the directions; the gradient up to 8N+2 or 8N+3 roundings.", "quantifier": "all eps < 1, all such operations, all n, node sets without repetition, points, values and sequences of calls", "why_tests_cant": "a rounding error bound must hold for every set of nodes and every point, including those close to a node", "anchors": ["src/poly.c: lagrange_setup, lagrange_coef, lagrange_eval, lagrange_size", "src/tensor.h: tensor_i1, tensor_i2, tensor_i3, tensor_ig2, tensor_ig3"]}
{"id": "C65", "title": "The Gauss-Lobatto-Legendre bases of gll_lag_setup are evaluated with a bounded rounding error", "statement": "Let every arithmetic operation return the exact result up to a factor between 1-eps and 1+eps, doubling of machine numbers be exact, and the compiler's value of every table literal be within a relative error eps <= 1/1000. For 2 to 24 points lobatto_nodes returns n distinct nodes, each the tabulated one up to a relative error eps, and the function gll_lag_setup returns then gives, in every sequence of calls at machine numbers, the values and the first and second derivatives of the Lagrange basis of exactly those nodes, with the same bounds as lagrange_eval (C64): relative error (1+h)^(6n-1) - 1 for values, 7n and 7n+2 roundings against the sums of the absolute values of the terms for derivatives, 1+h = 1/(1-eps). Nothing outside gll_lag_size(n) numbers of data and the n(der+1) numbers of p is touched. For more points the same holds for whatever distinct nodes Newton's method stores (without assumption on doubling). In type double without overflow and underflow, values have a relative error of at most 144/2^53, and first derivatives an error of at most 169/2^53 times the sum of the absolute values of their terms.", "quantifier": "all n >= 2, all eps, all such operations and literal values, all points and sequences of calls", "why_tests_cant": "there are 23 separate hand-unrolled functions, and a rounding error bound must hold at every point, including those close to a node", "anchors": ["src/poly.c: gll_lag_setup, lagrange_coef, lobatto_nodes, lobatto_nodes_fix", "src/poly_imp.h: gll_lag_02 ... gll_lag_24, gllz_04 ... gllz_24"]}
{"id": "C66", "title": "The code generator of the fixed-size bases is right for every number of points", "statement": "For every n >= 2 and every list of n/2 - 1 constants, the C function that gen_poly_imp prints for n points, used with the weights that lagrange_coef computes with it, gives in every sequence of calls the values and (on request) the first and second derivatives of the Lagrange basis polynomials of the n points -1, the negated constants, 0 if n is odd, the constants backwards, 1, whenever these are distinct: exactly in exact arithmetic, and with the error bounds of C65 when operations are rounded. Nothing outside the n weights and the n(der+1) results is written. The file src/poly_imp.h of the repository is what the generator prints for 2 to 24 points. The recursions the generator uses for its nodes give the Legendre polynomials and their first and second derivatives for every degree; in exact arithmetic every Gauss node it computes for n points has a root of P_n within n+1 times the last Newton correction (0 is one, for the middle of an odd number), and every inner Lobatto node a critical point of P_(n-1) within n-1 times the last correction, wherever the iteration was started.", "quantifier": "all n >= 2, all constants with distinct points, all sequences of calls, all arithmetics with relative error eps and exact doubling", "why_tests_cant": "the generator has a size parameter (GLL_LAG_FIX_MAX) and unrolls a recursion whose boundary cases depend on n, on its parity and on the position of the node; a test compares one output of it", "anchors": ["src/gen_poly_imp.c: print_gll_lag_fix, main, legendre, legendre_d1, legendre_d2, newton, gauss_node, lobatto_node", "src/poly_imp.h: gll_lag_02 ... gll_lag_24, gllz_table, gll_lag_table", "src/poly.c: lagrange_coef"]}
{"id": "C67", "title": "Newton's iteration in poly.c finds the nodes", "statement": "gauss_nodes with 1 to 100 points and lobatto_nodes with 25 to 101 points (fewer points are tabulated, C51): when the call returns, exactly the n entries are written, they are antisymmetric about 0 (the middle one of an odd number is 0; the Lobatto end points are -1 and 1), and every node is within n^7/2^86 of a root of the Legendre polynomial P_n (Gauss), or every inner node within (n-1)^7/2^86 of a root of the derivative of P_(n-1) (Lobatto): the loop's stopping test |x - ox| <= -x*EPS is enough. When the nodes lobatto_quad wrote are more than twice that distance apart, its weights are positive and its rule integrates every polynomial of degree at most 2n-3 up to 4(n^2(n-1)^2+n)(n-1)^7/2^86 times the sum of the absolute values of the coefficients. Started within 1/(32 n^5) of a negative root, the iteration stops, for every n, near that root. All in exact arithmetic.", "quantifier": "every number of points up to 100 (101), every initial content of the arrays, every number of rounds the loops take", "why_tests_cant": "tests compare a few orders in floating point with tables; that the stopping test bounds the distance to a root of every order needs bounds on the distances of the roots, which no run shows", "anchors": ["src/poly.c: gauss_nodes", "src/poly.c: lobatto_nodes_aux", "src/poly.c: lobatto_nodes_n", "src/poly.c: lobatto_quad", "src/poly.c: EPS"]}
{"id": "C68", "title": "Communicators are neither lost nor used after they are freed, but for the Fortran gs_unique", "statement": "In every history of calls (comm_init, comm_dup, comm_split, comm_free, crystal_init/free, gs_setup/free, gs_unique, findpts_setup/free, any use of such objects, and the Fortran setups, frees and uses) in which C objects are used while they exist, every call is defined: no object uses or frees an MPI communicator that is not live, also after the communicator it was made from has been freed, and an invalid Fortran handle or a wrong number of processes stops in fail(). The live communicators are exactly the program's own and one per live object or valid handle, all different; the program's own are never freed by the library; when everything is freed only they are left. id and np of each object are this process's rank and the size of its communicator, those of the source for a duplicate. Counterexample: each call of the Fortran gs_unique loses one communicator for good.", "quantifier": "all histories of calls of any length, ranks, sizes, interleavings of creation and release of any number of objects", "why_tests_cant": "ranges over all histories; a lost communicator shows only when MPI runs out of them", "anchors": ["src/comm.h: comm_init, comm_init_check_, comm_dup_, comm_split_, comm_free", "src/crystal.c: crystal_init, crystal_free", "src/gs.c: gs_setup_aux, gs_setup, gs_free, gs_unique, fgs_setup_pick, fgs_free, fgs_unique", "src/fcrystal.c: fcrystal_setup, fcrystal_free", "src/findpts.c: ffindpts_setup, ffindptsms_setup, ffindpts_free", "src/findpts_imp.h: findpts_setup, findptsms_setup, findptsms_free"]}
{"id": "C69", "title": "gs_free frees what gs_setup allocated, but for one block whenever the all-reduce method was set up", "statement": "In every history of gs_setup (any method, any timings measured by gs_auto) and gs_free of existing handles, from any heap, every call is defined: no block is freed twice and no pointer is freed that was not set (the number of stages of the crystal router that is freed is the number set up, for every process and number of processes). Live handles share no block, the program's own blocks are never touched, and when all handles are freed the heap is as before, unless the all-reduce method was set up. Counterexample: each setup that uses gs_all_reduce, or tries it under gs_auto (more than one process, fewer than 100000 shared ids), loses one block for good, whatever method gs_auto then picks.", "quantifier": "all histories of setups and frees of any length, all methods, process numbers and counts, timings, initial heaps", "why_tests_cant": "ranges over all histories and process counts; a lost block does not change any result", "anchors": ["src/gs.c: gs_setup, gs_setup_aux, local_setup, gs_free, pw_setup_aux, pw_free, cr_schedule, cr_learn, crl_maps, cr_setup_aux, cr_free, cr_free_stage_maps, allreduce_setup_aux, allreduce_free, auto_setup"]}
