{
 "claims": [
  {
   "property": "C01",
   "status": "proved",
   "theorems": [
    "C01_sortv",
    "C01_C02_unique"
   ],
   "note": "sort_imp.h merge and radix paths; strides modelled as the list of strided values"
  },
  {
   "property": "C02",
   "status": "proved",
   "theorems": [
    "C02_sortv_inplace",
    "C02_sortv_inplace_strided_rejected",
    "C01_C02_unique"
   ],
   "note": "heap sort below 256, radix above"
  },
  {
   "property": "C03",
   "status": "proved",
   "theorems": [
    "C03_sortp"
   ],
   "note": ""
  },
  {
   "property": "C04",
   "status": "proved",
   "theorems": [
    "C04_sortp_start"
   ],
   "note": ""
  },
  {
   "property": "C05",
   "status": "proved",
   "theorems": [
    "C05_sarray_permute",
    "C05_sarray_perm_invert"
   ],
   "note": ""
  },
  {
   "property": "C06",
   "status": "proved",
   "theorems": [
    "C06_sarray_sort"
   ],
   "note": "any number of keys, integer or real"
  },
  {
   "property": "C07",
   "status": "proved",
   "theorems": [
    "C07_sortv_real",
    "C07_sortv_real_inplace",
    "C07_sortp_real"
   ],
   "note": "any strict weak order"
  },
  {
   "property": "C08",
   "status": "proved",
   "theorems": [
    "C08_tuple_sort",
    "C08_tuple_sort_bad_key",
    "C08_tuple_sort_no_key",
    "C08_ituple_sort"
   ],
   "note": "signed Fortran integers are compared as unsigned, as in the code"
  },
  {
   "property": "C11",
   "status": "proved",
   "theorems": [
    "C11_operations_are_monoids",
    "C11_every_integer_domain",
    "C11_bpr_is_longest_common_prefix",
    "C11_bpr_wider_domain",
    "C11_bpr_long_refuted"
   ],
   "note": "signed overflow wraps in the model; float domains not modelled"
  },
  {
   "property": "C12",
   "status": "proved",
   "theorems": [
    "C12_gather",
    "C12_gather_in_place",
    "C12_scatter",
    "C12_scatter_in_place",
    "C12_init",
    "C12_gather_array",
    "C12_init_array"
   ],
   "note": ""
  },
  {
   "property": "C13",
   "status": "proved",
   "theorems": [
    "C13_gather_vec",
    "C13_gather_vec_in_place",
    "C13_scatter_vec",
    "C13_scatter_vec_in_place",
    "C13_init_vec",
    "C13_gather_many",
    "C13_gather_many_in_place",
    "C13_scatter_many",
    "C13_scatter_many_in_place",
    "C13_init_many",
    "C13_gather_vec_to_many",
    "C13_scatter_vec_to_many",
    "C13_scatter_many_to_vec"
   ],
   "note": ""
  },
  {
   "property": "C17",
   "status": "proved",
   "theorems": [
    "C17_one_schedule_decides",
    "C17_unique_result",
    "C17_no_deadlock",
    "C17_complete_runs_agree"
   ],
   "note": ""
  },
  {
   "property": "C14",
   "status": "proved",
   "theorems": [
    "C14_comm_scan"
   ],
   "note": "uint wrap-around not modelled (np < 2^32)"
  },
  {
   "property": "C15",
   "status": "proved",
   "theorems": [
    "C15_comm_allreduce"
   ],
   "note": "the by-hand tree; MPI_Allreduce itself is trusted to have the same result"
  },
  {
   "property": "C16",
   "status": "proved",
   "theorems": [
    "C16_comm_reduce"
   ],
   "note": ""
  },
  {
   "property": "C18",
   "status": "proved",
   "theorems": [
    "C18_crystal_router"
   ],
   "note": "uint wrap-around excluded by the INT_MAX bound the code itself checks"
  },
  {
   "property": "C19",
   "status": "proved",
   "theorems": [
    "C19_stages"
   ],
   "note": ""
  },
  {
   "property": "C20",
   "status": "proved",
   "theorems": [
    "C20_sarray_transfer",
    "C20_set_field",
    "C20_needs_payload_refuted"
   ],
   "note": "structs must be larger than the uint field (otherwise division by zero, proved)"
  },
  {
   "property": "C21",
   "status": "proved",
   "theorems": [
    "C21_transfer_twice"
   ],
   "note": ""
  },
  {
   "property": "C22",
   "status": "proved",
   "theorems": [
    "C22_sarray_transfer_ext"
   ],
   "note": ""
  },
  {
   "property": "C23",
   "status": "proved",
   "theorems": [
    "C23_columns_stay_together"
   ],
   "note": ""
  },
  {
   "property": "C24",
   "status": "proved",
   "theorems": [
    "C24_refuted",
    "C24_within_capacity"
   ],
   "note": "the documented truncation is refuted; the within-capacity case is proved"
  },
  {
   "property": "C25",
   "status": "proved",
   "theorems": [
    "C25_setup_returns",
    "C25_gs_reduces_groups"
   ],
   "note": "for every method; operations that are commutative monoids (C11); sizes that fit the integer types (setup_fits)"
  },
  {
   "property": "C26",
   "status": "proved",
   "theorems": [
    "C26_zero_ids_unchanged",
    "C26_zero_ids_ignored"
   ],
   "note": "gs_vec and gs_many through C30"
  },
  {
   "property": "C27",
   "status": "proved",
   "theorems": [
    "C27_gs_flagged"
   ],
   "note": ""
  },
  {
   "property": "C28",
   "status": "proved",
   "theorems": [
    "C28_gs_transpose",
    "C28_flagged_not_set",
    "C28_flagged_set_refuted"
   ],
   "note": "exact result proved; the claim of gs.h that flagged entries are never set is refuted"
  },
  {
   "property": "C29",
   "status": "proved",
   "theorems": [
    "C29_methods_agree"
   ],
   "note": "the dry runs by which gs_auto chooses are not modelled: its choice is arbitrary but the same on all processes"
  },
  {
   "property": "C30",
   "status": "proved",
   "theorems": [
    "C30_gs_vec",
    "C30_gs_many"
   ],
   "note": "number of components at least 1"
  },
  {
   "property": "C31",
   "status": "proved",
   "theorems": [
    "C31_gs_unique"
   ],
   "note": ""
  },
  {
   "property": "C32",
   "status": "proved",
   "theorems": [
    "C32_setup_unique",
    "C32_setup_unique_returns",
    "C32_setup_unique_refuted"
   ],
   "note": "claim of gs.h refuted in general (flagged entry before the unflagged one on a process), proved when no flagged entry precedes the first unflagged entry of its group"
  },
  {
   "property": "C33",
   "status": "proved",
   "theorems": [
    "C33_topology"
   ],
   "note": ""
  },
  {
   "property": "C34",
   "status": "proved",
   "theorems": [
    "C34_method_of_handle",
    "C34_igs",
    "C34_igs_vec",
    "C34_igs_many",
    "C34_between_local",
    "C34_between_sequence",
    "C34_igs_bracketing",
    "C34_between_gs",
    "C34_between_gs_pairwise",
    "C34_between_igs",
    "C34_two_outstanding"
   ],
   "note": "pairwise handles; two outstanding operations on different handles and buffers"
  },
  {
   "property": "C35",
   "status": "proved",
   "theorems": [
    "C35_igs_all_reduce",
    "C35_igs_crystal_never",
    "C35_igs_all_reduce_never",
    "C35_igs_with_every_method_refuted"
   ],
   "note": "all-reduce proved where it works, the rest proved not to work; MPI_Iallreduce by contract"
  },
  {
   "property": "C36",
   "status": "proved",
   "theorems": [
    "C36_wait_completes_its_igs",
    "C36_all_waited_resets",
    "C36_unknown_number_ignored",
    "C36_any_wait_defined_refuted",
    "C36_negative_number_refuted",
    "C36_stale_number_completes_another_refuted"
   ],
   "note": ""
  },
  {
   "property": "C37",
   "status": "proved",
   "theorems": [
    "C37_gs_handles",
    "C37_crystal_handles",
    "C37_findpts_handles",
    "C37_hf2c_unchecked_refuted"
   ],
   "note": ""
  },
  {
   "property": "C38",
   "status": "proved",
   "theorems": [
    "C38_fields_32bit",
    "C38_fields_double",
    "C38_fields_integers_misplaced",
    "C38_fields_strided_refuted",
    "C38_negative_stride"
   ],
   "note": "LP64 platform; refuted for 64-bit integers, proved for the rest"
  },
  {
   "property": "C39",
   "status": "proved",
   "theorems": [
    "C39_igs_waitable",
    "C39_igs_many_wait_undefined",
    "C39_igs_many_waitable_refuted"
   ],
   "note": "lifetime of the local array modelled by stack frames"
  },
  {
   "property": "C50",
   "status": "proved",
   "theorems": [
    "C50_fortran_overlap_undefined",
    "C50_fortran_overlap_refuted",
    "C50_fortran_alone"
   ],
   "note": "ownership of the shared buffer, not its contents, is modelled"
  },
  {
   "property": "C40",
   "status": "proved",
   "theorems": [
    "C40_local_search",
    "C40_exact",
    "C40_closed_boxes_refuted",
    "C40_flat_box_refuted",
    "C40_no_elements_refuted",
    "C40_far_point_refuted"
   ],
   "note": "solver and oriented-box test are arbitrary functions of element and point; excluded cases are refuted"
  },
  {
   "property": "C41",
   "status": "proved",
   "theorems": [
    "C41_local_table",
    "C41_overflow_refuted",
    "C41_small_limit_refuted"
   ],
   "note": ""
  },
  {
   "property": "C42",
   "status": "proved",
   "theorems": [
    "C42_setup_returns",
    "C42_routing",
    "C42_big_table_refuted",
    "C42_flat_element_refuted"
   ],
   "note": "the floating-point sum of table sizes is taken exact"
  },
  {
   "property": "C43",
   "status": "proved",
   "theorems": [
    "C43_findpts",
    "C43_exact_inside"
   ],
   "note": "findpts (one session); the multi-session merge (findptsms with ims=1) is not modelled"
  },
  {
   "property": "C44",
   "status": "proved",
   "theorems": [
    "C44_eval",
    "C44_after_findpts",
    "C44_other_points_refuted"
   ],
   "note": ""
  },
  {
   "property": "C09",
   "status": "proved",
   "theorems": [
    "C09_reserve",
    "C09_cat",
    "C09_histories",
    "C09_null_array",
    "C09_overflow_refuted"
   ],
   "note": "allocation failure (fail()) not modelled"
  },
  {
   "property": "C10",
   "status": "proved",
   "theorems": [
    "C10_align",
    "C10_permute",
    "C10_sortv",
    "C10_sortp_merge",
    "C10_sortp_radix",
    "C10_unaligned_size_refuted"
   ],
   "note": ""
  },
  {
   "property": "C45",
   "status": "proved",
   "theorems": [
    "C45_lagrange",
    "C45_nodes",
    "C45_interpolation",
    "C45_polynomial"
   ],
   "note": "exact real arithmetic (standard library reals)"
  },
  {
   "property": "C46",
   "status": "proved",
   "theorems": [
    "C46_legendre",
    "C46_legendre_d1",
    "C46_legendre_d2",
    "C46_preconditions_refuted"
   ],
   "note": "exact real arithmetic; P_n by Bonnet's recursion"
  },
  {
   "property": "C47",
   "status": "proved",
   "theorems": [
    "C47_dot",
    "C47_products",
    "C47_mtxm",
    "C47_with_mxm",
    "C47_mtxv_empty_refuted",
    "C47_interpolation",
    "C47_gradient",
    "C47_tensor_products"
   ],
   "note": "exact arithmetic; CBLAS by contract (record good)"
  },
  {
   "property": "C51",
   "status": "proved",
   "theorems": [
    "C51_nodes",
    "C51_gll_lag",
    "C51_gll_lag_large"
   ],
   "note": "exact real arithmetic; Newton iteration of lobatto_nodes_n (n > 24) is a parameter"
  },
  {
   "property": "C48",
   "status": "proved",
   "theorems": [
    "C48_setup",
    "C48_points",
    "C48_lin_1",
    "C48_lin_2",
    "C48_lin_3",
    "C48_interval_1",
    "C48_interval_2",
    "C48_interval_3",
    "C48_small",
    "C48_more_points_refuted"
   ],
   "note": "conditional on the stored functions bounding the basis functions, which is proved for n=2, n=3 (m>=4), n=4 (m>=7) and refuted for n=4, m=5; exact arithmetic"
  },
  {
   "property": "C49",
   "status": "proved",
   "theorems": [
    "C49_axis_test_2",
    "C49_axis_test_3",
    "C49_test_2",
    "C49_test_3",
    "C49_merge",
    "C49_expand",
    "C49_calc_2",
    "C49_calc_3",
    "C49_small",
    "C49_folded_refuted"
   ],
   "note": "exact real arithmetic; directions for which lob_bnd_setup is right (C48; proved for n=2, 3, 4 with enough points)"
  },
  {
   "property": "C52",
   "status": "proved",
   "theorems": [
    "C52_integral_unique",
    "C52_roots",
    "C52_gauss_nodes",
    "C52_gauss",
    "C52_lobatto",
    "C52_lobatto_points",
    "C52_lobatto_table",
    "C52_gauss_positive",
    "C52_lobatto_positive",
    "C52_lobatto_table_positive"
   ],
   "note": "exact real arithmetic; the Newton iteration is a parameter assumed to return distinct negative roots (which exist for every n); tables: error bound"
  },
  {
   "property": "C53",
   "status": "proved",
   "theorems": [
    "C53_points",
    "C53_setup",
    "C53_search",
    "C53_independent",
    "C53_eval"
   ],
   "note": "exact real arithmetic; Jacobian of the element not 0 on the closed square"
  },
  {
   "property": "C54",
   "status": "proved",
   "theorems": [
    "C54_rectangle_exact",
    "C54_nearest_refuted"
   ],
   "note": "exact real arithmetic; exactness for rectangles, nearest point refuted for points outside"
  },
  {
   "property": "C55",
   "status": "proved",
   "theorems": [
    "C55_setup_returns",
    "C55_findptsms",
    "C55_own_session"
   ],
   "note": "same session_id_match on all processes; session ids fit in uint; interface distances finite doubles; solver, box test and interface distance abstract as in C41-C43"
  },
  {
   "property": "C56",
   "status": "proved",
   "theorems": [
    "C56_setup",
    "C56_search",
    "C56_independent",
    "C56_eval"
   ],
   "note": "exact real arithmetic; Jacobian of the element not 0 on the closed cube; C53_points covers the nodes of the table"
  },
  {
   "property": "C57",
   "status": "proved",
   "theorems": [
    "C57_brick_exact",
    "C57_nearest_refuted"
   ],
   "note": "exact real arithmetic; exactness for bricks, nearest point refuted for points outside"
  },
  {
   "property": "C58",
   "status": "proved",
   "theorems": [
    "C58_comm_dot"
   ],
   "note": "any commutative ring; MPI_Allreduce by contract as in C15"
  },
  {
   "property": "C59",
   "status": "proved",
   "theorems": [
    "C59_solver_2",
    "C59_solver_3"
   ],
   "note": "exact arithmetic; searched elements regular, points within DBL_MAX; this is the hypothesis under which C40-C44 take the solver as a function"
  },
  {
   "property": "C60",
   "status": "proved",
   "theorems": [
    "C60_gs",
    "C60_gs_vec",
    "C60_gs_many",
    "C60_copies_on_one_process",
    "C60_copies_on_one_process_vec",
    "C60_copies_on_one_process_many",
    "C60_rounding",
    "C60_one_or_two",
    "C60_one_or_two_vec",
    "C60_one_or_two_many",
    "C60_copies_on_processes_refuted",
    "C60_binary64"
   ],
   "note": "any operation; the documentation's copies-agree expectation is refuted across processes for the pairwise method and proved on one process"
  },
  {
   "property": "C61",
   "status": "proved",
   "theorems": [
    "C61_comm_allreduce",
    "C61_comm_reduce",
    "C61_comm_dot",
    "C61_order",
    "C61_depth",
    "C61_rounding",
    "C61_comm_dot_rounding",
    "C61_comm_scan",
    "C61_scan_order",
    "C61_scan_depth",
    "C61_scan_in_order_refuted",
    "C61_scan_rounding"
   ],
   "note": "the library's own all-reduce; MPI_Allreduce is outside"
  },
  {
   "property": "C62",
   "status": "proved",
   "theorems": [
    "C62_gs",
    "C62_gs_vec",
    "C62_gs_many"
   ],
   "note": "the library's own all-reduce; MPI_Allreduce is outside"
  },
  {
   "property": "C63",
   "status": "proved",
   "theorems": [
    "C63_dot",
    "C63_products",
    "C63_mtxm",
    "C63_with_mxm",
    "C63_interpolation",
    "C63_gradient",
    "C63_tensor_products",
    "C63_binary64"
   ],
   "note": "no overflow or underflow: the operations have a bounded relative error"
  },
  {
   "property": "C64",
   "status": "proved",
   "theorems": [
    "C64_exact",
    "C64_lagrange",
    "C64_shifted",
    "C64_interpolation",
    "C64_gradient",
    "C64_binary64"
   ],
   "note": "lagrange_setup and lagrange_eval of poly.c; the functions of poly_imp.h are C65"
  },
  {
   "property": "C65",
   "status": "proved",
   "theorems": [
    "C65_exact",
    "C65_table",
    "C65_newton",
    "C65_binary64"
   ],
   "note": "doubling of machine numbers is assumed exact; C65_binary64: type double without overflow and underflow; for n > 24 the nodes found are a parameter"
  },
  {
   "property": "C66",
   "status": "proved",
   "theorems": [
    "C66_header",
    "C66_generated",
    "C66_exact",
    "C66_legendre",
    "C66_gauss_node",
    "C66_lobatto_node"
   ],
   "note": "the printed digits of the nodes are an argument of the function printed; distinctness is a hypothesis; nodes: exact arithmetic, an a-posteriori bound (not that the iteration stops)"
  },
  {
   "property": "C67",
   "status": "proved",
   "theorems": [
    "C67_gauss",
    "C67_lobatto",
    "C67_lobatto_quad",
    "C67_gauss_stops",
    "C67_lobatto_stops"
   ],
   "note": "exact arithmetic; the first three for calls that return; the loops are proved to stop from first values near a root, not from the cosines the code starts with, and that these lead to different roots is a checkable hypothesis of C67_lobatto_quad"
  },
  {
   "property": "C68",
   "status": "proved",
   "theorems": [
    "C68_defined",
    "C68_balance",
    "C68_all_freed",
    "C68_separate",
    "C68_copies",
    "C68_split",
    "C68_fgs_unique_refuted",
    "C68_fgs_unique_alone_refuted"
   ],
   "note": "one process's view; only the communicators of the objects are modelled; the Fortran gs_unique loses one per call (the refuted part)"
  },
  {
   "property": "C69",
   "status": "proved",
   "theorems": [
    "C69_defined",
    "C69_balance",
    "C69_separate",
    "C69_all_freed",
    "C69_all_reduce_refuted",
    "C69_auto_refuted"
   ],
   "note": "the blocks a handle keeps, not those of work arrays; tmalloc succeeds (C09 for its failure); the all-reduce method loses a block per setup (the refuted part)"
  }
 ]
}