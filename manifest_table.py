c("C01","proved",["C01_sortv","C01_C02_unique"],"sort_imp.h merge and radix paths; strides modelled as the list of strided values")
c("C02","proved",["C02_sortv_inplace","C02_sortv_inplace_strided_rejected","C01_C02_unique"],"heap sort below 256, radix above")
c("C03","proved",["C03_sortp"],"")
c("C04","proved",["C04_sortp_start"],"")
c("C05","proved",["C05_sarray_permute","C05_sarray_perm_invert"],"")
c("C06","proved",["C06_sarray_sort"],"any number of keys, integer or real")
c("C07","proved",["C07_sortv_real","C07_sortv_real_inplace","C07_sortp_real"],"any strict weak order")
c("C08","proved",["C08_tuple_sort","C08_tuple_sort_bad_key","C08_tuple_sort_no_key","C08_ituple_sort"],"signed Fortran integers are compared as unsigned, as in the code")
c("C11","proved",["C11_operations_are_monoids","C11_every_integer_domain","C11_bpr_is_longest_common_prefix","C11_bpr_wider_domain","C11_bpr_long_refuted"],"signed overflow wraps in the model; float domains not modelled")
c("C12","proved",["C12_gather","C12_gather_in_place","C12_scatter","C12_scatter_in_place","C12_init","C12_gather_array","C12_init_array"],"")
c("C13","proved",["C13_gather_vec","C13_gather_vec_in_place","C13_scatter_vec","C13_scatter_vec_in_place","C13_init_vec","C13_gather_many","C13_gather_many_in_place","C13_scatter_many","C13_scatter_many_in_place","C13_init_many","C13_gather_vec_to_many","C13_scatter_vec_to_many","C13_scatter_many_to_vec"],"")
c("C17","proved",["C17_one_schedule_decides","C17_unique_result","C17_no_deadlock","C17_complete_runs_agree"],"")
c("C14","proved",["C14_comm_scan"],"uint wrap-around not modelled (np < 2^32)")
c("C15","proved",["C15_comm_allreduce"],"the by-hand tree; MPI_Allreduce itself is trusted to have the same result")
c("C16","proved",["C16_comm_reduce"],"")
c("C18","proved",["C18_crystal_router"],"uint wrap-around excluded by the INT_MAX bound the code itself checks")
c("C19","proved",["C19_stages"],"")
c("C20","proved",["C20_sarray_transfer","C20_set_field","C20_needs_payload_refuted"],"structs must be larger than the uint field (otherwise division by zero, proved)")
c("C21","proved",["C21_transfer_twice"],"")
c("C22","proved",["C22_sarray_transfer_ext"],"")
c("C23","proved",["C23_columns_stay_together"],"")
c("C24","proved",["C24_refuted","C24_within_capacity"],"the documented truncation is refuted; the within-capacity case is proved")
c("C25","proved",["C25_setup_returns","C25_gs_reduces_groups"],"for every method; operations that are commutative monoids (C11); sizes that fit the integer types (setup_fits)")
c("C26","proved",["C26_zero_ids_unchanged","C26_zero_ids_ignored"],"gs_vec and gs_many through C30")
c("C27","proved",["C27_gs_flagged"],"")
c("C28","proved",["C28_gs_transpose","C28_flagged_not_set","C28_flagged_set_refuted"],"exact result proved; the claim of gs.h that flagged entries are never set is refuted")
c("C29","proved",["C29_methods_agree"],"the dry runs by which gs_auto chooses are not modelled: its choice is arbitrary but the same on all processes")
c("C30","proved",["C30_gs_vec","C30_gs_many"],"number of components at least 1")
c("C31","proved",["C31_gs_unique"],"")
c("C32","proved",["C32_setup_unique","C32_setup_unique_returns","C32_setup_unique_refuted"],"claim of gs.h refuted in general (flagged entry before the unflagged one on a process), proved when no flagged entry precedes the first unflagged entry of its group")
c("C33","proved",["C33_topology"],"")
c("C34","proved",["C34_method_of_handle","C34_igs","C34_igs_vec","C34_igs_many","C34_between_local","C34_between_sequence","C34_igs_bracketing","C34_between_gs","C34_between_gs_pairwise","C34_between_igs","C34_two_outstanding"],"pairwise handles; two outstanding operations on different handles and buffers")
c("C35","proved",["C35_igs_all_reduce","C35_igs_crystal_never","C35_igs_all_reduce_never","C35_igs_with_every_method_refuted"],"all-reduce proved where it works, the rest proved not to work; MPI_Iallreduce by contract")
c("C36","proved",["C36_wait_completes_its_igs","C36_all_waited_resets","C36_unknown_number_ignored","C36_any_wait_defined_refuted","C36_negative_number_refuted","C36_stale_number_completes_another_refuted"],"")
c("C37","proved",["C37_gs_handles","C37_crystal_handles","C37_findpts_handles","C37_hf2c_unchecked_refuted"],"")
c("C38","proved",["C38_fields_32bit","C38_fields_double","C38_fields_integers_misplaced","C38_fields_strided_refuted","C38_negative_stride"],"LP64 platform; refuted for 64-bit integers, proved for the rest")
c("C39","proved",["C39_igs_waitable","C39_igs_many_wait_undefined","C39_igs_many_waitable_refuted"],"lifetime of the local array modelled by stack frames")
c("C50","proved",["C50_fortran_overlap_undefined","C50_fortran_overlap_refuted","C50_fortran_alone"],"ownership of the shared buffer, not its contents, is modelled")
c("C40","proved",["C40_local_search","C40_exact","C40_closed_boxes_refuted","C40_flat_box_refuted","C40_no_elements_refuted","C40_far_point_refuted"],"solver and oriented-box test are arbitrary functions of element and point; excluded cases are refuted")
c("C41","proved",["C41_local_table","C41_overflow_refuted","C41_small_limit_refuted"],"")
c("C42","proved",["C42_setup_returns","C42_routing","C42_big_table_refuted","C42_flat_element_refuted"],"the floating-point sum of table sizes is taken exact")
c("C43","proved",["C43_findpts","C43_exact_inside"],"findpts (one session); the multi-session merge (findptsms with ims=1) is not modelled")
c("C44","proved",["C44_eval","C44_after_findpts","C44_other_points_refuted"],"")
c("C09","proved",["C09_reserve","C09_cat","C09_histories","C09_null_array","C09_overflow_refuted"],"allocation failure (fail()) not modelled")
c("C10","proved",["C10_align","C10_permute","C10_sortv","C10_sortp_merge","C10_sortp_radix","C10_unaligned_size_refuted"],"")
c("C45","proved",["C45_lagrange","C45_nodes","C45_interpolation","C45_polynomial"],"exact real arithmetic (standard library reals)")
c("C46","proved",["C46_legendre","C46_legendre_d1","C46_legendre_d2","C46_preconditions_refuted"],"exact real arithmetic; P_n by Bonnet's recursion")
c("C47","proved",["C47_dot","C47_products","C47_mtxm","C47_with_mxm","C47_mtxv_empty_refuted","C47_interpolation","C47_gradient","C47_tensor_products"],"exact arithmetic; CBLAS by contract (record good)")
c("C51","proved",["C51_nodes","C51_gll_lag","C51_gll_lag_large"],"exact real arithmetic; Newton iteration of lobatto_nodes_n (n > 24) is a parameter")
c("C48","proved",["C48_setup","C48_points","C48_lin_1","C48_lin_2","C48_lin_3","C48_interval_1","C48_interval_2","C48_interval_3","C48_small","C48_more_points_refuted"],"conditional on the stored functions bounding the basis functions, which is proved for n=2, n=3 (m>=4), n=4 (m>=7) and refuted for n=4, m=5; exact arithmetic")
c("C49","proved",["C49_axis_test_2","C49_axis_test_3","C49_test_2","C49_test_3","C49_merge","C49_expand","C49_calc_2","C49_calc_3","C49_small","C49_folded_refuted"],"exact real arithmetic; directions for which lob_bnd_setup is right (C48; proved for n=2, 3, 4 with enough points)")
c("C52","proved",["C52_integral_unique","C52_roots","C52_gauss_nodes","C52_gauss","C52_lobatto","C52_lobatto_points","C52_lobatto_table","C52_gauss_positive","C52_lobatto_positive","C52_lobatto_table_positive"],"exact real arithmetic; the Newton iteration is a parameter assumed to return distinct negative roots (which exist for every n); tables: error bound")
c("C53","proved",["C53_points","C53_setup","C53_search","C53_independent","C53_eval"],"exact real arithmetic; Jacobian of the element not 0 on the closed square")
c("C54","proved",["C54_rectangle_exact","C54_nearest_refuted"],"exact real arithmetic; exactness for rectangles, nearest point refuted for points outside")
c("C55","proved",["C55_setup_returns","C55_findptsms","C55_own_session"],"same session_id_match on all processes; session ids fit in uint; interface distances finite doubles; solver, box test and interface distance abstract as in C41-C43")
c("C56","proved",["C56_setup","C56_search","C56_independent","C56_eval"],"exact real arithmetic; Jacobian of the element not 0 on the closed cube; C53_points covers the nodes of the table")
c("C57","proved",["C57_brick_exact","C57_nearest_refuted"],"exact real arithmetic; exactness for bricks, nearest point refuted for points outside")
c("C58","proved",["C58_comm_dot"],"any commutative ring; MPI_Allreduce by contract as in C15")
c("C59","proved",["C59_solver_2","C59_solver_3"],"exact arithmetic; searched elements regular, points within DBL_MAX; this is the hypothesis under which C40-C44 take the solver as a function")
c("C60","proved",["C60_gs","C60_gs_vec","C60_gs_many","C60_copies_on_one_process","C60_copies_on_one_process_vec","C60_copies_on_one_process_many","C60_rounding","C60_one_or_two","C60_one_or_two_vec","C60_one_or_two_many","C60_copies_on_processes_refuted","C60_binary64"],"any operation; the documentation's copies-agree expectation is refuted across processes for the pairwise method and proved on one process")
c("C61","proved",["C61_comm_allreduce","C61_comm_reduce","C61_comm_dot","C61_order","C61_depth","C61_rounding","C61_comm_dot_rounding","C61_comm_scan","C61_scan_order","C61_scan_depth","C61_scan_in_order_refuted","C61_scan_rounding"],"the library's own all-reduce; MPI_Allreduce is outside")
c("C62","proved",["C62_gs","C62_gs_vec","C62_gs_many"],"the library's own all-reduce; MPI_Allreduce is outside")
c("C63","proved",["C63_dot","C63_products","C63_mtxm","C63_with_mxm","C63_interpolation","C63_gradient","C63_tensor_products","C63_binary64"],"no overflow or underflow: the operations have a bounded relative error")
c("C64","proved",["C64_exact","C64_lagrange","C64_shifted","C64_interpolation","C64_gradient","C64_binary64"],"lagrange_setup and lagrange_eval of poly.c; the functions of poly_imp.h are C65")
c("C65","proved",["C65_exact","C65_table","C65_newton","C65_binary64"],"doubling of machine numbers is assumed exact; C65_binary64: type double without overflow and underflow; for n > 24 the nodes found are a parameter")
c("C66","proved",["C66_header","C66_generated","C66_exact","C66_legendre","C66_gauss_node","C66_lobatto_node"],"the printed digits of the nodes are an argument of the function printed; distinctness is a hypothesis; nodes: exact arithmetic, an a-posteriori bound (not that the iteration stops)")
c("C67","proved",["C67_gauss","C67_lobatto","C67_lobatto_quad","C67_gauss_stops","C67_lobatto_stops"],"exact arithmetic; the first three for calls that return; the loops are proved to stop from first values near a root, not from the cosines the code starts with, and that these lead to different roots is a checkable hypothesis of C67_lobatto_quad")
c("C68","proved",["C68_defined","C68_balance","C68_all_freed","C68_separate","C68_copies","C68_split","C68_fgs_unique_refuted","C68_fgs_unique_alone_refuted"],"one process's view; only the communicators of the objects are modelled; the Fortran gs_unique loses one per call (the refuted part)")
c("C69","proved",["C69_defined","C69_balance","C69_separate","C69_all_freed","C69_all_reduce_refuted","C69_auto_refuted"],"the blocks a handle keeps, not those of work arrays; tmalloc succeeds (C09 for its failure); the all-reduce method loses a block per setup (the refuted part)")
