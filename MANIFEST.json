{
 "claims": [
  {
   "property": "C01",
   "status": "proved",
   "theorems": [
    "C01_nextMultiple_least",
    "C01_nextMultiple_64bit"
   ],
   "note": ""
  },
  {
   "property": "C02",
   "status": "proved",
   "theorems": [
    "C02_dense_storage"
   ],
   "note": ""
  },
  {
   "property": "C03",
   "status": "proved",
   "theorems": [
    "C03_panel_storage"
   ],
   "note": ""
  },
  {
   "property": "C04",
   "status": "proved",
   "theorems": [
    "C04_element_write_local"
   ],
   "note": ""
  },
  {
   "property": "C05",
   "status": "proved",
   "theorems": [
    "C05_pointer_offsets"
   ],
   "note": ""
  },
  {
   "property": "C06",
   "status": "proved",
   "theorems": [
    "C06_transpose_pointer",
    "C06_transpose_expression"
   ],
   "note": ""
  },
  {
   "property": "C07",
   "status": "proved",
   "theorems": [
    "C07_moves_are_offsets",
    "C07_moves_across",
    "C07_unaligned_panel_move_refuted"
   ],
   "note": "Unaligned panel moves are refuted by C07_unaligned_panel_move_refuted, as the statement says."
  },
  {
   "property": "C08",
   "status": "proved",
   "theorems": [
    "C08_submatrix",
    "C08_nested_submatrix",
    "C08_view_write",
    "C08_view_reset",
    "C08_row",
    "C08_row_reset",
    "C08_panel_submatrix",
    "C08_panel_submatrix_ok",
    "C08_panel_offset_refuted",
    "C08_panel_offset",
    "C08_panel_offset_unchecked"
   ],
   "note": ""
  },
  {
   "property": "C09",
   "status": "proved",
   "theorems": [
    "C09_masked_load",
    "C09_masked_load_faults",
    "C09_masked_store"
   ],
   "note": ""
  },
  {
   "property": "C10",
   "status": "proved",
   "theorems": [
    "C10_imax",
    "C10_nan_refuted",
    "C10_elementwise_imax_integer_indices_refuted",
    "C10_elementwise_imax_swapped_refuted"
   ],
   "note": "Total order only; with NaN the lanes can disagree (C10_nan_refuted)."
  },
  {
   "property": "C11",
   "status": "proved",
   "theorems": [
    "C11_load_store",
    "C11_load_store_sized"
   ],
   "note": ""
  },
  {
   "property": "C12",
   "status": "proved",
   "theorems": [
    "C12_full_store",
    "C12_partial_store",
    "C12_window_load"
   ],
   "note": ""
  },
  {
   "property": "C13",
   "status": "proved",
   "theorems": [
    "C13_storeLower",
    "C13_storeLower_sized"
   ],
   "note": ""
  },
  {
   "property": "C14",
   "status": "proved",
   "theorems": [
    "C14_ger",
    "C14_ger_unscaled",
    "C14_ger_sized",
    "C14_ger_unscaled_sized",
    "C14_axpy",
    "C14_scaled_load",
    "C14_scale",
    "C14_reset"
   ],
   "note": ""
  },
  {
   "property": "C15",
   "status": "proved",
   "theorems": [
    "C15_exact_cover",
    "C15_inside"
   ],
   "note": ""
  },
  {
   "property": "C16",
   "status": "proved",
   "theorems": [
    "C16_kernels",
    "C16_register_budget"
   ],
   "note": ""
  },
  {
   "property": "C17",
   "status": "proved",
   "theorems": [
    "C17_gemm_ops"
   ],
   "note": ""
  },
  {
   "property": "C18",
   "status": "proved",
   "theorems": [
    "C18_gemm_ring",
    "C18_gemm4_ring"
   ],
   "note": ""
  },
  {
   "property": "C19",
   "status": "proved",
   "theorems": [
    "C19_layout_independent"
   ],
   "note": ""
  },
  {
   "property": "C20",
   "status": "proved",
   "theorems": [
    "C20_gemm_frame"
   ],
   "note": ""
  },
  {
   "property": "C21",
   "status": "proved",
   "theorems": [
    "C21_gemm_safe_in_containers",
    "C21_unaligned_window_refuted"
   ],
   "note": "Includes the negative half: an unaligned/unpadded window is UB (C21_unaligned_window_refuted)."
  },
  {
   "property": "C22",
   "status": "proved",
   "theorems": [
    "C22_gemm_throws",
    "C22_gemm_no_throw"
   ],
   "note": ""
  },
  {
   "property": "C23",
   "status": "proved",
   "theorems": [
    "C23_ger_column_major",
    "C23_ger_column_major_fma",
    "C23_ger_row_major",
    "C23_ger_ring",
    "C23_ger_column_major_throws",
    "C23_ger_row_major_throws",
    "C23_ger_row_major_unchecked_output_refuted",
    "C23_ger_neon_overread_refuted"
   ],
   "note": "The register-padding overread on NEON and the unchecked row-major output are separate _refuted theorems."
  },
  {
   "property": "C24",
   "status": "proved",
   "theorems": [
    "C24_syrk_ops",
    "C24_syrk_ring",
    "C24_syrk_upper_untouched",
    "C24_syrk_throws",
    "C24_syrk_safe_in_containers",
    "C24_syrk_neon_overread_refuted"
   ],
   "note": ""
  },
  {
   "property": "C25",
   "status": "proved",
   "theorems": [
    "C25_trmm_left_ops",
    "C25_trmm_left_ring",
    "C25_trmm_left_ignored_triangle_refuted",
    "C25_trmm_left_panel_rhs_refuted",
    "C25_trmm_left_throws",
    "C25_trmm_left_in_place",
    "C25_trmm_left_any_size",
    "C25_trmm_left_any_size_ring"
   ],
   "note": "The documented reading (only the upper triangle is used, any layout of B) is refuted; the conditions under which it holds are proved."
  },
  {
   "property": "C26",
   "status": "proved",
   "theorems": [
    "C26_trmm_right_ops",
    "C26_trmm_right_ring",
    "C26_trmm_right_throws",
    "C26_trmm_right_unit_ignored_refuted",
    "C26_trmm_right_unit_terminates_refuted",
    "C26_trmm_right_in_place"
   ],
   "note": "The unit-diagonal flag is refuted in general form (ignored or terminates)."
  },
  {
   "property": "C27",
   "status": "proved",
   "theorems": [
    "C27_potrf_ops",
    "C27_lower_only",
    "C27_potrf_reals"
   ],
   "note": ""
  },
  {
   "property": "C28",
   "status": "proved",
   "theorems": [
    "C28_potrf_dense_ops",
    "C28_potrf_panel_ops",
    "C28_potrf_dense_upper_untouched",
    "C28_potrf_throws",
    "C28_potrf_dense_real",
    "C28_potrf_panel_real",
    "C28_potrf_panel_upper_refuted"
   ],
   "note": ""
  },
  {
   "property": "C29",
   "status": "proved",
   "theorems": [
    "C29_potrf_dense_footprint",
    "C29_potrf_panel_footprint",
    "C29_potrf_columns_refuted",
    "C29_potrf_tile_rows_refuted",
    "C29_potrf_float_refuted",
    "C29_potrf_parent_refuted"
   ],
   "note": "The footprint violations are proved as _refuted theorems."
  },
  {
   "property": "C30",
   "status": "proved",
   "theorems": [
    "C30_trsm_ops",
    "C30_trsm_solves"
   ],
   "note": ""
  },
  {
   "property": "C31",
   "status": "proved",
   "theorems": [
    "C31_trsm_ops",
    "C31_trsm_field",
    "C31_trsm_throws",
    "C31_trsv_field",
    "C31_trsv_throws"
   ],
   "note": ""
  },
  {
   "property": "C32",
   "status": "proved",
   "theorems": [
    "C32_iamax",
    "C32_iamax_ordered",
    "C32_iamax_empty_throws",
    "C32_iamax_blaze",
    "C32_iamax_nan_refuted"
   ],
   "note": ""
  },
  {
   "property": "C33",
   "status": "proved",
   "theorems": [
    "C33_swap",
    "C33_swap_involutive",
    "C33_swap_throws",
    "C33_swap_checked",
    "C33_swap_overlap_refuted"
   ],
   "note": ""
  },
  {
   "property": "C34",
   "status": "proved",
   "theorems": [
    "C34_laswp",
    "C34_laswp_permutes",
    "C34_laswp_reversible"
   ],
   "note": ""
  },
  {
   "property": "C35",
   "status": "proved",
   "theorems": [
    "C35_getf2_column_major_ops",
    "C35_getf2_column_major_throws_iff",
    "C35_getf2_column_major",
    "C35_getf2_multipliers_R",
    "C35_getf2_safe_in_container",
    "C35_getf2_neon_overread_refuted",
    "C35_getf2_row_major_ops",
    "C35_getf2_row_major_throws_iff",
    "C35_getf2_row_major"
   ],
   "note": ""
  },
  {
   "property": "C36",
   "status": "proved",
   "theorems": [
    "C36_getrf_safe",
    "C36_getrf_throws_iff",
    "C36_getrf_column_major",
    "C36_getrf_equals_getf2",
    "C36_getrf_safe_in_container",
    "C36_getrf_ops",
    "C36_getrf_neon_safe_in_container"
   ],
   "note": ""
  },
  {
   "property": "C37",
   "status": "proved",
   "theorems": [
    "C37_getrf_row_major_pivots_refuted",
    "C37_getrf_row_major_no_pivoting"
   ],
   "note": "The documented partial pivoting is false of the code (C37_getrf_row_major_pivots_refuted); the corrected claim is proved in full by C37_getrf_row_major_no_pivoting."
  },
  {
   "property": "C38",
   "status": "proved",
   "theorems": [
    "C38_gemm_ops",
    "C38_gemm_ring",
    "C38_gemm_throws",
    "C38_axpy_ops",
    "C38_axpy_throws",
    "C38_ger_ops",
    "C38_trmm_left_ops",
    "C38_trmm_right_ops",
    "C38_trmm_left_ring",
    "C38_trmm_right_ring",
    "C38_trmm_throws",
    "C38_trsm_left_ops",
    "C38_trsm_right_ops",
    "C38_trsm_left_field",
    "C38_trsm_right_field",
    "C38_trsm_throws"
   ],
   "note": ""
  },
  {
   "property": "C39",
   "status": "proved",
   "theorems": [
    "C39_gemm_agree",
    "C39_gemm_agree_frame",
    "C39_ger_agree",
    "C39_trmm_left_agree",
    "C39_trmm_right_agree",
    "C39_trsm_agree"
   ],
   "note": ""
  },
  {
   "property": "C40",
   "status": "proved",
   "theorems": [
    "C40_assign_panel_to_dense",
    "C40_assign_dense_to_panel",
    "C40_round_trip",
    "C40_sizes_unchecked_refuted",
    "C40_unaligned_window_refuted",
    "C40_which_assign",
    "C40_which_assign_rest",
    "C40_operator_throws",
    "C40_operator_copies",
    "C40_operator_blast_dense",
    "C40_assign_function",
    "C40_operator_round_trip"
   ],
   "note": "Operators and assign(a, b) on the matrices themselves: generic copy, sizes checked (C40_operator_*, C40_which_assign). Vectorised overloads: equal sizes assumed (checked only in debug builds: C40_sizes_unchecked_refuted) and, for the vectorised column-major case, windows starting at a multiple of the SIMD size (C40_unaligned_window_refuted otherwise)."
  },
  {
   "property": "C41",
   "status": "proved",
   "theorems": [
    "C41_default_construction",
    "C41_value_construction",
    "C41_value_construction_padding_refuted",
    "C41_list_construction",
    "C41_scalar_assignment",
    "C41_dense_reset",
    "C41_panel_reset_correct_sizes",
    "C41_panel_reset",
    "C41_panel_reset_overflow_refuted",
    "C41_panel_reset_incomplete_refuted",
    "C41_static_vector_list",
    "C41_static_vector_value"
   ],
   "note": "DynamicPanelMatrix::reset() is characterised for every size by C41_panel_reset (the documented effect is refuted for the sizes where it fails)."
  },
  {
   "property": "C42",
   "status": "proved",
   "theorems": [
    "C42_strided_vector_pointers",
    "C42_row_column_vector_pointers",
    "C42_view_rows_columns",
    "C42_strided_load",
    "C42_strided_masked_load",
    "C42_strided_store",
    "C42_strided_masked_store",
    "C42_strided_copy",
    "C42_strided_unaligned",
    "C42_oriented_load",
    "C42_cross_load",
    "C42_oriented_panel_refuted"
   ],
   "note": ""
  },
  {
   "property": "C43",
   "status": "proved",
   "theorems": [
    "C43_construct",
    "C43_scale",
    "C43_load",
    "C43_store",
    "C43_storeLower",
    "C43_ger",
    "C43_ger_unscaled",
    "C43_same_as_register_matrix",
    "C43_load_overread_refuted",
    "C43_equality"
   ],
   "note": "axpy, load(beta,p), gemm(ker,...) of this class do not compile when instantiated (DynReg_Model.v header); potrf/trsm/trmm are commented out in the source. C43_load_overread_refuted: load() overruns short buffers."
  },
  {
   "property": "C44",
   "status": "proved",
   "theorems": [
    "C44_randomize",
    "C44_makePositiveDefinite_ops",
    "C44_makePositiveDefinite_throws",
    "C44_symmetric",
    "C44_positive_definite",
    "C44_range",
    "C44_then_potrf",
    "C44_makeSymmetric",
    "C44_makeSymmetric_throws",
    "C44_panel_ops",
    "C44_panel_positive_definite"
   ],
   "note": "randomize draws row by row; element formula, frame, exact symmetry, positive definiteness over the reals, range for draws in [0,1), composition with potrf. The random stream is an arbitrary function; allocation is assumed to succeed."
  },
  {
   "property": "C45",
   "status": "proved",
   "theorems": [
    "C45_storage_ownership",
    "C45_storage_no_leak",
    "C45_storage_move",
    "C45_storage_move_assign",
    "C45_matrix_without_copies",
    "C45_matrix_copy_refuted",
    "C45_matrix_assign_leak_refuted"
   ],
   "note": "Histories over numbered objects; allocator addresses may be reused. AlignedStorage: proved. blasfeo::DynamicMatrix: holds without copies; its implicit copy operations refute it (double free, leak). (Memory.hpp includes <blasfeo/Alloc.hpp>, which does not exist at that path: the header does not compile as it is.)"
  },
  {
   "property": "C46",
   "status": "proved",
   "theorems": [
    "C46_matrix_comparison",
    "C46_matrix_comparison_exact",
    "C46_nan_not_equal",
    "C46_register_comparison"
   ],
   "note": ""
  },
  {
   "property": "C47",
   "status": "proved",
   "theorems": [
    "C47_dynamic_ownership",
    "C47_dynamic_no_leak",
    "C47_copy_refused",
    "C47_move_refuted",
    "C47_mismatched_delete_refuted"
   ],
   "note": "Proved under interchangeable deallocation functions. By the letter of the C++ standard the destructor is undefined behaviour (aligned new, plain delete[]), and moves, declared noexcept, terminate: see the _refuted theorems."
  },
  {
   "property": "C48",
   "status": "proved",
   "theorems": [
    "C48_assign",
    "C48_assign_throws",
    "C48_self_assign",
    "C48_assign_shift",
    "C48_overlap_refuted",
    "C48_transpose_in_place_refuted"
   ],
   "note": "Refuted for windows shifted down/right and for in-place transposition (see _refuted)."
  },
  {
   "property": "C49",
   "status": "proved",
   "theorems": [
    "C49_ieee",
    "C49_double",
    "C49_gemm",
    "C49_gemm_finite",
    "C49_double_range",
    "C49_ref_gemm",
    "C49_gemm_vs_reference",
    "C49_ger",
    "C49_syrk",
    "C49_trmm_right",
    "C49_trmm_left"
   ],
   "note": ""
  },
  {
   "property": "C50",
   "status": "proved",
   "theorems": [
    "C50_potrf_dense",
    "C50_potrf_panel"
   ],
   "note": ""
  },
  {
   "property": "C51",
   "status": "proved",
   "theorems": [
    "C51_trsm_lower",
    "C51_trsm_upper"
   ],
   "note": ""
  },
  {
   "property": "C52",
   "status": "proved",
   "theorems": [
    "C52_getf2_column_major",
    "C52_getf2_row_major"
   ],
   "note": ""
  },
  {
   "property": "C53",
   "status": "proved",
   "theorems": [
    "C53_getrf"
   ],
   "note": ""
  },
  {
   "property": "C54",
   "status": "proved",
   "theorems": [
    "C54_pack",
    "C54_pack_vector",
    "C54_unpack",
    "C54_unpack_tran",
    "C54_resize",
    "C54_unpack_throws",
    "C54_roundtrip",
    "C54_pack_vec",
    "C54_unpack_vec",
    "C54_unpack_vec_deduced_refuted",
    "C54_int_refuted",
    "C54_vecse",
    "C54_vecsc"
   ],
   "note": ""
  },
  {
   "property": "C55",
   "status": "proved",
   "theorems": [
    "C55_construct",
    "C55_assign",
    "C55_resize_same",
    "C55_resize_refuted",
    "C55_unpack",
    "C55_custom_default_refuted"
   ],
   "note": ""
  },
  {
   "property": "C56",
   "status": "proved",
   "theorems": [
    "C56_potrf",
    "C56_potrf_throws",
    "C56_trsm",
    "C56_trsm_div_refuted",
    "C56_getrf_square",
    "C56_getrf_refuted",
    "C56_gemm",
    "C56_syrk",
    "C56_substitution",
    "C56_iamax",
    "C56_counters"
   ],
   "note": ""
  },
  {
   "property": "C57",
   "status": "proved",
   "theorems": [
    "C57_matrix",
    "C57_matrix_first",
    "C57_vector_first",
    "C57_size_mismatch",
    "C57_exact",
    "C57_exact_vector",
    "C57_vector",
    "C57_vector_each",
    "C57_scalar_accepts",
    "C57_scalar_rejects",
    "C57_tolerance",
    "C57_infinity_refuted",
    "C57_nan_refuted"
   ],
   "note": ""
  },
  {
   "property": "C58",
   "status": "proved",
   "theorems": [
    "C58_lu_solve",
    "C58_lu_solve_throws",
    "C58_cholesky_solve",
    "C58_lu_solve_rounded",
    "C58_cholesky_solve_rounded"
   ],
   "note": ""
  },
  {
   "property": "C59",
   "status": "proved",
   "theorems": [
    "C59_submatrix",
    "C59_submatrix_wraps_refuted",
    "C59_nested",
    "C59_nested_unchecked_refuted",
    "C59_at",
    "C59_trans_at",
    "C59_offset",
    "C59_offset_row_major_refuted",
    "C59_row",
    "C59_rows_disjoint",
    "C59_row_access_refuted",
    "C59_row_offset"
   ],
   "note": ""
  },
  {
   "property": "C60",
   "status": "proved",
   "theorems": [
    "C60_trsm_unique",
    "C60_getrf_unique",
    "C60_potrf_roundtrip",
    "C60_potrf_unique",
    "C60_trsm_trmm"
   ],
   "note": ""
  },
  {
   "property": "C61",
   "status": "proved",
   "theorems": [
    "C61_batch",
    "C61_any_order",
    "C61_gemm",
    "C61_ger",
    "C61_syrk",
    "C61_trmm_left",
    "C61_trmm_right",
    "C61_assign",
    "C61_assign_panel_to_dense",
    "C61_laswp",
    "C61_swap",
    "C61_trsm",
    "C61_potrf_dense",
    "C61_potrf_panel",
    "C61_ref_gemm",
    "C61_gemm_by_windows",
    "C61_potrf_padding_refuted",
    "C61_ger_row_major",
    "C61_ref_axpy",
    "C61_ref_ger",
    "C61_ref_trmm_left",
    "C61_ref_trmm_right",
    "C61_ref_trsm_left",
    "C61_ref_trsm_right",
    "C61_getrf_row_major",
    "C61_trmm_right_by_strips"
   ],
   "note": ""
  },
  {
   "property": "C62",
   "status": "proved",
   "theorems": [
    "C62_construct",
    "C62_construct_mod",
    "C62_wrap_refuted"
   ],
   "note": ""
  },
  {
   "property": "C63",
   "status": "proved",
   "theorems": [
    "C63_elements",
    "C63_row_parts",
    "C63_available",
    "C63_explicit_available",
    "C63_never_fails_otherwise",
    "C63_load",
    "C63_masked_load",
    "C63_iamax_row",
    "C63_swap_rows",
    "C63_part_alignment_refuted",
    "C63_dynamic_row_refuted",
    "C63_const_rows_refuted",
    "C63_set",
    "C63_assign_refuted"
   ],
   "note": ""
  },
  {
   "property": "C64",
   "status": "proved",
   "theorems": [
    "C64_accumulate",
    "C64_accumulate_sized",
    "C64_block",
    "C64_block_sized",
    "C64_add",
    "C64_add_sized",
    "C64_add_sized_refuted"
   ],
   "note": ""
  },
  {
   "property": "C65",
   "status": "proved",
   "theorems": [
    "C65_gemm_nn",
    "C65_gemm_tn",
    "C65_gemm_nt",
    "C65_int_refuted",
    "C65_int_inner_refuted",
    "C65_syrk_ln",
    "C65_trmm_rlnn",
    "C65_trmm_rutn",
    "C65_potrf",
    "C65_syrk_potrf",
    "C65_product",
    "C65_agrees_with_blast",
    "C65_syrk_alpha_refuted"
   ],
   "note": ""
  },
  {
   "property": "C66",
   "status": "proved",
   "theorems": [
    "C66_potrf_dense_completes",
    "C66_potrf_panel_completes"
   ],
   "note": ""
  },
  {
   "property": "C67",
   "status": "proved",
   "theorems": [
    "C67_register_gemm_order",
    "C67_register_transfer_order",
    "C67_register_trmm_mode",
    "C67_misaligned",
    "C67_gemm_order",
    "C67_ger_order",
    "C67_trmm_order"
   ],
   "note": ""
  },
  {
   "property": "C68",
   "status": "proved",
   "theorems": [
    "C68_tile_words",
    "C68_tile_in_memory",
    "C68_tile_ends_refuted"
   ],
   "note": ""
  },
  {
   "property": "C69",
   "status": "proved",
   "theorems": [
    "C69_operands",
    "C69_pointer",
    "C69_storage_order",
    "C69_submatrix",
    "C69_trans",
    "C69_arguments",
    "C69_views_refuted",
    "C69_panel_submatrix",
    "C69_const_types",
    "C69_static_refuted"
   ],
   "note": ""
  },
  {
   "property": "C70",
   "status": "proved",
   "theorems": [
    "C70_load",
    "C70_masked_load",
    "C70_store",
    "C70_masked_store",
    "C70_unaligned_panel_store",
    "C70_store_load",
    "C70_masked_panel_refuted"
   ],
   "note": ""
  },
  {
   "property": "C71",
   "status": "proved",
   "theorems": [
    "C71_gemm",
    "C71_gemm_contained",
    "C71_gemm_beta_zero",
    "C71_zero_factor_refuted",
    "C71_ger",
    "C71_syrk",
    "C71_trmm_right",
    "C71_ger_contained",
    "C71_syrk_contained",
    "C71_trmm_right_contained",
    "C71_trsm",
    "C71_trsm_contained",
    "C71_potrf",
    "C71_potrf_contained",
    "C71_trmm_left",
    "C71_trmm_left_above_refuted",
    "C71_trmm_left_any_size",
    "C71_getf2",
    "C71_getrf",
    "C71_getf2_row_major",
    "C71_getrf_row_major"
   ],
   "note": ""
  },
  {
   "property": "C72",
   "status": "proved",
   "theorems": [
    "C72_gemm_row_major",
    "C72_gemm_row_major_ops",
    "C72_gemm_by_inner_blocks",
    "C72_gemm_associative",
    "C72_syrk_is_gemm",
    "C72_row_major_double"
   ],
   "note": ""
  },
  {
   "property": "C73",
   "status": "proved",
   "theorems": [
    "C73_ger",
    "C73_syrk",
    "C73_trmm_right",
    "C73_potrf",
    "C73_trmm_left_refuted",
    "C73_getf2",
    "C73_getrf",
    "C73_getf2_row_major",
    "C73_getrf_row_major",
    "C73_storage_order_refuted",
    "C73_blocking_refuted"
   ],
   "note": ""
  },
  {
   "property": "C74",
   "status": "proved",
   "theorems": [
    "C74_offset",
    "C74_move",
    "C74_move_unaligned_refuted",
    "C74_vector",
    "C74_aligned",
    "C74_model"
   ],
   "note": ""
  },
  {
   "property": "C75",
   "status": "proved",
   "theorems": [
    "C75_reference_alone",
    "C75_both_visible",
    "C75_comparison_is_vacuous",
    "C75_agree",
    "C75_triangle_refuted"
   ],
   "note": ""
  },
  {
   "property": "C76",
   "status": "proved",
   "theorems": [
    "C76_every_schedule",
    "C76_complete_schedules",
    "C76_gemm_tiles",
    "C76_parallel_gemm",
    "C76_interference_refuted",
    "C76_parallel",
    "C76_ger_tiles",
    "C76_syrk_tiles",
    "C76_trmm_right_tiles",
    "C76_trmm_left_tiles",
    "C76_parallel_ger",
    "C76_parallel_syrk",
    "C76_parallel_trmm_right",
    "C76_parallel_trmm_left",
    "C76_in_place_order_refuted",
    "C76_parallel_trmm_right_by_strips"
   ],
   "note": ""
  },
  {
   "property": "C77",
   "status": "proved",
   "theorems": [
    "C77_update_factor",
    "C77_update_pos_def",
    "C77_gram",
    "C77_update_solve",
    "C77_block_cholesky"
   ],
   "note": ""
  },
  {
   "property": "C78",
   "status": "proved",
   "theorems": [
    "C78_gemm",
    "C78_ger",
    "C78_syrk",
    "C78_trmm_right",
    "C78_potrf_dense",
    "C78_potrf_panel",
    "C78_potrf_behind_buffer",
    "C78_trmm_left",
    "C78_iamax",
    "C78_swap",
    "C78_laswp",
    "C78_trsm",
    "C78_trsv",
    "C78_ger_row_major",
    "C78_assign",
    "C78_getf2",
    "C78_getf2_row_major",
    "C78_getrf_row_major",
    "C78_getf2_in_container",
    "C78_getf2_neon"
   ],
   "note": ""
  },
  {
   "property": "C79",
   "status": "proved",
   "theorems": [
    "C79_rank1_updates",
    "C79_syrk_by_rank1_updates",
    "C79_gemm_by_rank1_updates",
    "C79_trsm_by_columns",
    "C79_trsm_by_trsv",
    "C79_laswp_split",
    "C79_iamax_split"
   ],
   "note": ""
  },
  {
   "property": "C80",
   "status": "proved",
   "theorems": [
    "C80_print",
    "C80_layout_independent",
    "C80_text_identifies"
   ],
   "note": ""
  },
  {
   "property": "C81",
   "status": "proved",
   "theorems": [
    "C81_gemm_overlap",
    "C81_gemm_replaces_left",
    "C81_gemm_replaces_right",
    "C81_gemm_overlap_refuted",
    "C81_ger_overlap",
    "C81_syrk_overlap",
    "C81_syrk_replaces_factor",
    "C81_ger_overlap_refuted",
    "C81_syrk_overlap_refuted",
    "C81_ref_gemm_overlap",
    "C81_ref_axpy_overlap",
    "C81_ger_row_major_overlap",
    "C81_ref_ger_overlap",
    "C81_row_major_overlap_refuted"
   ],
   "note": ""
  }
 ]
}