(** Assumptions.v -- generated by tools/mk_manifest.py: prints the assumptions of every property theorem. *)
From Verif Require Import Properties_Layout Properties_Simd Properties_Tile Properties_Reg Properties_Gemm Properties_Ger Properties_Syrk Properties_Trmm Properties_Potrf Properties_Tri Properties_Ref Properties_LU Properties_Container Properties_DynReg Properties_MakePD Properties_Lifetime Properties_Assign Properties_Round Properties_Getrf Properties_Strided Properties_Interop Properties_Bench Properties_Testing Properties_Solve Properties_PanelView Properties_Unique Properties_Footprint Properties_Words Properties_RowPtr Properties_RegGemm Properties_Blasfeo Properties_RoundChol Properties_CholSolve Properties_Reject Properties_Tile64 Properties_Traits Properties_MPtr Properties_NaN Properties_Compose Properties_Repro Properties_PtrDiff Properties_RefTrmm Properties_AssignOp Properties_SimdImax Properties_Threads Properties_Update Properties_Needs Properties_Split Properties_Bands Properties_NeedsLeft Properties_Print Properties_ReproLU Properties_NeedsScalar Properties_Threads2 Properties_Overlap Properties_Footprint2 Properties_Overlap2 Properties_Overlap3 Properties_Strips.
Print Assumptions C01_nextMultiple_least.
Print Assumptions C01_nextMultiple_64bit.
Print Assumptions C02_dense_storage.
Print Assumptions C03_panel_storage.
Print Assumptions C04_element_write_local.
Print Assumptions C05_pointer_offsets.
Print Assumptions C06_transpose_pointer.
Print Assumptions C06_transpose_expression.
Print Assumptions C07_moves_are_offsets.
Print Assumptions C07_moves_across.
Print Assumptions C07_unaligned_panel_move_refuted.
Print Assumptions C08_submatrix.
Print Assumptions C08_nested_submatrix.
Print Assumptions C08_view_write.
Print Assumptions C08_view_reset.
Print Assumptions C08_row.
Print Assumptions C08_row_reset.
Print Assumptions C08_panel_submatrix.
Print Assumptions C08_panel_submatrix_ok.
Print Assumptions C08_panel_offset_refuted.
Print Assumptions C08_panel_offset.
Print Assumptions C08_panel_offset_unchecked.
Print Assumptions C09_masked_load.
Print Assumptions C09_masked_load_faults.
Print Assumptions C09_masked_store.
Print Assumptions C10_imax.
Print Assumptions C10_nan_refuted.
Print Assumptions C10_elementwise_imax_integer_indices_refuted.
Print Assumptions C10_elementwise_imax_swapped_refuted.
Print Assumptions C11_load_store.
Print Assumptions C11_load_store_sized.
Print Assumptions C12_full_store.
Print Assumptions C12_partial_store.
Print Assumptions C12_window_load.
Print Assumptions C13_storeLower.
Print Assumptions C13_storeLower_sized.
Print Assumptions C14_ger.
Print Assumptions C14_ger_unscaled.
Print Assumptions C14_ger_sized.
Print Assumptions C14_ger_unscaled_sized.
Print Assumptions C14_axpy.
Print Assumptions C14_scaled_load.
Print Assumptions C14_scale.
Print Assumptions C14_reset.
Print Assumptions C15_exact_cover.
Print Assumptions C15_inside.
Print Assumptions C16_kernels.
Print Assumptions C16_register_budget.
Print Assumptions C17_gemm_ops.
Print Assumptions C18_gemm_ring.
Print Assumptions C18_gemm4_ring.
Print Assumptions C19_layout_independent.
Print Assumptions C20_gemm_frame.
Print Assumptions C21_gemm_safe_in_containers.
Print Assumptions C21_unaligned_window_refuted.
Print Assumptions C22_gemm_throws.
Print Assumptions C22_gemm_no_throw.
Print Assumptions C23_ger_column_major.
Print Assumptions C23_ger_column_major_fma.
Print Assumptions C23_ger_row_major.
Print Assumptions C23_ger_ring.
Print Assumptions C23_ger_column_major_throws.
Print Assumptions C23_ger_row_major_throws.
Print Assumptions C23_ger_row_major_unchecked_output_refuted.
Print Assumptions C23_ger_neon_overread_refuted.
Print Assumptions C24_syrk_ops.
Print Assumptions C24_syrk_ring.
Print Assumptions C24_syrk_upper_untouched.
Print Assumptions C24_syrk_throws.
Print Assumptions C24_syrk_safe_in_containers.
Print Assumptions C24_syrk_neon_overread_refuted.
Print Assumptions C25_trmm_left_ops.
Print Assumptions C25_trmm_left_ring.
Print Assumptions C25_trmm_left_ignored_triangle_refuted.
Print Assumptions C25_trmm_left_panel_rhs_refuted.
Print Assumptions C25_trmm_left_throws.
Print Assumptions C25_trmm_left_in_place.
Print Assumptions C25_trmm_left_any_size.
Print Assumptions C25_trmm_left_any_size_ring.
Print Assumptions C26_trmm_right_ops.
Print Assumptions C26_trmm_right_ring.
Print Assumptions C26_trmm_right_throws.
Print Assumptions C26_trmm_right_unit_ignored_refuted.
Print Assumptions C26_trmm_right_unit_terminates_refuted.
Print Assumptions C26_trmm_right_in_place.
Print Assumptions C27_potrf_ops.
Print Assumptions C27_lower_only.
Print Assumptions C27_potrf_reals.
Print Assumptions C28_potrf_dense_ops.
Print Assumptions C28_potrf_panel_ops.
Print Assumptions C28_potrf_dense_upper_untouched.
Print Assumptions C28_potrf_throws.
Print Assumptions C28_potrf_dense_real.
Print Assumptions C28_potrf_panel_real.
Print Assumptions C28_potrf_panel_upper_refuted.
Print Assumptions C29_potrf_dense_footprint.
Print Assumptions C29_potrf_panel_footprint.
Print Assumptions C29_potrf_columns_refuted.
Print Assumptions C29_potrf_tile_rows_refuted.
Print Assumptions C29_potrf_float_refuted.
Print Assumptions C29_potrf_parent_refuted.
Print Assumptions C30_trsm_ops.
Print Assumptions C30_trsm_solves.
Print Assumptions C31_trsm_ops.
Print Assumptions C31_trsm_field.
Print Assumptions C31_trsm_throws.
Print Assumptions C31_trsv_field.
Print Assumptions C31_trsv_throws.
Print Assumptions C32_iamax.
Print Assumptions C32_iamax_ordered.
Print Assumptions C32_iamax_empty_throws.
Print Assumptions C32_iamax_blaze.
Print Assumptions C32_iamax_nan_refuted.
Print Assumptions C33_swap.
Print Assumptions C33_swap_involutive.
Print Assumptions C33_swap_throws.
Print Assumptions C33_swap_checked.
Print Assumptions C33_swap_overlap_refuted.
Print Assumptions C34_laswp.
Print Assumptions C34_laswp_permutes.
Print Assumptions C34_laswp_reversible.
Print Assumptions C35_getf2_column_major_ops.
Print Assumptions C35_getf2_column_major_throws_iff.
Print Assumptions C35_getf2_column_major.
Print Assumptions C35_getf2_multipliers_R.
Print Assumptions C35_getf2_safe_in_container.
Print Assumptions C35_getf2_neon_overread_refuted.
Print Assumptions C35_getf2_row_major_ops.
Print Assumptions C35_getf2_row_major_throws_iff.
Print Assumptions C35_getf2_row_major.
Print Assumptions C36_getrf_safe.
Print Assumptions C36_getrf_throws_iff.
Print Assumptions C36_getrf_column_major.
Print Assumptions C36_getrf_equals_getf2.
Print Assumptions C36_getrf_safe_in_container.
Print Assumptions C36_getrf_ops.
Print Assumptions C36_getrf_neon_safe_in_container.
Print Assumptions C37_getrf_row_major_pivots_refuted.
Print Assumptions C37_getrf_row_major_no_pivoting.
Print Assumptions C38_gemm_ops.
Print Assumptions C38_gemm_ring.
Print Assumptions C38_gemm_throws.
Print Assumptions C38_axpy_ops.
Print Assumptions C38_axpy_throws.
Print Assumptions C38_ger_ops.
Print Assumptions C38_trmm_left_ops.
Print Assumptions C38_trmm_right_ops.
Print Assumptions C38_trmm_left_ring.
Print Assumptions C38_trmm_right_ring.
Print Assumptions C38_trmm_throws.
Print Assumptions C38_trsm_left_ops.
Print Assumptions C38_trsm_right_ops.
Print Assumptions C38_trsm_left_field.
Print Assumptions C38_trsm_right_field.
Print Assumptions C38_trsm_throws.
Print Assumptions C39_gemm_agree.
Print Assumptions C39_gemm_agree_frame.
Print Assumptions C39_ger_agree.
Print Assumptions C39_trmm_left_agree.
Print Assumptions C39_trmm_right_agree.
Print Assumptions C39_trsm_agree.
Print Assumptions C40_assign_panel_to_dense.
Print Assumptions C40_assign_dense_to_panel.
Print Assumptions C40_round_trip.
Print Assumptions C40_sizes_unchecked_refuted.
Print Assumptions C40_unaligned_window_refuted.
Print Assumptions C40_which_assign.
Print Assumptions C40_which_assign_rest.
Print Assumptions C40_operator_throws.
Print Assumptions C40_operator_copies.
Print Assumptions C40_operator_blast_dense.
Print Assumptions C40_assign_function.
Print Assumptions C40_operator_round_trip.
Print Assumptions C41_default_construction.
Print Assumptions C41_value_construction.
Print Assumptions C41_value_construction_padding_refuted.
Print Assumptions C41_list_construction.
Print Assumptions C41_scalar_assignment.
Print Assumptions C41_dense_reset.
Print Assumptions C41_panel_reset_correct_sizes.
Print Assumptions C41_panel_reset.
Print Assumptions C41_panel_reset_overflow_refuted.
Print Assumptions C41_panel_reset_incomplete_refuted.
Print Assumptions C41_static_vector_list.
Print Assumptions C41_static_vector_value.
Print Assumptions C42_strided_vector_pointers.
Print Assumptions C42_row_column_vector_pointers.
Print Assumptions C42_view_rows_columns.
Print Assumptions C42_strided_load.
Print Assumptions C42_strided_masked_load.
Print Assumptions C42_strided_store.
Print Assumptions C42_strided_masked_store.
Print Assumptions C42_strided_copy.
Print Assumptions C42_strided_unaligned.
Print Assumptions C42_oriented_load.
Print Assumptions C42_cross_load.
Print Assumptions C42_oriented_panel_refuted.
Print Assumptions C43_construct.
Print Assumptions C43_scale.
Print Assumptions C43_load.
Print Assumptions C43_store.
Print Assumptions C43_storeLower.
Print Assumptions C43_ger.
Print Assumptions C43_ger_unscaled.
Print Assumptions C43_same_as_register_matrix.
Print Assumptions C43_load_overread_refuted.
Print Assumptions C43_equality.
Print Assumptions C44_randomize.
Print Assumptions C44_makePositiveDefinite_ops.
Print Assumptions C44_makePositiveDefinite_throws.
Print Assumptions C44_symmetric.
Print Assumptions C44_positive_definite.
Print Assumptions C44_range.
Print Assumptions C44_then_potrf.
Print Assumptions C44_makeSymmetric.
Print Assumptions C44_makeSymmetric_throws.
Print Assumptions C44_panel_ops.
Print Assumptions C44_panel_positive_definite.
Print Assumptions C45_storage_ownership.
Print Assumptions C45_storage_no_leak.
Print Assumptions C45_storage_move.
Print Assumptions C45_storage_move_assign.
Print Assumptions C45_matrix_without_copies.
Print Assumptions C45_matrix_copy_refuted.
Print Assumptions C45_matrix_assign_leak_refuted.
Print Assumptions C46_matrix_comparison.
Print Assumptions C46_matrix_comparison_exact.
Print Assumptions C46_nan_not_equal.
Print Assumptions C46_register_comparison.
Print Assumptions C47_dynamic_ownership.
Print Assumptions C47_dynamic_no_leak.
Print Assumptions C47_copy_refused.
Print Assumptions C47_move_refuted.
Print Assumptions C47_mismatched_delete_refuted.
Print Assumptions C48_assign.
Print Assumptions C48_assign_throws.
Print Assumptions C48_self_assign.
Print Assumptions C48_assign_shift.
Print Assumptions C48_overlap_refuted.
Print Assumptions C48_transpose_in_place_refuted.
Print Assumptions C49_ieee.
Print Assumptions C49_double.
Print Assumptions C49_gemm.
Print Assumptions C49_gemm_finite.
Print Assumptions C49_double_range.
Print Assumptions C49_ref_gemm.
Print Assumptions C49_gemm_vs_reference.
Print Assumptions C49_ger.
Print Assumptions C49_syrk.
Print Assumptions C49_trmm_right.
Print Assumptions C49_trmm_left.
Print Assumptions C50_potrf_dense.
Print Assumptions C50_potrf_panel.
Print Assumptions C51_trsm_lower.
Print Assumptions C51_trsm_upper.
Print Assumptions C52_getf2_column_major.
Print Assumptions C52_getf2_row_major.
Print Assumptions C53_getrf.
Print Assumptions C54_pack.
Print Assumptions C54_pack_vector.
Print Assumptions C54_unpack.
Print Assumptions C54_unpack_tran.
Print Assumptions C54_resize.
Print Assumptions C54_unpack_throws.
Print Assumptions C54_roundtrip.
Print Assumptions C54_pack_vec.
Print Assumptions C54_unpack_vec.
Print Assumptions C54_unpack_vec_deduced_refuted.
Print Assumptions C54_int_refuted.
Print Assumptions C54_vecse.
Print Assumptions C54_vecsc.
Print Assumptions C55_construct.
Print Assumptions C55_assign.
Print Assumptions C55_resize_same.
Print Assumptions C55_resize_refuted.
Print Assumptions C55_unpack.
Print Assumptions C55_custom_default_refuted.
Print Assumptions C56_potrf.
Print Assumptions C56_potrf_throws.
Print Assumptions C56_trsm.
Print Assumptions C56_trsm_div_refuted.
Print Assumptions C56_getrf_square.
Print Assumptions C56_getrf_refuted.
Print Assumptions C56_gemm.
Print Assumptions C56_syrk.
Print Assumptions C56_substitution.
Print Assumptions C56_iamax.
Print Assumptions C56_counters.
Print Assumptions C57_matrix.
Print Assumptions C57_matrix_first.
Print Assumptions C57_vector_first.
Print Assumptions C57_size_mismatch.
Print Assumptions C57_exact.
Print Assumptions C57_exact_vector.
Print Assumptions C57_vector.
Print Assumptions C57_vector_each.
Print Assumptions C57_scalar_accepts.
Print Assumptions C57_scalar_rejects.
Print Assumptions C57_tolerance.
Print Assumptions C57_infinity_refuted.
Print Assumptions C57_nan_refuted.
Print Assumptions C58_lu_solve.
Print Assumptions C58_lu_solve_throws.
Print Assumptions C58_cholesky_solve.
Print Assumptions C58_lu_solve_rounded.
Print Assumptions C58_cholesky_solve_rounded.
Print Assumptions C59_submatrix.
Print Assumptions C59_submatrix_wraps_refuted.
Print Assumptions C59_nested.
Print Assumptions C59_nested_unchecked_refuted.
Print Assumptions C59_at.
Print Assumptions C59_trans_at.
Print Assumptions C59_offset.
Print Assumptions C59_offset_row_major_refuted.
Print Assumptions C59_row.
Print Assumptions C59_rows_disjoint.
Print Assumptions C59_row_access_refuted.
Print Assumptions C59_row_offset.
Print Assumptions C60_trsm_unique.
Print Assumptions C60_getrf_unique.
Print Assumptions C60_potrf_roundtrip.
Print Assumptions C60_potrf_unique.
Print Assumptions C60_trsm_trmm.
Print Assumptions C61_batch.
Print Assumptions C61_any_order.
Print Assumptions C61_gemm.
Print Assumptions C61_ger.
Print Assumptions C61_syrk.
Print Assumptions C61_trmm_left.
Print Assumptions C61_trmm_right.
Print Assumptions C61_assign.
Print Assumptions C61_assign_panel_to_dense.
Print Assumptions C61_laswp.
Print Assumptions C61_swap.
Print Assumptions C61_trsm.
Print Assumptions C61_potrf_dense.
Print Assumptions C61_potrf_panel.
Print Assumptions C61_ref_gemm.
Print Assumptions C61_gemm_by_windows.
Print Assumptions C61_potrf_padding_refuted.
Print Assumptions C61_ger_row_major.
Print Assumptions C61_ref_axpy.
Print Assumptions C61_ref_ger.
Print Assumptions C61_ref_trmm_left.
Print Assumptions C61_ref_trmm_right.
Print Assumptions C61_ref_trsm_left.
Print Assumptions C61_ref_trsm_right.
Print Assumptions C61_getrf_row_major.
Print Assumptions C61_trmm_right_by_strips.
Print Assumptions C62_construct.
Print Assumptions C62_construct_mod.
Print Assumptions C62_wrap_refuted.
Print Assumptions C63_elements.
Print Assumptions C63_row_parts.
Print Assumptions C63_available.
Print Assumptions C63_explicit_available.
Print Assumptions C63_never_fails_otherwise.
Print Assumptions C63_load.
Print Assumptions C63_masked_load.
Print Assumptions C63_iamax_row.
Print Assumptions C63_swap_rows.
Print Assumptions C63_part_alignment_refuted.
Print Assumptions C63_dynamic_row_refuted.
Print Assumptions C63_const_rows_refuted.
Print Assumptions C63_set.
Print Assumptions C63_assign_refuted.
Print Assumptions C64_accumulate.
Print Assumptions C64_accumulate_sized.
Print Assumptions C64_block.
Print Assumptions C64_block_sized.
Print Assumptions C64_add.
Print Assumptions C64_add_sized.
Print Assumptions C64_add_sized_refuted.
Print Assumptions C65_gemm_nn.
Print Assumptions C65_gemm_tn.
Print Assumptions C65_gemm_nt.
Print Assumptions C65_int_refuted.
Print Assumptions C65_int_inner_refuted.
Print Assumptions C65_syrk_ln.
Print Assumptions C65_trmm_rlnn.
Print Assumptions C65_trmm_rutn.
Print Assumptions C65_potrf.
Print Assumptions C65_syrk_potrf.
Print Assumptions C65_product.
Print Assumptions C65_agrees_with_blast.
Print Assumptions C65_syrk_alpha_refuted.
Print Assumptions C66_potrf_dense_completes.
Print Assumptions C66_potrf_panel_completes.
Print Assumptions C67_register_gemm_order.
Print Assumptions C67_register_transfer_order.
Print Assumptions C67_register_trmm_mode.
Print Assumptions C67_misaligned.
Print Assumptions C67_gemm_order.
Print Assumptions C67_ger_order.
Print Assumptions C67_trmm_order.
Print Assumptions C68_tile_words.
Print Assumptions C68_tile_in_memory.
Print Assumptions C68_tile_ends_refuted.
Print Assumptions C69_operands.
Print Assumptions C69_pointer.
Print Assumptions C69_storage_order.
Print Assumptions C69_submatrix.
Print Assumptions C69_trans.
Print Assumptions C69_arguments.
Print Assumptions C69_views_refuted.
Print Assumptions C69_panel_submatrix.
Print Assumptions C69_const_types.
Print Assumptions C69_static_refuted.
Print Assumptions C70_load.
Print Assumptions C70_masked_load.
Print Assumptions C70_store.
Print Assumptions C70_masked_store.
Print Assumptions C70_unaligned_panel_store.
Print Assumptions C70_store_load.
Print Assumptions C70_masked_panel_refuted.
Print Assumptions C71_gemm.
Print Assumptions C71_gemm_contained.
Print Assumptions C71_gemm_beta_zero.
Print Assumptions C71_zero_factor_refuted.
Print Assumptions C71_ger.
Print Assumptions C71_syrk.
Print Assumptions C71_trmm_right.
Print Assumptions C71_ger_contained.
Print Assumptions C71_syrk_contained.
Print Assumptions C71_trmm_right_contained.
Print Assumptions C71_trsm.
Print Assumptions C71_trsm_contained.
Print Assumptions C71_potrf.
Print Assumptions C71_potrf_contained.
Print Assumptions C71_trmm_left.
Print Assumptions C71_trmm_left_above_refuted.
Print Assumptions C71_trmm_left_any_size.
Print Assumptions C71_getf2.
Print Assumptions C71_getrf.
Print Assumptions C71_getf2_row_major.
Print Assumptions C71_getrf_row_major.
Print Assumptions C72_gemm_row_major.
Print Assumptions C72_gemm_row_major_ops.
Print Assumptions C72_gemm_by_inner_blocks.
Print Assumptions C72_gemm_associative.
Print Assumptions C72_syrk_is_gemm.
Print Assumptions C72_row_major_double.
Print Assumptions C73_ger.
Print Assumptions C73_syrk.
Print Assumptions C73_trmm_right.
Print Assumptions C73_potrf.
Print Assumptions C73_trmm_left_refuted.
Print Assumptions C73_getf2.
Print Assumptions C73_getrf.
Print Assumptions C73_getf2_row_major.
Print Assumptions C73_getrf_row_major.
Print Assumptions C73_storage_order_refuted.
Print Assumptions C73_blocking_refuted.
Print Assumptions C74_offset.
Print Assumptions C74_move.
Print Assumptions C74_move_unaligned_refuted.
Print Assumptions C74_vector.
Print Assumptions C74_aligned.
Print Assumptions C74_model.
Print Assumptions C75_reference_alone.
Print Assumptions C75_both_visible.
Print Assumptions C75_comparison_is_vacuous.
Print Assumptions C75_agree.
Print Assumptions C75_triangle_refuted.
Print Assumptions C76_every_schedule.
Print Assumptions C76_complete_schedules.
Print Assumptions C76_gemm_tiles.
Print Assumptions C76_parallel_gemm.
Print Assumptions C76_interference_refuted.
Print Assumptions C76_parallel.
Print Assumptions C76_ger_tiles.
Print Assumptions C76_syrk_tiles.
Print Assumptions C76_trmm_right_tiles.
Print Assumptions C76_trmm_left_tiles.
Print Assumptions C76_parallel_ger.
Print Assumptions C76_parallel_syrk.
Print Assumptions C76_parallel_trmm_right.
Print Assumptions C76_parallel_trmm_left.
Print Assumptions C76_in_place_order_refuted.
Print Assumptions C76_parallel_trmm_right_by_strips.
Print Assumptions C77_update_factor.
Print Assumptions C77_update_pos_def.
Print Assumptions C77_gram.
Print Assumptions C77_update_solve.
Print Assumptions C77_block_cholesky.
Print Assumptions C78_gemm.
Print Assumptions C78_ger.
Print Assumptions C78_syrk.
Print Assumptions C78_trmm_right.
Print Assumptions C78_potrf_dense.
Print Assumptions C78_potrf_panel.
Print Assumptions C78_potrf_behind_buffer.
Print Assumptions C78_trmm_left.
Print Assumptions C78_iamax.
Print Assumptions C78_swap.
Print Assumptions C78_laswp.
Print Assumptions C78_trsm.
Print Assumptions C78_trsv.
Print Assumptions C78_ger_row_major.
Print Assumptions C78_assign.
Print Assumptions C78_getf2.
Print Assumptions C78_getf2_row_major.
Print Assumptions C78_getrf_row_major.
Print Assumptions C78_getf2_in_container.
Print Assumptions C78_getf2_neon.
Print Assumptions C79_rank1_updates.
Print Assumptions C79_syrk_by_rank1_updates.
Print Assumptions C79_gemm_by_rank1_updates.
Print Assumptions C79_trsm_by_columns.
Print Assumptions C79_trsm_by_trsv.
Print Assumptions C79_laswp_split.
Print Assumptions C79_iamax_split.
Print Assumptions C80_print.
Print Assumptions C80_layout_independent.
Print Assumptions C80_text_identifies.
Print Assumptions C81_gemm_overlap.
Print Assumptions C81_gemm_replaces_left.
Print Assumptions C81_gemm_replaces_right.
Print Assumptions C81_gemm_overlap_refuted.
Print Assumptions C81_ger_overlap.
Print Assumptions C81_syrk_overlap.
Print Assumptions C81_syrk_replaces_factor.
Print Assumptions C81_ger_overlap_refuted.
Print Assumptions C81_syrk_overlap_refuted.
Print Assumptions C81_ref_gemm_overlap.
Print Assumptions C81_ref_axpy_overlap.
Print Assumptions C81_ger_row_major_overlap.
Print Assumptions C81_ref_ger_overlap.
Print Assumptions C81_row_major_overlap_refuted.
