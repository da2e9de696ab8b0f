-Q theories Verif
theories/Base.v
theories/Base_Proofs.v
theories/Spec.v
theories/Instances.v
theories/Algebra_Proofs.v
theories/Layout_Model.v
theories/Layout_Proofs.v
theories/Simd_Model.v
theories/Reg_Model.v
theories/Tile_Model.v
theories/Tile_Proofs.v
theories/Simd_Proofs.v
theories/Reg_Proofs.v
theories/Reg_Proofs2.v
theories/Properties_Layout.v
theories/Vec_Proofs.v
theories/Properties_Simd.v
theories/Properties_Tile.v
theories/Properties_Reg.v
theories/Gemm_Model.v
theories/Gemm_Proofs.v
theories/Arg_Proofs.v
theories/Properties_Gemm.v
theories/Ger_Model.v
theories/Ger_Proofs.v
theories/Scan_Proofs.v
theories/Properties_Ger.v
theories/Syrk_Model.v
theories/Syrk_Proofs.v
theories/Properties_Syrk.v
theories/Trmm_Model.v
theories/TileOrder_Proofs.v
theories/Trmm_Proofs.v
theories/Properties_Trmm.v
theories/Potrf_Model.v
theories/Cholesky_Proofs.v
theories/Potrf_Proofs.v
theories/Properties_Potrf.v
theories/Tri_Model.v
theories/Tri_Proofs.v
theories/Properties_Tri.v
theories/Ref_Model.v
theories/Ref_Proofs.v
theories/Properties_Ref.v
theories/LU_Model.v
theories/LU_Theory.v
theories/LU_Proofs.v
theories/LU_Row_Proofs.v
theories/Getrf_Proofs.v
theories/Properties_LU.v
theories/Container_Model.v
theories/Container_Proofs.v
theories/Properties_Container.v
theories/DynReg_Model.v
theories/Properties_DynReg.v
theories/MakePD_Model.v
theories/Properties_MakePD.v
theories/Lifetime_Model.v
theories/Properties_Lifetime.v
theories/Assign_Model.v
theories/Properties_Assign.v
theories/Round_Spec.v
theories/Float_Proofs.v
theories/Round_Proofs.v
theories/RoundElem_Proofs.v
theories/RoundFact_Proofs.v
theories/RoundLU_Proofs.v
theories/Properties_Round.v
theories/Getrf_Spec.v
theories/GetrfOps_Proofs.v
theories/GetrfRound_Proofs.v
theories/Properties_Getrf.v
theories/Properties_Strided.v
theories/Interop_Model.v
theories/Properties_Interop.v
theories/Bench_Model.v
theories/Properties_Bench.v
theories/Testing_Model.v
theories/Properties_Testing.v
theories/Properties_Solve.v
theories/PanelView_Model.v
theories/Properties_PanelView.v
theories/Properties_Unique.v
theories/Footprint_Spec.v
theories/Properties_Footprint.v
theories/Words_Model.v
theories/Properties_Words.v
theories/RowPtr_Model.v
theories/Properties_RowPtr.v
theories/Properties_RegGemm.v
theories/Blasfeo_Model.v
theories/Properties_Blasfeo.v
theories/RoundChol_Proofs.v
theories/Properties_RoundChol.v
theories/Properties_CholSolve.v
theories/Properties_Reject.v
theories/Tile64_Model.v
theories/Properties_Tile64.v
theories/Traits_Model.v
theories/Properties_Traits.v
theories/Properties_MPtr.v
theories/Properties_NaN.v
theories/Properties_Compose.v
theories/Properties_Repro.v
theories/PtrDiff_Model.v
theories/Properties_PtrDiff.v
theories/RefTrmm_Model.v
theories/Properties_RefTrmm.v
theories/AssignOp_Model.v
theories/Properties_AssignOp.v
theories/SimdImax_Model.v
theories/Properties_SimdImax.v
theories/Threads_Spec.v
theories/Properties_Threads.v
theories/Properties_Update.v
theories/Needs_Proofs.v
theories/Properties_Needs.v
theories/Properties_Split.v
theories/Properties_Bands.v
theories/Properties_NeedsLeft.v
theories/Print_Model.v
theories/Properties_Print.v
theories/LUDet_Proofs.v
theories/Properties_ReproLU.v
theories/Properties_NeedsScalar.v
theories/Properties_Threads2.v
theories/Properties_Overlap.v
theories/Properties_Footprint2.v
theories/Properties_Overlap2.v
theories/Properties_Overlap3.v
theories/Properties_Strips.v
theories/Assumptions.v
