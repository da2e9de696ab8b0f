# Formal model of mkatliar/blast in Rocq (Coq 8.16.1)

## 1. What is modelled, and how

Everything is an executable Gallina function over

* an abstract scalar type `T` with an operation record `Ops` (zero, one, add, sub, mul, div, fma, fnma,
  sqrt, abs, `<`): a theorem "for every `Ops`" is a statement about the exact sequence of scalar operations,
  so it is also valid for IEEE `float`/`double` including NaN, infinities and rounding.  Algebraic
  theorems add laws (commutative ring, field, real numbers) as explicit hypotheses;
* a flat memory `mem := nat -> T` in units of one element, with an allocation map `al : nat -> bool`;
  every read or write outside `al`, and every aligned SIMD access at an address that is not a multiple
  of the SIMD size, is the outcome `UB`;
* an outcome type `res A := Ok a | UB | Throw e | Terminate | IllFormed`
  (`Terminate` = an exception leaves a `noexcept` function; `IllFormed` = the instantiation does not compile);
* the SIMD size `SS`, an arbitrary positive natural number (4/8 AVX2, 2/4 NEON are instances).

Files in `rocq/theories/`: `*_Model.v` only definitions, each with file:line citations; `*_Proofs.v`, `LU_Theory.v` only proofs and
auxiliary notions; `Spec.v` the independent specification vocabulary; `Instances.v` the scalar instances (integers, rationals,
reals); `Round_Spec.v` the specification of rounded arithmetic; `Getrf_Spec.v` that of the blocked factorisation; `Footprint_Spec.v` footprints and batches; `Properties_*.v` the theorems listed in MANIFEST.json with concrete non-vacuity instances next to them;
`Assumptions.v` (generated) prints the assumptions of every one of them.

| model file | code (under `/repo/include/blast` unless noted) | content |
|---|---|---|
| `Layout_Model.v` | `util/NextMultiple.hpp`, `math/dense/{Dynamic,Static}Matrix.hpp`, `math/panel/{Dynamic,Static}PanelMatrix.hpp`, `math/{dense,panel}/*MatrixPointer.hpp`, `math/views/{Submatrix,Row}.hpp`, `math/views/submatrix/Panel.hpp`, `math/expressions/{MatTransExpr,PMatTransExpr}.hpp` | containers (index, capacity), pointers (`mptr`: dense/panel, order, alignment flag, base, spacing), windows, rows, transposes |
| `Simd_Model.v` | `math/simd/SimdVec.hpp`, `math/simd/arch/{Avx2,Neon64}.hpp`, load/store of the pointer classes, vector pointers | vectors `nat -> T`, loads/stores/masks, `imax` shuffle networks |
| `Reg_Model.v` | `math/register_matrix/{RegisterMatrix,Gemm}.hpp` | registers `nat -> nat -> vec`, all kernels, loops as in the code |
| `DynReg_Model.v` | `math/register_matrix/DynamicRegisterMatrix.hpp` | run-time sized register matrix |
| `Tile_Model.v` | `math/algorithm/Tile.hpp`, `math/algorithm/arch/*/Tile.hpp` | list of functor calls in program order |
| `Gemm_Model.v`, `Trmm_Model.v` | `math/algorithm/{Gemm,Trmm}.hpp` | drivers over memory |
| `Ger_Model.v`, `Syrk_Model.v`, `Potrf_Model.v`, `Tri_Model.v`, `LU_Model.v` | `math/dense/{Ger,Syrk,Potrf,Trsm,Trsv,Iamax,Swap,Laswp,Getf2,Getrf}.hpp`, `math/panel/Potrf.hpp` | drivers over memory |
| `Ref_Model.v` | `math/reference/*.hpp` | reference kernels |
| `Container_Model.v`, `Assign_Model.v` | constructors, `operator=`, `reset`, `==` of the containers and `StaticVector.hpp`; `math/Matrix.hpp`; `math/expressions/PanelMatrix.hpp` | initialisation, comparison, assignment |
| `MakePD_Model.v` | `math/algorithm/{Randomize,MakePositiveDefinite}.hpp`, `math/{Dynamic,Static}PanelMatrix.hpp` | random stream as an arbitrary function |
| `Lifetime_Model.v` | `/repo/include/blasfeo/{Memory,DynamicMatrix}.hpp`, special members of `DynamicMatrix`, `DynamicPanelMatrix` | histories of operations on numbered objects, allocator log |
| `Interop_Model.v` | `/repo/include/blasfeo/{BlazeInterop,DynamicMatrix,Matrix,CustomMatrix}.hpp`, `blasfeo_api/{Mat,Vec}.hpp` | BLASFEO matrix = size + address function; Blaze matrix = order, size, data, spacing, result of resizing |
| `Bench_Model.v` | `/repo/include/bench/{Complexity,Gemm,Trsm,Iamax}.hpp`, `/repo/bench/common/Syrk.cpp` | 64-bit words as `Z` modulo 2^64; `std::map` as association list |
| `Testing_Model.v` | `/repo/include/test/Testing.hpp` | early-exit loops; messages dropped except for the position |
| `PanelView_Model.v` | `math/views/{submatrix,row}/Panel.hpp`, `math/PanelMatrix.hpp`, `math/expressions/PMatTransExpr.hpp` | views on panel matrices with 64-bit window arguments |
| `Words_Model.v` | `math/dense/DynamicMatrix.hpp`, `math/panel/DynamicPanelMatrix.hpp` | spacing, capacity, array size and element index in 64-bit `size_t` arithmetic; allocator never fails |
| `RowPtr_Model.v` | `math/views/Row.hpp`, `math/Vector.hpp`, `math/dense/{Static,Dynamic}VectorPointer.hpp` | traits of rows and the pointers built from them |
| `Blasfeo_Model.v` | `/repo/include/blasfeo/blasfeo_api/{Gemm,Syrk,Trmm,Potrf,SyrkPotrf}.hpp` | the library routines by their documented element-wise effect with `int` parameters; the wrappers convert and pass arguments |
| RoundChol_Proofs.v, Properties_RoundChol.v | completion of the Cholesky factorisation in rounded arithmetic (C66) |
| Properties_CholSolve.v | solving with the Cholesky factor, rounded (C58) |
| `Properties_Reject.v` | C67: rejected operand kinds (no new model) |
| `Tile64_Model.v`, `Properties_Tile64.v` | `math/algorithm/arch/*/Tile.hpp` | C68: the loops of tile() in wrapping 64-bit arithmetic, with fuel (None = not ended yet) |
| `Traits_Model.v` | typetraits/Is{Static,Aligned,Padded,DenseMatrix,PanelMatrix}.hpp, StorageOrder.hpp, Spacing and their specialisations for containers, Submatrix, PanelSubmatrix, MatTransExpr, const types; selection of ptr(); submatrix(), trans() on nested views |
| Properties_NaN.v | absorbing values (NaN) in the kernels (C71) |
| Properties_Compose.v | sequences of calls: transposed equation, inner blocks, associativity, syrk as gemm (C72); `check_pre`: conditions of concrete operands by evaluation |
| Properties_Repro.v | C73: two runs with different SIMD widths, registers per tile, layouts and addresses give the same bits (ger, syrk, right trmm, potrf); refuted for left trmm |
| `PtrDiff_Model.v`, `Properties_PtrDiff.v` | C74: pointer offsets in bytes, 64-bit words and signed offsets (dense, panel, vector pointers), agreement with the model of the other theorems |
| `RefTrmm_Model.v`, `Properties_RefTrmm.v` | `math/reference/Trmm.hpp`, `math/algorithm/Trmm.hpp` | C75: overload resolution (argument-dependent lookup, most constrained candidate) of the unqualified call in the left-hand reference::trmm |
| `AssignOp_Model.v` | which overload of `assign` an assignment between panel, Blaze dense and blast dense matrices selects (conversion ranks), `operator=` of the panel matrices |
| `SimdImax_Model.v` | `imax(a, idxa, b, idxb)` (`dense/Iamax.hpp`) incl. template argument deduction of `blend` |
| `Threads_Spec.v` | (specification) threads as lists of calls, schedules, ownership; no code of its own |
| `Properties_Update.v` | C77: client programs combining `syrkLower`, `potrf` and `trsm`; blocked Cholesky |
| Needs_Proofs.v | inversion lemmas: a driver or register operation that is defined had every cell it touches allocated; `ou` = defined or undefined behaviour, nothing else |
| Properties_Needs.v | C78: the exact allocation requirements of gemm, ger, syrk, right trmm; potrf's reads behind the source |
| Properties_Split.v | C79: client programs (sequences of ger, column-wise trsm/trsv, split laswp, split iamax) equal to one call |
| Properties_Bands.v | C25 for all sizes: row bands, elements of A that contribute |
| Properties_NeedsLeft.v | C78 and C71 for the left trmm, all sizes |
| Print_Model.v, Properties_Print.v | C80: the output operator of matrices |
| LUDet_Proofs.v | two runs of getrf on matrices with equal elements, in step (for C73) |
| Properties_ReproLU.v | C73 and C71 for getf2 and getrf, both storage orders |
| Properties_NeedsScalar.v | C78 for the element-wise routines (iamax, swap, laswp, trsm, trsv, assign, row-major ger/getf2/getrf) and the column-major getf2; which of the library's own containers hold what getf2 needs |
| Properties_Threads2.v | C76: ger, syrk, trmm divided into tiles; generic theorem about operations divided into pieces |
| Properties_Overlap.v | C81: gemm whose result overlaps a factor |
| Properties_Overlap2.v | C81 for ger and syrk |
| Properties_Overlap3.v | C81 for the element-by-element routines |
| Properties_Strips.v | C61, C76: multiplying by a triangular matrix from the right strip by strip, by one or several threads |
| Properties_Footprint2.v | C61 for the row-major ger and getrf and the reference routines |

Not modelled: C++ overload resolution/concepts (each instantiation is a model parameter), the code generator,
xsimd/blaze/BLASFEO themselves (their functions are given their documented lane-wise meaning), 64-bit overflow
of `size_t`/`ptrdiff_t` address arithmetic except in `nextMultiple`, container construction and element indices, `tile()`, and window arguments (elsewhere sizes are assumed to fit), the state of `std::ostream` (formatting flags, failure), the inside of the BLASFEO C library, `math/dense/SyrkBackend.hpp` (calls a member that no pointer has, so it cannot be instantiated), performance hints (`#pragma unroll`, prefetching), the benchmark and test programs themselves.

## 2. Plan per property

* C01 nextMultiple: proved on `nat` and on words modulo 2^64 (`N`), by div/mod arithmetic.
* C02, C03, C04 storage: address functions of the four containers; injectivity, bounds, alignment by div/mod.
* C05, C06, C07 pointers: `mptr` offset composition; panel unaligned recovery from the address; transposition; moves
  (with a `_refuted` theorem for the unaligned panel move).
* C08 views: windows as index maps on containers; composition and frame; `reset`.
* C09 masked SIMD: loads/stores against `al`; C10 imax shuffle networks over any total order.
* C11-C14 RegisterMatrix operations against pointwise specifications and memory frames.
* C15, C16 tile(): exact cover: every cell belongs to exactly one call; kernel shapes, alignment, registers.
* C17-C22 gemm: invariant over the tile list; corollaries for rings, layouts (relational), frame, safety, exceptions;
  `_refuted` for unpadded storage.
* C23 ger, C24 syrk: same tile machinery.
* C25, C26 trmm: correctness where it holds (C may be B: a tile call only reads rows/columns that no earlier call of `tile` has written, TileOrder_Proofs), `_refuted` where the ignored triangle / unit flag is mishandled. For all sizes: closed form of the row bands of the row-major traversal from its three loops (Properties_Bands.v), which decides per element whether the full or the partial kernel computes it.
* C27-C29 potrf: register kernel, dense and panel drivers, reals for L*L^T=A; `_refuted` for footprint violations.
* C30, C31 triangular solves. C32-C36 iamax, swap, laswp, getf2, getrf over an ordered field; C37: pivoting `_refuted`, the effect without pivoting characterised (induction on the elimination steps of a product of given factors).
* C38 reference kernels incl. aliasing, C39 equality with the optimised ones.
* C40 assignment, C41 containers (the documented effect of DynamicPanelMatrix::reset `_refuted`, its actual effect characterised for every size), C42 vector pointers.
* C43 DynamicRegisterMatrix; C44 makePositiveDefinite, makeSymmetric, randomize for an arbitrary random stream (positive
  definiteness over the reals as Gram matrix plus N*I; exact symmetry for commutative multiplication).
* C45, C47 ownership: invariant over histories (one owner per buffer, balanced allocator log); `_refuted` for copies of
  blasfeo::DynamicMatrix, moves and mismatched delete of the blast matrices. C46 comparison. C48 assignment with overlap condition.
* C49-C52 rounding errors: `Round_Spec.v` states what is assumed of rounded arithmetic (unit roundoff u, underflow eta), `Float_Proofs.v` proves it of
  Flocq's IEEE binary formats of any precision, and the operation-by-operation theorems (C17, C23-C26, C28, C31, C35, C38) give
  componentwise forward bounds for products and backward bounds for the factorisations and solves; no-overflow condition for gemm.
* C53 getrf in rounded arithmetic: `Getrf_Spec.v` gives every element of the blocked factorisation as a sequence of scalar operations (C36_getrf_ops
  proves it in any arithmetic, by an invariant over the blocks); the backward bound has exponent r/NB + 2 NB + 2.
* C54, C55 BLASFEO interoperability: the C library's pack/unpack functions by their documented element-wise effect with `int` parameters, the C++
  wrappers and `BlazeInterop.hpp` on top; one copy-loop lemma; `_refuted` for the conversion to int, the resizing and two ill-formed functions.
* C56 operation counts: words modulo 2^64 in `Z`, closed forms against iterated sums by induction; `_refuted` for wrap-around. C57 test predicates: early-exit
  loops over any scalar arithmetic, then Flocq's IEEE formats for the meaning of the tolerance; `_refuted` for infinities and NaN.
* C58 factor and solve: client programs over getrf, laswp, trsm and potrf (Properties_Solve.v); the theorems compose C28, C31, C34, C36 in exact arithmetic and
  C51, C53 in rounded arithmetic (residual bound by splitting P*B - P*A*X into the three backward errors).
* C59 checked panel views: PanelView_Model.v with the window arguments as 64-bit words; case analysis; `_refuted` for wrap-around, nested windows and row access.
* C60 uniqueness: triangular, LU and Cholesky factors over a field (reals) by induction on the position (Properties_Unique.v), applied to C25, C28, C31, C36.
* C61 footprints: `Footprint_Spec.v` (reads, writes, result of a call; independence; batches); instances from the operation-by-operation theorems, batch theorem by
  induction on the list, gemm window by window; `_refuted` for the padding rows of potrf. Calls are atomic in the model; interleavings inside calls are not modelled.
* C62 construction in 64-bit words: Words_Model.v; each word operation is the exact one modulo 2^64; `_refuted` for wrapped sizes.
* C63 rows as vectors: RowPtr_Model.v; addresses by case analysis on the layout, then C42, C32 and C33; `_refuted` for row parts and dynamic matrices.
* C64 register products: Reg_Model.v; induction over the inner index with the register contents as invariant; `_refuted` for the unsized load of C.
* C65 BLASFEO products: Blasfeo_Model.v; loop invariant over the elements already written; composed with C55 for the way through Blaze matrices; `_refuted` for int overflow and for the rounding of alpha.
* C66 completion of potrf: potrf in any `rounded` and `ranged` arithmetic (`ranged` now covers fnma, quotients, sums and differences too; shown for IEEE formats in Float_Proofs.v). Induction over columns: the backward error of the finished columns (C50) and positive definiteness by a margin bound the norm of every row of L (a discrete Demmel/Higham argument: solve L^T x = r, insert (-x,1) in the quadratic form), hence the next pivot is at least lambda/(2N) times the diagonal, hence quotients and fused chains stay in range. Nothing is claimed of the rows below the square part. Example: a 6x4 matrix in double.
* C67 Rejected operands: `IllFormed`/`Throw`/`Terminate`/`UB` outcomes of the existing models for row-major operands, unit or wrong triangles in the register trmm, misaligned aligned access; by case analysis of the checks, and for gemm (where the check is inside the tile loop) from the tile list being non-empty (C15).
* C68 Tiling in 64-bit arithmetic: `tile64` against `tile` (Tile_Model) by induction on the fuel; divergence for 2^64-1 columns by an invariant under which the loop condition always holds.
* C69 `Traits_Model.v` / `Properties_Traits.v`: matrix types as an inductive family, traits by recursion on the type, objects with their type; ptr() exists iff the object is usable, by induction on the nesting; its addresses through the lemma on windows of containers. The operands of the algorithm theorems (`MArg`) are an over-approximation of what compiles: they include offset windows of panel matrices, for which C69_views_refuted shows that no pointer exists.
* C70 `Properties_MPtr.v`: the load/store functions of `Simd_Model.v`; lanes are contiguous at a panel boundary (`addr_lanes_cm/rm`), the gather loop by induction otherwise.
* C71 NaN: `absorbing O p` is what is used of NaN (shown for every binary format); the operation-by-operation theorems C17, C23-C28, C31 give the propagation, equality of two runs gives containment. The sign of zero is the only freedom left when beta = 0.
* C72 composed calls: consequences of C17/C18/C24 for sequences of calls; induction over the list of inner blocks; commutativity of the factors of Flocq's fma for the bit-for-bit statement.
* C73 Two-run statements from the operation-level theorems C23, C24, C26, C28: the operations performed for an element do not mention SS, cc, addresses or flags; for potrf an induction over the columns shows that two runs compute the same factor. The exception (left trmm, zero factors read above the diagonal of the padding) is a computed counterexample with double arithmetic.
* C74 pointer arithmetic on byte addresses modulo 2^64 with the conversions ptrdiff_t -> size_t; proved by congruence modulo 2^64 and divisibility of 2^64 by the panel size in bytes; the unaligned hmove/vmove of panel pointers refuted by a computed instance.
* C75 overload resolution modelled as: viable candidates, the unique one whose constraints include those of all viable ones; cases on the storage orders; the comparison theorem by two runs of the C25 proof.
* C40 (addition) overload resolution over parameter/argument conversion ranks is modelled as a finite function; the operators reduce to the generic assign, whose theorems (C48) then apply.
* C76 threads: a step is a confined call (C61) or one tile of gemm, ger, syrk or trmm (`divides_into` says what it takes to divide an operation into pieces; C76_parallel is generic); induction over the schedule with the invariant that the shared memory agrees with the memory of each thread run alone on what that thread knows. Granularity: calls or tiles are atomic steps; accesses within a tile are not interleaved. That this loses nothing is the C++ guarantee for race-free programs (no step writes what a concurrent one reads or writes), not proved here; padding rows read by vector loads count as read for the purpose of that guarantee.
* C77 — client programs over the models of `syrkLower`, `potrf`, `trsm`; positive definiteness of beta*C + alpha*A*A^T as a sum of squares; the blocked factorisation by induction over the list of block widths, through uniqueness of the factor (C60).
* C78 exact requirements: sufficiency from the element-wise theorems; necessity by inverting the run tile by tile (every covered element is loaded or stored by some tile), and totality of 'Ok or UB' on conforming arguments. For the left trmm the set depends on how the tiles split the rows: closed form of the bands (Properties_Bands.v).
* C79 splitting calls: invariants over the sequence of calls on top of the operation-level theorems (C17, C23, C24, C31, C32); uniqueness of the substitution recurrence for trsm.
* C80 printing: the loops as list functions; a separate reader that splits a text at newlines and tabs, proved to return the table of elements; injectivity from it.
* C73/C71 for LU: the pivot search is a function of the elements in every arithmetic (`running_max`), so a run is determined by the elements; the blocked algorithm by a simulation of two runs, step by step. NaN: by the element-wise operation sequences of C35/C36.
* C81 gemm into a factor: the tiles in the order of the traversal (tiled_in_order); an earlier tile that wrote into the rows of A (columns of B) of a later one would have to share a column (row) with it, because with at most four columns (one register of rows) there is one band; counterexamples one column and one row beyond by computation. For ger and syrk: the tiles go column block by column block, top to bottom (tile_later, syrk_ordered), so what is stored in the last block is stored after everything else has been read. Element-by-element routines: scan2_ok, each read compared with the elements stored before it.

## 3. Trusted base

Coq 8.16.1 kernel (including its `vm_compute`/conversion), the reading of the C++ code recorded in the citations, the assumptions
listed by `Print Assumptions` after each theorem.  Most theorems are closed under the global context; theorems over
the real numbers use the standard library's axioms for `R` (listed in section 4).  No axioms of our own.
For C49-C53 also Flocq's definition of IEEE 754 arithmetic (`BinarySingleNaN`; no axioms beyond the standard library's `R`), as the meaning of `float` and `double`.

## 4. Assumptions per theorem

Generated by `tools/mk_design.py` from `Print Assumptions` (file `Assumptions.v`, part of the build).

**Closed under the global context** (no axioms) -- 477 theorems: `C01_nextMultiple_least`, `C01_nextMultiple_64bit`, `C02_dense_storage`, `C03_panel_storage`, `C04_element_write_local`, `C05_pointer_offsets`, `C06_transpose_pointer`, `C06_transpose_expression`, `C07_moves_are_offsets`, `C07_moves_across`, `C07_unaligned_panel_move_refuted`, `C08_submatrix`, `C08_nested_submatrix`, `C08_view_write`, `C08_view_reset`, `C08_row`, `C08_row_reset`, `C08_panel_submatrix`, `C08_panel_submatrix_ok`, `C08_panel_offset_refuted`, `C08_panel_offset`, `C08_panel_offset_unchecked`, `C09_masked_load`, `C09_masked_load_faults`, `C09_masked_store`, `C10_imax`, `C10_nan_refuted`, `C10_elementwise_imax_integer_indices_refuted`, `C10_elementwise_imax_swapped_refuted`, `C11_load_store`, `C11_load_store_sized`, `C12_full_store`, `C12_partial_store`, `C12_window_load`, `C13_storeLower`, `C13_storeLower_sized`, `C14_ger`, `C14_ger_unscaled`, `C14_ger_sized`, `C14_ger_unscaled_sized`, `C14_axpy`, `C14_scaled_load`, `C14_scale`, `C14_reset`, `C15_exact_cover`, `C15_inside`, `C16_kernels`, `C16_register_budget`, `C17_gemm_ops`, `C18_gemm_ring`, `C18_gemm4_ring`, `C19_layout_independent`, `C20_gemm_frame`, `C21_gemm_safe_in_containers`, `C21_unaligned_window_refuted`, `C22_gemm_throws`, `C22_gemm_no_throw`, `C23_ger_column_major`, `C23_ger_column_major_fma`, `C23_ger_row_major`, `C23_ger_ring`, `C23_ger_column_major_throws`, `C23_ger_row_major_throws`, `C23_ger_row_major_unchecked_output_refuted`, `C23_ger_neon_overread_refuted`, `C24_syrk_ops`, `C24_syrk_ring`, `C24_syrk_upper_untouched`, `C24_syrk_throws`, `C24_syrk_safe_in_containers`, `C24_syrk_neon_overread_refuted`, `C25_trmm_left_ops`, `C25_trmm_left_ring`, `C25_trmm_left_ignored_triangle_refuted`, `C25_trmm_left_panel_rhs_refuted`, `C25_trmm_left_throws`, `C25_trmm_left_in_place`, `C25_trmm_left_any_size`, `C25_trmm_left_any_size_ring`, `C26_trmm_right_ops`, `C26_trmm_right_ring`, `C26_trmm_right_throws`, `C26_trmm_right_unit_ignored_refuted`, `C26_trmm_right_unit_terminates_refuted`, `C26_trmm_right_in_place`, `C27_potrf_ops`, `C27_lower_only`, `C28_potrf_dense_ops`, `C28_potrf_panel_ops`, `C28_potrf_dense_upper_untouched`, `C28_potrf_throws`, `C28_potrf_panel_upper_refuted`, `C29_potrf_dense_footprint`, `C29_potrf_panel_footprint`, `C29_potrf_columns_refuted`, `C29_potrf_tile_rows_refuted`, `C29_potrf_float_refuted`, `C29_potrf_parent_refuted`, `C30_trsm_ops`, `C30_trsm_solves`, `C31_trsm_ops`, `C31_trsm_field`, `C31_trsm_throws`, `C31_trsv_field`, `C31_trsv_throws`, `C32_iamax`, `C32_iamax_ordered`, `C32_iamax_empty_throws`, `C32_iamax_blaze`, `C32_iamax_nan_refuted`, `C33_swap`, `C33_swap_involutive`, `C33_swap_throws`, `C33_swap_checked`, `C33_swap_overlap_refuted`, `C34_laswp`, `C34_laswp_permutes`, `C34_laswp_reversible`, `C35_getf2_column_major_ops`, `C35_getf2_column_major_throws_iff`, `C35_getf2_column_major`, `C35_getf2_safe_in_container`, `C35_getf2_neon_overread_refuted`, `C35_getf2_row_major_ops`, `C35_getf2_row_major_throws_iff`, `C35_getf2_row_major`, `C36_getrf_safe`, `C36_getrf_throws_iff`, `C36_getrf_column_major`, `C36_getrf_equals_getf2`, `C36_getrf_safe_in_container`, `C36_getrf_ops`, `C36_getrf_neon_safe_in_container`, `C37_getrf_row_major_pivots_refuted`, `C37_getrf_row_major_no_pivoting`, `C38_gemm_ops`, `C38_gemm_ring`, `C38_gemm_throws`, `C38_axpy_ops`, `C38_axpy_throws`, `C38_ger_ops`, `C38_trmm_left_ops`, `C38_trmm_right_ops`, `C38_trmm_left_ring`, `C38_trmm_right_ring`, `C38_trmm_throws`, `C38_trsm_left_ops`, `C38_trsm_right_ops`, `C38_trsm_left_field`, `C38_trsm_right_field`, `C38_trsm_throws`, `C39_gemm_agree`, `C39_gemm_agree_frame`, `C39_ger_agree`, `C39_trmm_left_agree`, `C39_trmm_right_agree`, `C39_trsm_agree`, `C40_assign_panel_to_dense`, `C40_assign_dense_to_panel`, `C40_round_trip`, `C40_sizes_unchecked_refuted`, `C40_unaligned_window_refuted`, `C40_which_assign`, `C40_which_assign_rest`, `C40_operator_throws`, `C40_operator_copies`, `C40_operator_blast_dense`, `C40_assign_function`, `C40_operator_round_trip`, `C41_default_construction`, `C41_value_construction`, `C41_value_construction_padding_refuted`, `C41_list_construction`, `C41_scalar_assignment`, `C41_dense_reset`, `C41_panel_reset_correct_sizes`, `C41_panel_reset`, `C41_panel_reset_overflow_refuted`, `C41_panel_reset_incomplete_refuted`, `C41_static_vector_list`, `C41_static_vector_value`, `C42_strided_vector_pointers`, `C42_row_column_vector_pointers`, `C42_view_rows_columns`, `C42_strided_load`, `C42_strided_masked_load`, `C42_strided_store`, `C42_strided_masked_store`, `C42_strided_copy`, `C42_strided_unaligned`, `C42_oriented_load`, `C42_cross_load`, `C42_oriented_panel_refuted`, `C43_construct`, `C43_scale`, `C43_load`, `C43_store`, `C43_storeLower`, `C43_ger`, `C43_ger_unscaled`, `C43_same_as_register_matrix`, `C43_load_overread_refuted`, `C43_equality`, `C44_randomize`, `C44_makePositiveDefinite_ops`, `C44_makePositiveDefinite_throws`, `C44_symmetric`, `C44_makeSymmetric`, `C44_makeSymmetric_throws`, `C44_panel_ops`, `C45_storage_ownership`, `C45_storage_no_leak`, `C45_storage_move`, `C45_storage_move_assign`, `C45_matrix_without_copies`, `C45_matrix_copy_refuted`, `C45_matrix_assign_leak_refuted`, `C46_matrix_comparison`, `C46_matrix_comparison_exact`, `C46_nan_not_equal`, `C46_register_comparison`, `C47_dynamic_ownership`, `C47_dynamic_no_leak`, `C47_copy_refused`, `C47_move_refuted`, `C47_mismatched_delete_refuted`, `C48_assign`, `C48_assign_throws`, `C48_self_assign`, `C48_assign_shift`, `C48_overlap_refuted`, `C48_transpose_in_place_refuted`, `C54_pack`, `C54_pack_vector`, `C54_unpack`, `C54_unpack_tran`, `C54_resize`, `C54_unpack_throws`, `C54_roundtrip`, `C54_pack_vec`, `C54_unpack_vec`, `C54_unpack_vec_deduced_refuted`, `C54_int_refuted`, `C54_vecse`, `C54_vecsc`, `C55_construct`, `C55_assign`, `C55_resize_same`, `C55_resize_refuted`, `C55_unpack`, `C55_custom_default_refuted`, `C56_potrf`, `C56_potrf_throws`, `C56_trsm`, `C56_trsm_div_refuted`, `C56_getrf_square`, `C56_getrf_refuted`, `C56_gemm`, `C56_syrk`, `C56_substitution`, `C56_iamax`, `C56_counters`, `C57_matrix`, `C57_matrix_first`, `C57_vector_first`, `C57_size_mismatch`, `C57_exact`, `C57_exact_vector`, `C57_vector`, `C57_vector_each`, `C58_lu_solve`, `C58_lu_solve_throws`, `C59_submatrix`, `C59_submatrix_wraps_refuted`, `C59_nested`, `C59_nested_unchecked_refuted`, `C59_at`, `C59_trans_at`, `C59_offset`, `C59_offset_row_major_refuted`, `C59_row`, `C59_rows_disjoint`, `C59_row_access_refuted`, `C59_row_offset`, `C60_trsm_unique`, `C60_getrf_unique`, `C60_trsm_trmm`, `C61_batch`, `C61_any_order`, `C61_gemm`, `C61_ger`, `C61_syrk`, `C61_trmm_left`, `C61_trmm_right`, `C61_assign`, `C61_assign_panel_to_dense`, `C61_laswp`, `C61_swap`, `C61_trsm`, `C61_potrf_dense`, `C61_potrf_panel`, `C61_ref_gemm`, `C61_gemm_by_windows`, `C61_potrf_padding_refuted`, `C61_ger_row_major`, `C61_ref_axpy`, `C61_ref_ger`, `C61_ref_trmm_left`, `C61_ref_trmm_right`, `C61_ref_trsm_left`, `C61_ref_trsm_right`, `C61_getrf_row_major`, `C61_trmm_right_by_strips`, `C62_construct`, `C62_construct_mod`, `C62_wrap_refuted`, `C63_elements`, `C63_row_parts`, `C63_available`, `C63_explicit_available`, `C63_never_fails_otherwise`, `C63_load`, `C63_masked_load`, `C63_iamax_row`, `C63_swap_rows`, `C63_part_alignment_refuted`, `C63_dynamic_row_refuted`, `C63_const_rows_refuted`, `C63_set`, `C63_assign_refuted`, `C64_accumulate`, `C64_accumulate_sized`, `C64_block`, `C64_block_sized`, `C64_add`, `C64_add_sized`, `C64_add_sized_refuted`, `C65_gemm_nn`, `C65_gemm_tn`, `C65_gemm_nt`, `C65_int_refuted`, `C65_int_inner_refuted`, `C65_syrk_ln`, `C65_trmm_rlnn`, `C65_trmm_rutn`, `C65_product`, `C65_agrees_with_blast`, `C67_register_gemm_order`, `C67_register_transfer_order`, `C67_register_trmm_mode`, `C67_misaligned`, `C67_gemm_order`, `C67_ger_order`, `C67_trmm_order`, `C68_tile_words`, `C68_tile_in_memory`, `C68_tile_ends_refuted`, `C69_operands`, `C69_pointer`, `C69_storage_order`, `C69_submatrix`, `C69_trans`, `C69_arguments`, `C69_views_refuted`, `C69_panel_submatrix`, `C69_const_types`, `C69_static_refuted`, `C70_load`, `C70_masked_load`, `C70_store`, `C70_masked_store`, `C70_unaligned_panel_store`, `C70_store_load`, `C70_masked_panel_refuted`, `C71_gemm`, `C71_gemm_contained`, `C71_ger`, `C71_syrk`, `C71_trmm_right`, `C71_ger_contained`, `C71_syrk_contained`, `C71_trmm_right_contained`, `C71_trsm`, `C71_trsm_contained`, `C71_potrf`, `C71_potrf_contained`, `C71_trmm_left`, `C71_trmm_left_above_refuted`, `C71_trmm_left_any_size`, `C71_getf2`, `C71_getrf`, `C71_getf2_row_major`, `C71_getrf_row_major`, `C72_gemm_row_major`, `C72_gemm_row_major_ops`, `C72_gemm_by_inner_blocks`, `C72_gemm_associative`, `C72_syrk_is_gemm`, `C73_ger`, `C73_syrk`, `C73_trmm_right`, `C73_potrf`, `C73_getf2`, `C73_getrf`, `C73_getf2_row_major`, `C73_getrf_row_major`, `C74_offset`, `C74_move`, `C74_move_unaligned_refuted`, `C74_vector`, `C74_aligned`, `C74_model`, `C75_reference_alone`, `C75_both_visible`, `C75_comparison_is_vacuous`, `C75_agree`, `C75_triangle_refuted`, `C76_every_schedule`, `C76_complete_schedules`, `C76_gemm_tiles`, `C76_parallel_gemm`, `C76_interference_refuted`, `C76_parallel`, `C76_ger_tiles`, `C76_syrk_tiles`, `C76_trmm_right_tiles`, `C76_trmm_left_tiles`, `C76_parallel_ger`, `C76_parallel_syrk`, `C76_parallel_trmm_right`, `C76_parallel_trmm_left`, `C76_in_place_order_refuted`, `C76_parallel_trmm_right_by_strips`, `C78_gemm`, `C78_ger`, `C78_syrk`, `C78_trmm_right`, `C78_potrf_dense`, `C78_potrf_panel`, `C78_potrf_behind_buffer`, `C78_trmm_left`, `C78_iamax`, `C78_swap`, `C78_laswp`, `C78_trsm`, `C78_trsv`, `C78_ger_row_major`, `C78_assign`, `C78_getf2`, `C78_getf2_row_major`, `C78_getrf_row_major`, `C78_getf2_in_container`, `C78_getf2_neon`, `C79_rank1_updates`, `C79_syrk_by_rank1_updates`, `C79_gemm_by_rank1_updates`, `C79_trsm_by_columns`, `C79_trsm_by_trsv`, `C79_laswp_split`, `C79_iamax_split`, `C80_print`, `C80_layout_independent`, `C80_text_identifies`, `C81_gemm_overlap`, `C81_gemm_replaces_left`, `C81_gemm_replaces_right`, `C81_gemm_overlap_refuted`, `C81_ger_overlap`, `C81_syrk_overlap`, `C81_syrk_replaces_factor`, `C81_ger_overlap_refuted`, `C81_syrk_overlap_refuted`, `C81_ref_gemm_overlap`, `C81_ref_axpy_overlap`, `C81_ger_row_major_overlap`, `C81_ref_ger_overlap`, `C81_row_major_overlap_refuted`.

**Standard library axioms** `ClassicalDedekindReals.sig_forall_dec`, `ClassicalDedekindReals.sig_not_dec`, `FunctionalExtensionality.functional_extensionality_dep` -- 37 theorems: `C27_potrf_reals`, `C28_potrf_dense_real`, `C28_potrf_panel_real`, `C35_getf2_multipliers_R`, `C44_positive_definite`, `C44_range`, `C44_then_potrf`, `C44_panel_positive_definite`, `C49_gemm`, `C49_gemm_finite`, `C49_ref_gemm`, `C49_gemm_vs_reference`, `C49_ger`, `C49_syrk`, `C49_trmm_right`, `C49_trmm_left`, `C50_potrf_dense`, `C50_potrf_panel`, `C51_trsm_lower`, `C51_trsm_upper`, `C52_getf2_column_major`, `C52_getf2_row_major`, `C53_getrf`, `C58_cholesky_solve`, `C58_lu_solve_rounded`, `C58_cholesky_solve_rounded`, `C60_potrf_roundtrip`, `C60_potrf_unique`, `C65_potrf`, `C65_syrk_potrf`, `C66_potrf_dense_completes`, `C66_potrf_panel_completes`, `C77_update_factor`, `C77_update_pos_def`, `C77_gram`, `C77_update_solve`, `C77_block_cholesky`.

**Standard library axioms** `ClassicalDedekindReals.sig_forall_dec`, `ClassicalDedekindReals.sig_not_dec`, `Classical_Prop.classic`, `FunctionalExtensionality.functional_extensionality_dep` -- 15 theorems: `C49_ieee`, `C49_double`, `C49_double_range`, `C57_scalar_accepts`, `C57_scalar_rejects`, `C57_tolerance`, `C57_infinity_refuted`, `C57_nan_refuted`, `C65_syrk_alpha_refuted`, `C71_gemm_beta_zero`, `C71_zero_factor_refuted`, `C72_row_major_double`, `C73_trmm_left_refuted`, `C73_storage_order_refuted`, `C73_blocking_refuted`.

