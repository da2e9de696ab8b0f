{
 "C07": [
  null,
  "Unaligned panel moves are refuted by C07_unaligned_panel_move_refuted, as the statement says."
 ],
 "C10": [
  null,
  "Total order only; with NaN the lanes can disagree (C10_nan_refuted)."
 ],
 "C21": [
  null,
  "Includes the negative half: an unaligned/unpadded window is UB (C21_unaligned_window_refuted)."
 ],
 "C23": [
  null,
  "The register-padding overread on NEON and the unchecked row-major output are separate _refuted theorems."
 ],
 "C25": [
  null,
  "The documented reading (only the upper triangle is used, any layout of B) is refuted; the conditions under which it holds are proved."
 ],
 "C26": [
  null,
  "The unit-diagonal flag is refuted in general form (ignored or terminates)."
 ],
 "C29": [
  null,
  "The footprint violations are proved as _refuted theorems."
 ],
 "C37": [
  "proved",
  "The documented partial pivoting is false of the code (C37_getrf_row_major_pivots_refuted); the corrected claim is proved in full by C37_getrf_row_major_no_pivoting."
 ],
 "C40": [
  null,
  "Operators and assign(a, b) on the matrices themselves: generic copy, sizes checked (C40_operator_*, C40_which_assign). Vectorised overloads: equal sizes assumed (checked only in debug builds: C40_sizes_unchecked_refuted) and, for the vectorised column-major case, windows starting at a multiple of the SIMD size (C40_unaligned_window_refuted otherwise)."
 ],
 "C41": [
  "proved",
  "DynamicPanelMatrix::reset() is characterised for every size by C41_panel_reset (the documented effect is refuted for the sizes where it fails)."
 ],
 "C43": [
  "proved",
  "axpy, load(beta,p), gemm(ker,...) of this class do not compile when instantiated (DynReg_Model.v header); potrf/trsm/trmm are commented out in the source. C43_load_overread_refuted: load() overruns short buffers."
 ],
 "C44": [
  null,
  "randomize draws row by row; element formula, frame, exact symmetry, positive definiteness over the reals, range for draws in [0,1), composition with potrf. The random stream is an arbitrary function; allocation is assumed to succeed."
 ],
 "C45": [
  null,
  "Histories over numbered objects; allocator addresses may be reused. AlignedStorage: proved. blasfeo::DynamicMatrix: holds without copies; its implicit copy operations refute it (double free, leak). (Memory.hpp includes <blasfeo/Alloc.hpp>, which does not exist at that path: the header does not compile as it is.)"
 ],
 "C47": [
  null,
  "Proved under interchangeable deallocation functions. By the letter of the C++ standard the destructor is undefined behaviour (aligned new, plain delete[]), and moves, declared noexcept, terminate: see the _refuted theorems."
 ],
 "C48": [
  null,
  "Refuted for windows shifted down/right and for in-place transposition (see _refuted)."
 ]
}