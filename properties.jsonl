{"id": "C01", "title": "Rounding up to a multiple", "statement": "nextMultiple(value, factor) returns the least multiple of factor that is not less than value; in 64-bit unsigned arithmetic this stays true whenever that multiple is representable.", "quantifier": "all 64-bit values and all positive factors", "why_tests_cant": "2^128 argument pairs; padding, spacing and capacity of every container are computed from it, and a single off-by-one pair corrupts memory.", "anchors": ["include/blast/util/NextMultiple.hpp: nextMultiple"]}
{"id": "C02", "title": "Dense element storage is injective and inside the allocation", "statement": "For a dense static or dynamic matrix of any size and either storage order, distinct elements (i,j) live at distinct addresses, all inside the allocated buffer, each row/column starts SIMD-aligned, and a whole SIMD vector starting at any SIMD-aligned row (column) index below the size stays inside the buffer without reaching the next column (row).", "quantifier": "all sizes m,n, SIMD sizes and storage orders, all element indices", "why_tests_cant": "sizes are unbounded and the padding boundary moves with m mod SIMD size; tests sample a few sizes.", "anchors": ["include/blast/math/dense/DynamicMatrix.hpp: DynamicMatrix", "include/blast/math/dense/StaticMatrix.hpp: StaticMatrix"]}
{"id": "C03", "title": "Panel element storage is injective and inside the allocation", "statement": "For a panel matrix of any size and either storage order, distinct elements live at distinct addresses inside the allocated buffer, and each panel column is one SIMD-aligned vector inside the buffer.", "quantifier": "all sizes, SIMD sizes, storage orders and element indices", "why_tests_cant": "the address is computed with division and remainder by the SIMD size; correctness must hold at every panel boundary for every size.", "anchors": ["include/blast/math/panel/DynamicPanelMatrix.hpp: DynamicPanelMatrix::operator()", "include/blast/math/panel/StaticPanelMatrix.hpp: StaticPanelMatrix::elementIndex"]}
{"id": "C04", "title": "Element write is local", "statement": "Writing m(i,j)=v makes a later read of (i,j) return v and leaves every other element of the same matrix unchanged, in dense and panel storage.", "quantifier": "all matrices, values and pairs of indices", "why_tests_cant": "quantifies over all pairs of indices of all sizes.", "anchors": ["include/blast/math/dense/DynamicMatrix.hpp: operator()", "include/blast/math/panel/DynamicPanelMatrix.hpp: operator()", "include/blast/math/panel/StaticPanelMatrix.hpp: operator()"]}
{"id": "C05", "title": "Matrix pointer offsetting addresses the right element", "statement": "For dense pointers, and for panel pointers whose origin is panel aligned, ptr(m,i,j)(k,l) points to element (i+k,j+l) of m; offsets compose; an unaligned panel pointer into a panel-aligned buffer recovers its position inside the panel so offsetting it also reaches (i+k,j+l).", "quantifier": "all matrices, base indices and offsets", "why_tests_cant": "the panel pointer reconstructs its row inside the panel from the numeric address; every combination of base and offset around panel boundaries must be right.", "anchors": ["include/blast/math/dense/DynamicMatrixPointer.hpp: operator()", "include/blast/math/panel/DynamicPanelMatrixPointer.hpp: ptrOffset", "include/blast/math/panel/StaticPanelMatrixPointer.hpp: ptrOffset"]}
{"id": "C06", "title": "Transposed pointers and expressions are views of the same elements", "statement": "trans(p)(j,i) addresses the same element as p(i,j) for dense and panel pointers; trans(M)(i,j) reads M(j,i) with rows and columns exchanged; transposing twice gives back the original.", "quantifier": "all pointers/matrices and indices", "why_tests_cant": "for all layouts, sizes and indices; tests look at few matrices.", "anchors": ["include/blast/math/dense/DynamicMatrixPointer.hpp: trans", "include/blast/math/panel/DynamicPanelMatrixPointer.hpp: trans", "include/blast/math/expressions/MatTransExpr.hpp: MatTransExpr, trans", "include/blast/math/expressions/PMatTransExpr.hpp"]}
{"id": "C07", "title": "hmove/vmove agree with offsetting", "statement": "After p.hmove(d) (vmove(d)) the pointer equals p(0,d) (p(d,0)): always for dense pointers, and for panel pointers when the pointer is panel aligned; a panel pointer that is not panel aligned is moved to the wrong element for some moves across the panel boundary.", "quantifier": "all pointers and non-negative moves", "why_tests_cant": "the in-code NOTE restricts it to aligned pointers; where exactly it breaks cannot be sampled.", "anchors": ["include/blast/math/panel/DynamicPanelMatrixPointer.hpp: hmove, vmove", "include/blast/math/dense/DynamicMatrixPointer.hpp: hmove, vmove"]}
{"id": "C08", "title": "Submatrix and row views alias exactly their window", "statement": "submatrix(M,r,c,m,n)(i,j) is M(r+i,c+j); a submatrix of a submatrix is the submatrix at the summed offsets; writing through a view changes exactly that element of the viewed matrix and no element outside the window; row(M,i,c,n)[j] is M(i,c+j) and subvector composes; resetting a view zeroes exactly its window.", "quantifier": "all matrices, windows inside them, nesting depths and indices", "why_tests_cant": "unbounded windows and nesting.", "anchors": ["include/blast/math/views/Submatrix.hpp: Submatrix, submatrix, reset", "include/blast/math/views/Row.hpp: Row, row, subvector, reset", "include/blast/math/views/submatrix/Panel.hpp: PanelSubmatrix"]}
{"id": "C09", "title": "Masked SIMD load/store touches only selected lanes", "statement": "A masked load returns memory in selected lanes and zero in the others and reads no unselected address; a masked store writes exactly the selected lanes; on AVX2 and on NEON, whatever the mask, and even when unselected addresses are not allocated.", "quantifier": "all vectors, masks, addresses and memories, both architectures", "why_tests_cant": "whether an unselected lane at a page boundary is touched is not observable in ordinary tests; all masks and memories.", "anchors": ["include/blast/math/simd/arch/Avx2.hpp: maskload, maskstore", "include/blast/math/simd/arch/Neon64.hpp: maskload, maskstore", "include/blast/math/simd/SimdVec.hpp: SimdVec"]}
{"id": "C10", "title": "Horizontal SIMD index-of-maximum", "statement": "The SIMD horizontal imax returns a vector whose every lane holds the maximum lane value together with the index of a lane attaining it. The element-wise imax of two vectors with indices, in contrast, cannot be instantiated with integer indices, and with indices of the value type returns the index of the smaller value, and where neither value compares greater (ties, NaN) the second value with its own index (all proved).", "quantifier": "all vectors of totally ordered values and index vectors, AVX2 double/float and NEON double/float shuffles", "why_tests_cant": "2^256 vectors and ties; the shuffle network has to be right for every order of lanes.", "anchors": ["include/blast/math/simd/arch/Avx2.hpp: imax", "include/blast/math/simd/arch/Neon64.hpp: imax", "include/blast/math/dense/Iamax.hpp: imax"]}
{"id": "C11", "title": "Register matrix load/store round trip", "statement": "Loading an M-by-N register matrix from memory and storing it to a destination copies exactly those elements: destination element (i,j) becomes source element (i,j) and nothing else changes; the partial forms do so for the leading m-by-n part.", "quantifier": "all register shapes, SIMD sizes, pointers, m<=M, n<=N", "why_tests_cant": "all partial sizes for all shapes; clobbering outside of the tile is visible only for unlucky neighbours.", "anchors": ["include/blast/math/register_matrix/RegisterMatrix.hpp: load, store"]}
{"id": "C12", "title": "Partial store writes exactly the m-by-n block", "statement": "store(p,m,n) changes memory only at the addresses of elements (i,j), i<m, j<n, and sets them to the register values.", "quantifier": "all shapes, all m<=M and n<=N, all memories", "why_tests_cant": "frame property over all of memory.", "anchors": ["include/blast/math/register_matrix/RegisterMatrix.hpp: store(p,m,n)"]}
{"id": "C13", "title": "Lower-triangular store never writes above the diagonal", "statement": "storeLower(p) and storeLower(p,m,n) write exactly the elements with i>=j (and i<m, j<n for the sized form) and no other memory.", "quantifier": "all shapes with any N, M, all sizes and memories", "why_tests_cant": "the mask depends on j mod SIMD size in every column; a wrong lane would overwrite the user's upper triangle silently.", "anchors": ["include/blast/math/register_matrix/RegisterMatrix.hpp: storeLower"]}
{"id": "C14", "title": "Register rank-1 update", "statement": "ger(alpha,a,b) replaces register element (i,j) by fma(alpha*a(i), b(j), r(i,j)) for all (i,j); the sized form does it for every j<n and changes no column j>=n; axpy, scaling and scaled load are likewise exact element-wise operations.", "quantifier": "all shapes, vectors, scalars, layouts", "why_tests_cant": "exact per-element operation sequence for every shape and layout.", "anchors": ["include/blast/math/register_matrix/RegisterMatrix.hpp: ger, axpy, operator*=, load(beta,p)"]}
{"id": "C15", "title": "Tiling covers the matrix exactly once", "statement": "tile() calls its functors on rectangles which cover every element of the m-by-n matrix exactly once and never exceed it; for either traversal order.", "quantifier": "all m,n (including 0), all SIMD sizes, both traversal orders", "why_tests_cant": "unbounded sizes; the main/bottom/right/corner case split with the special 4*SIMD rule fails only at particular remainders.", "anchors": ["include/blast/math/algorithm/Tile.hpp: tile", "include/blast/math/algorithm/arch/avx2/Tile.hpp: tile, tile_backend", "include/blast/math/algorithm/arch/neon64/Tile.hpp"]}
{"id": "C16", "title": "Tiling calls the right functor with the right kernel", "statement": "The full functor is called exactly for tiles of the kernel's own size and the partial one only for tiles not exceeding the kernel size, smaller in some dimension or at least never larger; kernels have 1, 2 or 3 SIMD registers by 4 columns; each tile's top row is a multiple of the SIMD size and its left column a multiple of 4; the number of rows of the tile rounded up to the SIMD size never exceeds the kernel rows, and the register budget of the architecture is never exceeded by ger().", "quantifier": "all m,n, both architectures, element types and traversal orders", "why_tests_cant": "all sizes.", "anchors": ["include/blast/math/algorithm/arch/avx2/Tile.hpp", "include/blast/math/algorithm/arch/neon64/Tile.hpp", "include/blast/math/simd/RegisterCapacity.hpp"]}
{"id": "C17", "title": "gemm computes D = alpha*A*B + beta*C, exact operation sequence", "statement": "After gemm(alpha,A,B,beta,C,D) with matching sizes every D(i,j) equals fma(beta, C(i,j), alpha * s) where s is accumulated from 0 by s:=fma(A(i,k),B(k,j),s), k=0..K-1, C being its value before the call.", "quantifier": "all sizes M,N,K (including 0), all contents incl. NaN/inf, dense or panel layout for each operand, either storage order of B, all alpha and beta, aligned or not, D disjoint from A and B, C disjoint from or identical to D", "why_tests_cant": "all sizes x layouts x contents; tests compare a few random matrices with a tolerance.", "anchors": ["include/blast/math/algorithm/Gemm.hpp: gemm", "include/blast/math/register_matrix/Gemm.hpp: gemm", "include/blast/math/register_matrix/RegisterMatrix.hpp"]}
{"id": "C18", "title": "gemm is algebraically correct", "statement": "Over any commutative ring with exact operations, gemm yields D(i,j) = alpha*sum_k A(i,k)*B(k,j) + beta*C(i,j); the 4-argument form yields A*B+C.", "quantifier": "all rings, sizes, contents", "why_tests_cant": "for all sizes and contents.", "anchors": ["include/blast/math/algorithm/Gemm.hpp: gemm"]}
{"id": "C19", "title": "gemm result does not depend on layout, storage order, SIMD width, padding or traversal", "statement": "Two gemm calls with element-wise equal inputs but different containers (dense/panel, row/column-major B, different spacing, different SIMD width or traversal order) give bit-identical D.", "quantifier": "all pairs of configurations and all inputs", "why_tests_cant": "relational property over pairs of executions.", "anchors": ["include/blast/math/algorithm/Gemm.hpp: gemm", "include/blast/math/algorithm/Tile.hpp: tile"]}
{"id": "C20", "title": "gemm writes nothing but D", "statement": "gemm changes no memory other than the M*N elements of D: not A, B, C, nor D's padding, nor neighbours of a submatrix D.", "quantifier": "all sizes and memories", "why_tests_cant": "frame condition over all memory.", "anchors": ["include/blast/math/algorithm/Gemm.hpp: gemm", "include/blast/math/register_matrix/RegisterMatrix.hpp: store"]}
{"id": "C21", "title": "gemm memory safety", "statement": "With operands in the library's own padded containers gemm reads and writes only allocated memory, for all sizes; for unpadded exactly-sized storage with rows not a multiple of the SIMD size the partial kernel reads beyond the matrix.", "quantifier": "all sizes and allocations", "why_tests_cant": "an out-of-bounds read of a few elements is invisible to value-based tests.", "anchors": ["include/blast/math/register_matrix/RegisterMatrix.hpp: ger(a,b,m,n), axpy(beta,a,m,n)", "include/blast/math/algorithm/Gemm.hpp"]}
{"id": "C22", "title": "gemm rejects mismatched sizes before writing", "statement": "If rows(B)!=columns(A), or C or D is not rows(A) by columns(B), gemm throws std::invalid_argument and modifies nothing; otherwise it does not throw.", "quantifier": "all size combinations and contents", "why_tests_cant": "all combinations of eight sizes.", "anchors": ["include/blast/math/algorithm/Gemm.hpp: gemm"]}
{"id": "C23", "title": "Rank-1 update ger", "statement": "ger(alpha,x,y,A,B) sets B(i,j) to fma(alpha*x(i), y(j), A(i,j)) for every element, in place or out of place, and writes nothing else.", "quantifier": "all sizes and contents, column-major and row-major", "why_tests_cant": "same tiling/masking boundaries as gemm for all sizes.", "anchors": ["include/blast/math/dense/Ger.hpp: ger"]}
{"id": "C24", "title": "syrkLower updates exactly the lower triangle", "statement": "syrkLower(alpha,A,beta,C,D) sets D(i,j), i>=j, to beta*C(i,j) followed by fma(alpha*A(i,k),A(j,k),.) for k=0..K-1, leaves D(i,j), i<j, and all other memory unchanged, and throws invalid_argument on mismatched sizes.", "quantifier": "all sizes M,K, all contents", "why_tests_cant": "triangular boundaries inside tiles for all sizes.", "anchors": ["include/blast/math/dense/Syrk.hpp: syrkLower"]}
{"id": "C25", "title": "trmm with left upper-triangular matrix", "statement": "trmm(alpha, A, UpLo::Upper, false, B, C) computes C = alpha*A*B with A upper triangular. When both sizes of B are multiples of the tile size only the upper triangle of A is used; for other sizes elements stored below the diagonal contribute too, so they must be zero (the documented 'upper triangular' reading is refuted otherwise). Which ones, for every size: the rows are processed in bands of three tiles, except that exactly four remaining full tiles make two bands of two, with a last band of two or one; element C(i,j) depends on A(i,k) exactly for k >= i where the band of row i and the tile of column j fit into the matrix, and for k >= the first row of the band elsewhere. B must be dense or row-major panel (column-major panel B gives a wrong product). Unsupported variants (lower, unit diagonal) and size mismatches throw before touching memory. C may be B itself: the product of the old B then replaces it.", "quantifier": "all sizes and contents of the ignored triangle", "why_tests_cant": "the unit test fills the ignored triangle with random numbers, but the reference implementation it compares with resolves to the function under test (C75), so reading the ignored triangle goes unnoticed; and a test covers a few sizes", "anchors": ["include/blast/math/algorithm/Trmm.hpp: trmmLeftUpper", "include/blast/math/register_matrix/RegisterMatrix.hpp: trmm"]}
{"id": "C26", "title": "trmm with right lower-triangular matrix", "statement": "trmm(alpha, B, A, UpLo::Lower, false, C) computes C = alpha*B*A with A lower triangular, for all sizes, reading only the lower triangle of A. The unit-diagonal flag is not honoured: it is silently ignored when no tile is full and terminates the process otherwise (both proved). Upper-triangular A and size mismatches throw before touching memory. C may be B itself: the product of the old B then replaces it.", "quantifier": "all sizes and contents of the ignored triangle", "why_tests_cant": "same as above.", "anchors": ["include/blast/math/algorithm/Trmm.hpp: trmmRightLower", "include/blast/math/register_matrix/RegisterMatrix.hpp: trmm"]}
{"id": "C27", "title": "Register Cholesky", "statement": "RegisterMatrix::potrf turns the lower part of a register matrix into its Cholesky factor: for every shape M>=N, element (i,j), i>=j, follows the left-looking recurrence l(j,j)=sqrt(a(j,j)-sum l(j,k)^2), l(i,j)=(a(i,j)-sum_k l(i,k) l(j,k))/l(j,j), independent of what is above the diagonal.", "quantifier": "all shapes and contents", "why_tests_cant": "for all contents above the diagonal and all shapes.", "anchors": ["include/blast/math/register_matrix/RegisterMatrix.hpp: potrf"]}
{"id": "C28", "title": "Cholesky factorisation potrf (dense and panel)", "statement": "potrf(A,L) for M>=N: when the leading N-by-N block of A is symmetric positive definite, the lower trapezoid of L becomes the Cholesky factor (L*L^T = A in exact arithmetic, positive diagonal); in floating point every element is a fixed sequence of fused multiply-adds, one square root and one division. Only the lower trapezoid of A is used; a dense L is not changed above its diagonal (a panel L is, inside the diagonal blocks); L may be A itself. Wrong sizes (M<N, or L not M-by-N) throw before any access.", "quantifier": "all sizes and all positive definite matrices", "why_tests_cant": "for all sizes and contents; block boundaries depend on N and M modulo tile sizes.", "anchors": ["include/blast/math/dense/Potrf.hpp: potrf", "include/blast/math/panel/Potrf.hpp: potrf"]}
{"id": "C29", "title": "potrf memory footprint", "statement": "With the row step equal to the SIMD size, as many kernel columns as SIMD lanes and N a multiple of it, potrf on padded matrices accesses only the buffers of its two operands and changes only L's. Outside these conditions it does not: columns beyond N are read (N%4!=0), rows beyond M are overwritten (two-register tiles; windows of a parent), float kernels access misaligned addresses.", "quantifier": "all sizes and SIMD sizes, element types", "why_tests_cant": "out-of-bounds loads/stores of a few elements at the matrix border are not visible in value tests.", "anchors": ["include/blast/math/dense/Potrf.hpp: potrf_backend", "include/blast/math/panel/Potrf.hpp: potrf_backend"]}
{"id": "C30", "title": "Register triangular solve", "statement": "RegisterMatrix::trsm(Right, Upper, A) replaces B by X with X*A = B (over a field with non-zero diagonal of A), referring only to the upper triangle of A.", "quantifier": "all shapes and contents", "why_tests_cant": "all contents incl. the ignored triangle.", "anchors": ["include/blast/math/register_matrix/RegisterMatrix.hpp: trsm"]}
{"id": "C31", "title": "Dense triangular solves trsm / trsv", "statement": "trsm<UPLO,UNIT>(A,B,X) and trsv produce X with A*X = B for lower/upper, unit/non-unit triangular A over a field, also when X and B are the same object, referring only to the selected triangle (and not to the diagonal when UNIT).", "quantifier": "all sizes and contents, both triangles, unit flag, aliasing", "why_tests_cant": "substitution order with aliasing must be right for every size.", "anchors": ["include/blast/math/dense/Trsm.hpp: trsm", "include/blast/math/dense/Trsv.hpp: trsv"]}
{"id": "C32", "title": "iamax returns the first position of the largest magnitude", "statement": "iamax(n,x) returns the smallest index i such that |x(i)|>=|x(j)| for all j<n, for n>0 and totally ordered magnitudes. In every arithmetic (NaN included) it returns the index that results from going through the elements and taking each one whose magnitude is strictly larger than that of the last one taken: it is in range and does not depend on SIMD width, stride or placement.", "quantifier": "all lengths, strides and contents", "why_tests_cant": "all lengths, positions of ties.", "anchors": ["include/blast/math/dense/Iamax.hpp: iamax"]}
{"id": "C33", "title": "swap exchanges two vectors", "statement": "swap(n,x,y) exchanges x(i) and y(i) for i<n for non-overlapping vectors and touches nothing else.", "quantifier": "all lengths, strides, memories", "why_tests_cant": "frame property.", "anchors": ["include/blast/math/dense/Swap.hpp: swap"]}
{"id": "C34", "title": "laswp applies the row interchanges", "statement": "laswp(A,k0,k1,ipiv) permutes whole rows: the result is A with rows k and ipiv[k] exchanged for k=k0..k1-1 in this order; it is a permutation of the rows and applying the interchanges in reverse order restores A.", "quantifier": "all matrices, ranges and pivot arrays", "why_tests_cant": "all pivot sequences.", "anchors": ["include/blast/math/dense/Laswp.hpp: laswp"]}
{"id": "C35", "title": "getf2 computes a partially pivoted LU factorisation", "statement": "If getf2 returns, then over an ordered field P*L*U equals the original matrix with L unit lower trapezoidal, U upper trapezoidal read from the result and P the product of the recorded interchanges; every pivot index satisfies k<=ipiv[k]<m and all multipliers satisfy |L(i,j)|<=1; it throws invalid_argument exactly when a zero pivot column is met.", "quantifier": "all sizes m,n and contents", "why_tests_cant": "all sizes, contents and pivot orders.", "anchors": ["include/blast/math/dense/Getf2.hpp: getf2"]}
{"id": "C36", "title": "getrf computes a partially pivoted LU factorisation (column-major)", "statement": "Blocked getrf gives a factorisation A = P*L*U with the same meaning as getf2, for all M,N; over a field it gives the same factors and pivots as the unblocked algorithm.", "quantifier": "all sizes and contents", "why_tests_cant": "block boundaries for all M,N and all pivot orders.", "anchors": ["include/blast/math/dense/Getrf.hpp: getrf"]}
{"id": "C37", "title": "getrf, row-major: elimination without interchanges", "statement": "Row-major getrf is documented to use partial pivoting like the column-major one (refuted: it never interchanges rows, so it fails for matrices the column-major one factors). What it does for every matrix: it never throws, sets ipiv[k] = k, touches only the matrix and ipiv, and in exact arithmetic its result is a factorisation A = L*U with non-zero pivots exactly if A has one without interchanges, and then it is that one.", "quantifier": "all matrices of any size, all fields", "why_tests_cant": "a matrix with a zero leading element is factorable only with pivoting; the tests' random matrices never have one.", "anchors": ["include/blast/math/dense/Getrf.hpp: getrf(DenseMatrix<MT,rowMajor>)"]}
{"id": "C38", "title": "Reference kernels", "statement": "reference::gemm, ger, axpy, trmm and trsm compute their mathematical definitions; reference trmm and trsm may be called in place (C identical to B). For trmm with the triangular matrix on the left this is the reference implementation proper, called with pointers or in a program that does not include the optimised trmm (otherwise see C75).", "quantifier": "all sizes, uplo, unit flags, sides, aliasing", "why_tests_cant": "loop direction must suit aliasing in each of the variants for all sizes.", "anchors": ["include/blast/math/reference/Gemm.hpp", "include/blast/math/reference/Ger.hpp", "include/blast/math/reference/Axpy.hpp", "include/blast/math/reference/Trmm.hpp", "include/blast/math/reference/Trsm.hpp"]}
{"id": "C39", "title": "Optimised and reference kernels agree", "statement": "For all inputs over a commutative ring the optimised gemm, ger and trmm (both sides, also in place) give the same result as the reference implementations; the triangular solve and the reference trsm with alpha = 1 perform the same operations, so they agree to the last bit in any arithmetic with 1*b = b.", "quantifier": "all sizes, layouts and contents", "why_tests_cant": "tests compare with tolerance on a few sizes.", "anchors": ["include/blast/math/algorithm/Gemm.hpp", "include/blast/math/reference/Gemm.hpp", "include/blast/math/dense/Ger.hpp", "include/blast/math/reference/Ger.hpp"]}
{"id": "C40", "title": "Dense/panel assignment is an element-wise copy", "statement": "Assigning a dense matrix to a panel matrix or back copies every element, touches no memory besides the destination's elements, and dense->panel->dense is the identity. The assignment operators, and assign(a, b) on the matrices themselves, run the generic element-wise copy: they throw invalid_argument if the sizes differ and accept any windows. The two vectorised overloads are selected exactly if an argument is passed as a reference to the base class PanelMatrix or blaze::DenseMatrix; they do not check sizes in release builds and need windows that start at a multiple of the SIMD size (both proved). The library's own dense matrices cannot be assigned to panel matrices with =.", "quantifier": "all sizes, storage orders, windows, static types of the operands", "why_tests_cant": "SIMD path + masked remainder for all sizes.", "anchors": ["include/blast/math/expressions/PanelMatrix.hpp: assign", "include/blast/math/Matrix.hpp: assign", "include/blast/math/panel/DynamicPanelMatrix.hpp: operator=", "include/blast/math/panel/StaticPanelMatrix.hpp: operator="]}
{"id": "C41", "title": "Container initialisation and reset", "statement": "Constructing a static/dynamic/panel matrix from a scalar or an initializer list, assigning a scalar, and reset() give every element the documented value (short rows are zero-filled, too many rows/columns throw), and write only inside the allocation. The exception is reset() of a dynamic panel matrix: it overruns the buffer if there are more columns (row-major: rows) than padded rows (columns), and otherwise clears exactly the elements of as many panels as there are columns (rows).", "quantifier": "all sizes and initializer shapes", "why_tests_cant": "all sizes; heap overflow of reset() depends on the aspect ratio.", "anchors": ["include/blast/math/dense/StaticMatrix.hpp", "include/blast/math/panel/StaticPanelMatrix.hpp", "include/blast/math/panel/DynamicPanelMatrix.hpp: reset, operator=", "include/blast/math/dense/DynamicMatrix.hpp"]}
{"id": "C42", "title": "Vector pointers address consecutive elements", "statement": "A vector pointer with spacing s offset by i addresses element i; row(p)/column(p) of a matrix pointer walk the matrix row/column; loads and stores through strided pointers (static or dynamic spacing, masked or not) touch exactly the elements of the selected lanes; ptr(v,i) of static vectors likewise.", "quantifier": "all pointers, spacings and offsets", "why_tests_cant": "all layouts.", "anchors": ["include/blast/math/dense/DynamicVectorPointer.hpp", "include/blast/math/dense/StaticVectorPointer.hpp", "include/blast/math/RowColumnVectorPointer.hpp"]}
{"id": "C43", "title": "Dynamic register matrix", "statement": "DynamicRegisterMatrix restricted to its run-time size (m,n) behaves like the leading m-by-n block of a RegisterMatrix for construction, load, ger, scaling, store, storeLower and comparison, and store writes only that block; load and ger read all M rows, so a source buffer shorter than the register matrix is read past its end (proved). axpy, scaled load and gemm of the class cannot be instantiated (no pointer has the two-index load they call).", "quantifier": "all shapes, run-time sizes and contents", "why_tests_cant": "guards of the unrolled loops must be right for every run-time size.", "anchors": ["include/blast/math/register_matrix/DynamicRegisterMatrix.hpp"]}
{"id": "C44", "title": "makePositiveDefinite and randomize produce what they promise", "statement": "randomize stores fresh random values row by row and touches nothing else. makePositiveDefinite fills its (dense, window or panel) argument with a symmetric positive definite matrix for whatever random values are drawn (exactly symmetric for every arithmetic with commutative multiplication), so that potrf succeeds on it; makeSymmetric produces a symmetric matrix; non-square arguments are rejected.", "quantifier": "all sizes and all random draws", "why_tests_cant": "quantifies over every random sequence.", "anchors": ["include/blast/math/algorithm/MakePositiveDefinite.hpp: makePositiveDefinite", "include/blast/math/algorithm/Randomize.hpp: randomize", "include/blast/math/DynamicPanelMatrix.hpp: makeSymmetric, makePositiveDefinite", "include/blast/math/StaticPanelMatrix.hpp: makeSymmetric, makePositiveDefinite"]}
{"id": "C45", "title": "BLASFEO aligned storage owns its buffer exactly once", "statement": "Over any sequence of construct, move-construct, move-assign, swap and destroy operations on AlignedStorage objects, every allocated buffer is owned by exactly one live object and freed exactly once (none leaked, none double-freed).", "quantifier": "all finite histories of operations on any number of objects", "why_tests_cant": "all interleavings of operations, self-move and self-swap included.", "anchors": ["include/blasfeo/Memory.hpp: AlignedStorage", "include/blasfeo/DynamicMatrix.hpp: DynamicMatrix"]}
{"id": "C46", "title": "Matrix comparison", "statement": "operator== on a register matrix and a matrix is true exactly when sizes agree and all elements are equal; on two matrices it throws invalid_argument for different sizes and otherwise is true exactly when all elements are equal.", "quantifier": "all sizes and contents", "why_tests_cant": "all contents.", "anchors": ["include/blast/math/Matrix.hpp: operator==", "include/blast/math/register_matrix/RegisterMatrix.hpp: operator=="]}
{"id": "C47", "title": "Lifetime of the dynamically allocated matrices", "statement": "Over any sequence of constructions, attempted copies and destructions of DynamicMatrix / DynamicPanelMatrix objects every buffer has exactly one owner, is released exactly once and none is leaked; copying is refused with std::logic_error and changes nothing.", "quantifier": "all finite histories of operations on any number of objects and all addresses the allocator may return", "why_tests_cant": "all histories, including reuse of addresses.", "anchors": ["include/blast/math/dense/DynamicMatrix.hpp: DynamicMatrix", "include/blast/math/panel/DynamicPanelMatrix.hpp: DynamicPanelMatrix"]}
{"id": "C48", "title": "Element-wise matrix assignment", "statement": "assign(a, b) and Submatrix::operator= copy every element of b, as it was before the call, to the same position of a and modify nothing else, for any storage orders, windows and transposes, provided no source element is overwritten before it is read (in particular separate matrices, self-assignment, and windows shifted up or left within one matrix); matrices of different sizes are rejected with std::invalid_argument before anything is written.", "quantifier": "all sizes, layouts, windows, contents and overlaps", "why_tests_cant": "all overlap patterns.", "anchors": ["include/blast/math/Matrix.hpp: assign", "include/blast/math/views/Submatrix.hpp: operator="]}
{"id": "C49", "title": "Accuracy of products in floating-point arithmetic", "statement": "With IEEE arithmetic, every finite element computed by gemm, reference gemm, ger, syrkLower and trmm differs from the exact alpha*sum(a*b)+beta*c by at most about (K+const)*u times the sum of the magnitudes of the terms, plus an underflow term; it comes from finite operands; and with finite operands whose products stay within range no element overflows. Optimised and reference gemm therefore agree up to the sum of the bounds.", "quantifier": "all sizes, layouts, scalars and floating-point contents, every IEEE precision and exponent range", "why_tests_cant": "rounding errors depend on the values; tests compare with an ad hoc tolerance on a few random matrices.", "anchors": ["include/blast/math/algorithm/Gemm.hpp: gemm", "include/blast/math/reference/Gemm.hpp: gemm", "include/blast/math/dense/Ger.hpp: ger", "include/blast/math/dense/Syrk.hpp: syrkLower", "include/blast/math/algorithm/Trmm.hpp: trmm"]}
{"id": "C50", "title": "Backward stability of potrf", "statement": "If the lower triangle returned by potrf is finite then L*L^T equals A element by element up to about (j+4)*u times (|L|*|L|^T), plus an underflow term.", "quantifier": "all sizes, windows, tile sizes and floating-point contents", "why_tests_cant": "must hold for all matrices, including ill-conditioned ones.", "anchors": ["include/blast/math/dense/Potrf.hpp: potrf", "include/blast/math/panel/Potrf.hpp: potrf", "include/blast/math/register_matrix/RegisterMatrix.hpp: potrf"]}
{"id": "C51", "title": "Backward stability of triangular solves", "statement": "Each finite element of the solution returned by trsm satisfies its equation up to about (n+2)*u times the sum of the magnitudes of the terms of the equation, plus an underflow term.", "quantifier": "all sizes, triangles, unit flags and floating-point contents", "why_tests_cant": "must hold for all matrices, including ill-conditioned ones.", "anchors": ["include/blast/math/dense/Trsm.hpp: trsm"]}
{"id": "C52", "title": "Backward stability of getf2", "statement": "If all elements returned by getf2 are finite then the multipliers are at most one in magnitude and the interchanged matrix equals L*U element by element up to about min(M,N)*u times (|L|*|U|), plus an underflow term.", "quantifier": "all sizes, both storage orders and all floating-point contents", "why_tests_cant": "must hold for all matrices, including ill-conditioned ones and ties in the pivot search.", "anchors": ["include/blast/math/dense/Getf2.hpp: getf2", "include/blast/math/dense/Iamax.hpp: iamax"]}
{"id": "C53", "title": "Backward stability of the blocked getrf", "statement": "In any scalar arithmetic every element of getrf's result is a fixed sequence of operations (block products, fused updates, one division below the diagonal). In IEEE arithmetic, if all returned elements are finite, the multipliers are at most one in magnitude and the interchanged matrix equals L*U element by element up to about (r/NB + 2 NB + 2)*u times (|L|*|U|), r = min(M,N), NB the block size.", "quantifier": "all sizes (also not multiples of the block size, tall and wide), all SIMD widths and all floating-point contents", "why_tests_cant": "must hold for all matrices, including ill-conditioned ones, and all numbers of blocks.", "anchors": ["include/blast/math/dense/Getrf.hpp: getrf", "include/blast/math/dense/Getf2.hpp: getf2", "include/blast/math/dense/Trsm.hpp: trsmLeftLower", "include/blast/math/algorithm/Gemm.hpp: gemm"]}
{"id": "C54", "title": "Conversion between Blaze and BLASFEO matrices", "statement": "pack copies every element (i,j) of a row- or column-major Blaze matrix to element (bi+i,bj+j) of the BLASFEO matrix, unpack the reverse and unpack_tran the transpose, resizing the destination; a round trip gives the same elements; nothing outside the window is written; a destination that cannot be resized raises an exception. Vectors become rows or columns. Sizes beyond the range of int are silently not copied (refuted part), and the vector version of unpack cannot be called with deduced arguments (refuted).", "quantifier": "all sizes, offsets, spacings, storage orders and contents", "why_tests_cant": "must hold for every combination of storage order, offset, spacing and size, including sizes no test can allocate.", "anchors": ["include/blasfeo/BlazeInterop.hpp: pack, unpack, unpack_tran", "include/blasfeo/blasfeo_api/Mat.hpp: pack_mat, pack_tran_mat, unpack_mat, unpack_tran_mat", "include/blasfeo/blasfeo_api/Vec.hpp: pack_vec, unpack_vec, vecse, vecsc"]}
{"id": "C55", "title": "blasfeo::DynamicMatrix copies from and to Blaze matrices", "statement": "Constructing a blasfeo::DynamicMatrix from a column-major Blaze matrix and assigning one of the same size copy all elements and touch nothing else; unpack copies the whole matrix back. Resizing, and assignment of a matrix of another size, are documented to re-allocate but always throw (refuted part); the default constructor of CustomMatrix does not compile (refuted).", "quantifier": "all sizes, spacings and contents", "why_tests_cant": "must hold for all sizes and element values.", "anchors": ["include/blasfeo/DynamicMatrix.hpp: DynamicMatrix, resize, operator=", "include/blasfeo/Matrix.hpp: unpack", "include/blasfeo/CustomMatrix.hpp: CustomMatrix"]}
{"id": "C56", "title": "Operation counts of the benchmarks", "statement": "complexityPotrf, complexityTrsm, complexityGemm, complexitySyrk and complexity(trsmTag/iamaxTag) return the documented sums as long as they are representable in size_t; complexityPotrf rejects m < n; the flops counter is the number of additions plus multiplications. complexityGetrf is right only for square matrices: for a matrix more than three times as long as wide the subtraction wraps around and the reported count exceeds 10^18 (refuted part); likewise the divisions of complexityTrsm for n > 2m+1 (refuted part).", "quantifier": "all sizes m, n, k in 64-bit arithmetic", "why_tests_cant": "identities between closed forms and sums for all sizes, and wrap-around.", "anchors": ["include/bench/Complexity.hpp: complexityPotrf, complexityGetrf, complexityTrsm, setCounters", "include/bench/Gemm.hpp: complexityGemm", "include/bench/Trsm.hpp: complexity", "include/bench/Iamax.hpp: complexity", "bench/common/Syrk.cpp: complexitySyrk"]}
{"id": "C57", "title": "The approximate comparison of the test suite", "statement": "approxEqual on matrices succeeds exactly if the sizes agree and no element has a NaN on one side only or a difference above abs_tol + rel_tol*|expected|, and otherwise names the first such element; in IEEE arithmetic an accepted finite element is within the tolerance up to one rounding and a rejected one is not. exactEqual compares sizes and all elements. An infinite expected value accepts every number, and the scalar and vector versions accept NaN (refuted parts).", "quantifier": "all matrices, vectors, tolerances and floating-point formats", "why_tests_cant": "the test suite itself rests on it; must hold for all contents including NaN and infinities.", "anchors": ["include/test/Testing.hpp: approxEqual, exactEqual", "include/test/Tolerance.hpp: absTol, relTol"]}
{"id": "C58", "title": "Factoring and substituting solves the linear system", "statement": "For a square column-major matrix A and a matrix B with as many rows in other memory, the sequence getrf(A, ipiv); laswp(B, 0, n, ipiv); trsm<Lower, unit>(A, B, B); trsm<Upper>(A, B, B) returns in B the X with A0 * X = B0 for the original contents A0, B0 (exact arithmetic) and changes nothing but A, B and ipiv, unless the columns of A0 are linearly dependent, in which case it throws invalid_argument. In rounded arithmetic, if the factors and X are finite, the residual P*B0 - P*A0*X is bounded element by element by about (4n + n/NB + 2NB) unit roundoffs times |L||U||X| plus an underflow term. Likewise potrf(A, L); trsm<Lower>(L, B, B); trsm<Upper>(trans(L), B, B) solves A0 * X = B0 for every symmetric positive definite A0, reading only its lower triangle.", "quantifier": "all matrix sizes, numbers of right-hand sides, SIMD and block sizes, element values, scalar arithmetics and memory placements", "why_tests_cant": "Relates four library calls through the pivot indices and the packed factors for every matrix; a unit test solves a few systems within a tolerance.", "anchors": ["include/blast/math/dense/Getrf.hpp: getrf", "include/blast/math/dense/Laswp.hpp: laswp", "include/blast/math/dense/Trsm.hpp: trsm", "include/blast/math/dense/Potrf.hpp: potrf"]}
{"id": "C59", "title": "Checked views of panel matrices", "statement": "submatrix(A, i, j, m, n) of a panel matrix returns a view of exactly the window (i, j, m, n), throws invalid_argument iff the window is not inside A and logic_error iff it does not begin at a panel boundary, provided i + m and j + n do not overflow std::size_t (refuted otherwise: a window far outside of A is accepted). A submatrix of a submatrix addresses the same elements as the composition of the windows; its bounds are checked against A only, so that a window outside of the outer view is accepted (refuted). at(i, j) of a submatrix or transposition expression throws out_of_range iff (i, j) is outside. row(A, i) throws invalid_argument iff i is not a row of A, and its [j] is A(i, j); its at() and load() cannot be used (refuted). offset() reports the distance of the first element from its panel boundary for column-major views; for row-major views it reports 1 instead of 0 whenever the first row is a multiple of the panel size.", "quantifier": "all panel matrices, storage orders, panel sizes, window positions and sizes (64-bit words), element positions", "why_tests_cant": "Tests try a few windows; wrap-around needs arguments near 2^64 and the containment of nested windows ranges over all pairs of windows.", "anchors": ["include/blast/math/views/submatrix/Panel.hpp: PanelSubmatrix, submatrix", "include/blast/math/views/row/Panel.hpp: PanelMatrixRow", "include/blast/math/PanelMatrix.hpp: submatrix, row", "include/blast/math/expressions/PMatTransExpr.hpp: PMatTransExpr::at"]}
{"id": "C60", "title": "Factors and solutions are unique, and multiplication undoes solving", "statement": "In exact arithmetic trsm returns the only solution of the triangular system; the factors left by getrf are the only unit-lower and upper factors of the interchanged matrix for the returned pivots; potrf (dense and panel) returns the only Cholesky factor with positive diagonal, so potrf of L0*L0^T returns L0; trmm followed by trsm with the same triangular matrix returns alpha*B and changes nothing else.", "quantifier": "all sizes, storage layouts, SIMD sizes, memory contents meeting the operand conditions, over every field (trsm, getrf, trmm) and over the reals (potrf)", "why_tests_cant": "Uniqueness and inversion are statements about all matrices of all sizes; a test can only compare single factorizations with a tolerance.", "anchors": ["include/blast/math/dense/Trsm.hpp: trsm", "include/blast/math/dense/Getrf.hpp: getrf", "include/blast/math/dense/Potrf.hpp: potrf", "include/blast/math/panel/Potrf.hpp: potrf", "include/blast/math/algorithm/Trmm.hpp: trmm"]}
{"id": "C61", "title": "Footprints: calls depend only on their operands, and independent calls can be made in any order", "statement": "gemm, ger, syrk, trmm, trsm, potrf, laswp, swap, matrix assignment, the row-major getrf and the reference gemm, axpy, ger, trmm and trsm change only their result (potrf: also its padding rows) and the result depends only on the elements of their operands (of a triangular operand only the stored triangle, without the diagonal if that is a unit diagonal; row-major getrf: the pivots depend on nothing). Consequently a batch of calls none of which writes what another reads or writes succeeds in every order with the same results, each equal to that of the call made alone; and computing D = beta*C + alpha*A*B window by window, with any sizes and order of the windows, leaves exactly the same memory as one call of gemm; so does multiplying by a triangular matrix from the right strip by strip (sets of rows), also in place.", "quantifier": "all sizes, layouts, SIMD sizes, scalar arithmetics, memory contents, batches (lists of calls) and permutations of them, and all partitions of D into windows, and into strips of rows", "why_tests_cant": "Independence of everything outside the operands and of the order of calls ranges over all memories, batches and permutations.", "anchors": ["include/blast/math/algorithm/Gemm.hpp: gemm", "include/blast/math/dense/Ger.hpp: ger", "include/blast/math/dense/Syrk.hpp: syrkLower", "include/blast/math/algorithm/Trmm.hpp: trmm", "include/blast/math/dense/Potrf.hpp: potrf", "include/blast/math/panel/Potrf.hpp: potrf", "include/blast/math/dense/Trsm.hpp: trsm", "include/blast/math/dense/Laswp.hpp: laswp", "include/blast/math/views/Submatrix.hpp: submatrix", "include/blast/math/reference/Trmm.hpp: trmm", "include/blast/math/reference/Trsm.hpp: trsm", "include/blast/math/reference/Ger.hpp: ger", "include/blast/math/reference/Axpy.hpp: axpy"]}
{"id": "C62", "title": "Dynamic containers allocate what their size needs, also in 64-bit arithmetic", "statement": "Constructing a dynamic dense or panel matrix of any size whose storage fits the address space allocates exactly capacity() elements, and element access in size_t arithmetic reaches a different element inside that array for every index pair. (When the size computation wraps around modulo 2^64 the constructor does not throw and provides too few elements; this is proved as a refutation.)", "quantifier": "all sizes below 2^64, element sizes, SIMD widths, storage orders, both container kinds and all index pairs", "why_tests_cant": "the wrap-around cases need sizes that cannot be enumerated (and most cannot be allocated)", "anchors": ["include/blast/math/dense/DynamicMatrix.hpp: DynamicMatrix(size_t, size_t), elementIndex", "include/blast/math/panel/DynamicPanelMatrix.hpp: DynamicPanelMatrix(size_t, size_t), elementIndex, capacity", "include/blast/util/NextMultiple.hpp: nextMultiple"]}
{"id": "C63", "title": "Rows of matrices as vector arguments", "statement": "A pointer obtained from a row, row part or subvector of a row addresses exactly the elements of that row in order; loads from it return them; iamax of a row finds the first largest element, and exchanging two rows through their pointers exchanges exactly them. Row parts of row-major matrices that do not start at a multiple of the vector length are claimed aligned although they are not, and rows of dynamic matrices cannot be passed at all (both proved as refutations). Writing an element of a row changes that element only. Rows of const matrices, and parts of a row object that has a name, can only be read element by element: they are rejected as vector arguments and for writing; a row cannot be assigned as a whole.", "quantifier": "all matrices and windows, storage orders, sizes, rows, row parts, offsets, masks, element values and SIMD widths", "why_tests_cant": "the claim ranges over every window, offset and size; the misaligned case only fails for some start columns and on some processors", "anchors": ["include/blast/math/views/Row.hpp: Row, row, subvector, IsAligned<Row>, IsStaticallySpaced<Row>, Spacing<Row>", "include/blast/math/Vector.hpp: ptr", "include/blast/math/dense/StaticVectorPointer.hpp: ptr", "include/blast/math/dense/DynamicVectorPointer.hpp: ptr"]}
{"id": "C64", "title": "Matrix products of one register block", "statement": "The register-block products accumulate alpha*A*B into a register matrix, or store alpha*A*B + beta*C or A*B + C, with exactly one fused multiply-add per inner index in increasing order; the sized forms change only the leading block and read only what the size allows. (The sized form without factors reads the whole register block of C whatever the size; this is proved as a refutation.)", "quantifier": "all register shapes, inner sizes, block sizes, operand layouts and alignments, element values and SIMD widths", "why_tests_cant": "the exact operation sequence and the memory touched must hold for every size, layout and value", "anchors": ["include/blast/math/register_matrix/Gemm.hpp: gemm (register forms)", "include/blast/math/register_matrix/RegisterMatrix.hpp: ger, axpy, scale, load, store"]}
{"id": "C65", "title": "Products and factorisations through the BLASFEO wrappers", "statement": "Given that the BLASFEO library does what its interface documents, the wrappers gemm_nn/gemm_tn/gemm_nt set D to beta*C + alpha*op(A)*op(B) on the given windows, syrk_ln the lower triangle of D to that of beta*C + alpha*A*B^T, trmm_rlnn and trmm_rutn D to alpha*B*A (A lower) and alpha*B*A^T (A upper), potrf and syrk_potrf the lower triangle of D to the Cholesky factor of C or C + A*B^T; nothing else is written, C may be D, and the unused triangles are not read. Copying Blaze matrices to BLASFEO, multiplying and copying back gives beta*C + alpha*A*B, in exact arithmetic the same as blast's gemm. Known limits: sizes of 2^31 and more convert to negative ints (nothing is computed), and syrk_ln of float matrices rounds its double factors to single precision.", "quantifier": "all sizes and offsets below 2^31, all windows of all matrices, all factors, all contents", "why_tests_cant": "the tests use offsets zero, one size per routine, factors one and double precision", "anchors": ["include/blasfeo/blasfeo_api/Gemm.hpp: gemm_nn, gemm_tn, gemm_nt", "include/blasfeo/blasfeo_api/Syrk.hpp: syrk_ln", "include/blasfeo/blasfeo_api/Trmm.hpp: trmm_rlnn, trmm_rutn", "include/blasfeo/blasfeo_api/Potrf.hpp: potrf", "include/blasfeo/blasfeo_api/SyrkPotrf.hpp: syrk_potrf"]}
{"id": "C66", "title": "potrf completes on matrices that are positive definite by a margin", "statement": "In IEEE arithmetic, if the leading N x N part of the matrix given to potrf is symmetric positive definite with relative margin lambda >= 8 N ((1-u)^-(N+5) - 1) (about 8 N^2 u), and its diagonal is away from the underflow and overflow thresholds, then every element of the factor of that part is finite, the diagonal is positive, and L*L^T equals A up to 4 ((1-u)^-(N+5) - 1) sqrt(A_ii A_jj): no square root of a negative number, division by zero or overflow occurs.", "quantifier": "all sizes, SIMD widths, tile sizes, dense and panel storage and all such floating-point contents", "why_tests_cant": "random test matrices are far from the margin; the breakdown of Cholesky depends on the accumulated rounding of every element.", "anchors": ["include/blast/math/dense/Potrf.hpp: potrf", "include/blast/math/panel/Potrf.hpp: potrf", "include/blast/math/register_matrix/RegisterMatrix.hpp: potrf"]}
{"id": "C67", "title": "Unsupported operand kinds are rejected, never miscomputed", "statement": "A call whose operands are not supported gives no result: gemm, ger and trmm with a row-major operand where a column-major one is required do not compile; the register trmm with a unit diagonal or the other triangle ends the program; an access through a pointer whose type promises alignment at an address that is not aligned is undefined, not a load of shifted data.", "quantifier": "all sizes, storage orders, transposed operands, contents and SIMD widths", "why_tests_cant": "a call that does not compile or ends the program cannot be part of a unit test, and the accepted set is the complement of infinitely many rejected argument combinations.", "anchors": ["include/blast/math/register_matrix/Gemm.hpp: gemm", "include/blast/math/register_matrix/RegisterMatrix.hpp: trmm", "include/blast/math/algorithm/Gemm.hpp: gemm", "include/blast/math/algorithm/Trmm.hpp: trmm", "include/blast/math/dense/Ger.hpp: ger", "include/blast/math/dense/DynamicMatrixPointer.hpp: load, store"]}
{"id": "C68", "title": "Tiling in 64-bit machine arithmetic", "statement": "The loops of tile(), computed with wrapping 64-bit size_t arithmetic, end and make exactly the calls of the ideal loops whenever the number of rows and columns stays a few tiles below 2^64, in particular for every non-empty matrix that fits into memory.  For an empty matrix with 2^64-1 rows or columns, which can be constructed and needs no memory, they never end.", "quantifier": "all numbers of rows and columns below 2^64, SIMD widths, kernel widths, both traversals", "why_tests_cant": "wrap-around happens only for sizes that cannot be enumerated, and non-termination cannot be observed by a test.", "anchors": ["include/blast/math/algorithm/arch/avx2/Tile.hpp: tile, tile_backend", "include/blast/math/algorithm/arch/neon64/Tile.hpp: tile", "include/blast/math/dense/DynamicMatrix.hpp: DynamicMatrix"]}
{"id": "C69", "title": "View types tell the truth, and which views can be operands", "statement": "For any nesting of submatrix() and trans() over a matrix, ptr() exists exactly when the view is built from submatrices of non-const column- or row-major objects and transposes; then the pointer addresses exactly the elements of the view, in the storage order, spacing and padding that the view's type announces at compile time (a spacing announced as a template constant is the run-time spacing; only whole matrices are called padded). submatrix() of a submatrix composes and views the same matrix; trans() of trans() is the operand. Views that cannot be operands: submatrices of const matrices, of temporary submatrices, of panel matrices, and panel submatrices. 'Static' does not mean that the size is fixed by the type.", "quantifier": "every nesting of views over every static or dynamic, column-, row- or panel-major matrix of any size, every offset and alignment flag, every SIMD size", "why_tests_cant": "The family of view types is infinite (views nest), and each test instantiates one type and one size; a wrong trait in a specialisation shows only for the nesting that uses it.", "anchors": ["include/blast/math/views/Submatrix.hpp: Submatrix, submatrix", "include/blast/math/expressions/MatTransExpr.hpp: MatTransExpr, trans", "include/blast/math/typetraits/*.hpp", "include/blast/math/dense/*MatrixPointer.hpp: ptr", "include/blast/math/panel/*PanelMatrixPointer.hpp: ptr", "include/blast/math/Matrix.hpp: ptr"]}
{"id": "C70", "title": "SIMD access through matrix pointers", "statement": "For every well-formed matrix pointer (column-, row- or panel-major, aligned or not), load() yields exactly the next SIMD-size elements of the column (row-major: row) it points at, also across a panel boundary; load(mask), store() and store(mask) at a panel boundary read or write exactly the (selected) elements and nothing else, and store followed by load is the identity. Storing through an unaligned panel pointer does not compile; a masked load inside a panel runs past the end of the panel (refuted claim).", "quantifier": "every pointer kind, order, alignment, spacing and base, every mask, every memory, every SIMD size", "why_tests_cant": "Correct lanes for all bases, spacings and masks, and the absence of any other access, are universally quantified; tests sample aligned matrices.", "anchors": ["include/blast/math/dense/DynamicMatrixPointer.hpp: load, store", "include/blast/math/dense/StaticMatrixPointer.hpp", "include/blast/math/panel/DynamicPanelMatrixPointer.hpp: load, store", "include/blast/math/panel/StaticPanelMatrixPointer.hpp"]}
{"id": "C71", "title": "Where NaN goes, and that a zero factor does not stop it", "statement": "In gemm a NaN in row i of A, column j of B, element (i,j) of C, alpha or beta makes D(i,j) NaN, and D(i,j) depends on nothing else (in particular never on padding or other rows and columns). The same for ger, syrk and trmm on the right. With beta = 0 and no infinity or NaN in C the stored value is alpha*A*B up to the sign of zero; but the BLAS convention that C is not read when beta = 0 (A, B when alpha = 0) is refuted for all operands: NaN*0 is NaN. In trsm a NaN in row k of column j spoils exactly the rows of column j from k on in substitution order. In potrf a NaN in A(i,j) spoils exactly row i of L from column j on and the columns of L from i on, without an error; everything else is unchanged. In trmm on the left a NaN in row k of B also spoils rows below k in the same SIMD block although the matrix is upper triangular (refuted), and in bands or tiles that do not fit into the matrix (C25) all rows of A and B from the first row of the band on matter. If getf2 or getrf returns, every element of the factors computed from a NaN (in the interchanged matrix, before it in its row or column of the factors, or the pivot of its column) is NaN, so that every NaN of the matrix is still visible in its column; it may throw instead, because a NaN is never preferred to a zero pivot.", "quantifier": "all sizes, layouts, contents and positions of the NaN; any arithmetic with an absorbing value, in particular IEEE float and double", "why_tests_cant": "tests use finite random data; NaN propagation depends on which zero products are really executed.", "anchors": ["include/blast/math/algorithm/Gemm.hpp: gemm", "include/blast/math/dense/Ger.hpp", "include/blast/math/dense/Syrk.hpp", "include/blast/math/algorithm/Trmm.hpp", "include/blast/math/dense/Trsm.hpp", "include/blast/math/dense/Potrf.hpp", "include/blast/math/panel/Potrf.hpp"]}
{"id": "C72", "title": "Composed calls obey the laws of matrix algebra", "statement": "gemm(alpha, trans(B), trans(A), beta, trans(C), trans(D)) is the product alpha*A*B + beta*C for row-major D, and in float and double equals the column-major product to the last bit. Splitting the inner dimension into any number of blocks of any widths (first block with beta and C, the others accumulating into D) gives the same D and changes nothing else. Multiplying three matrices in either association through temporaries gives the same result. syrk gives the lower triangle of gemm with the transpose and leaves the upper triangle alone.", "quantifier": "all sizes, block partitions, storage, contents; commutative rings (to the last bit for the row-major product)", "why_tests_cant": "equality of two different call sequences for all inputs.", "anchors": ["include/blast/math/algorithm/Gemm.hpp: gemm", "include/blast/math/dense/Syrk.hpp: syrkLower", "include/blast/math/expressions/MatTransExpr.hpp: trans", "include/blast/math/views/Submatrix.hpp: submatrix"]}
{"id": "C73", "title": "Results do not depend on SIMD width, layout and placement, to the last bit", "statement": "Two calls of ger, syrk, right-hand trmm or potrf with equal input elements give bit-identical output elements, even on builds with different SIMD widths (AVX2: four doubles per register; NEON: two) and with operands in different container classes, storage orders, windows, alignments and addresses, whatever the scalar arithmetic does. For potrf this holds for builds with the same tile size, for the dense and for the panel algorithm, and the two algorithms agree with each other whenever 1*x is x. Two calls of getf2 (for builds with the same block size: of getrf) with equal elements both throw invalid_argument or both return bit-identical factors and equal pivots, whatever ipiv held before; likewise the row-major forms. It does not hold for left-hand trmm: with NaN or infinity in B, which elements of the result are NaN depends on the SIMD width. (For gemm see C19.) Nor does it hold across the storage orders of an LU factorisation or between getf2 and getrf: fused and rounded products differ in the last bit, so on a singular matrix one may throw invalid_argument and the other return a factorisation (refuted for 2-by-2 and 5-by-5 double matrices).", "quantifier": "all sizes, SIMD widths, registers per tile, containers, windows, alignments, allocations, scalar operations and memory contents", "why_tests_cant": "a test suite runs on one machine with one SIMD width and a few layouts; equality across all pairs of builds and layouts for all contents is a two-run (relational) property", "anchors": ["include/blast/math/dense/Ger.hpp: ger", "include/blast/math/dense/Syrk.hpp: syrkLower", "include/blast/math/algorithm/Trmm.hpp: trmm", "include/blast/math/dense/Potrf.hpp: potrf", "include/blast/math/panel/Potrf.hpp: potrf", "include/blast/math/register_matrix/RegisterMatrix.hpp: trmm"]}
{"id": "C74", "title": "Pointer offsets may be negative", "statement": "Matrix and vector pointers accept signed offsets: from element (r, c) of a matrix, p(r'-r, c'-c) leads to element (r', c') also when an offset is negative, although the offsets are converted to unsigned 64-bit words on the way, for dense and panel matrices, both storage orders, pointers with static and dynamic spacing, aligned or not, as long as an aligned panel pointer is at the beginning of a panel. hmove and vmove do the same with their increments, for a panel matrix only from the beginning of a panel: from the middle of a panel moving one row up arrives at a different column. Vector pointers accept negative offsets with any spacing. The alignment test on byte addresses is the test that the element position is a multiple of the SIMD width.", "quantifier": "all matrices that fit into the 64-bit address space, all pairs of elements, element sizes and SIMD widths that are powers of two", "why_tests_cant": "tests move pointers forward by a few elements; correctness of wrapping unsigned arithmetic for negative offsets concerns every address and offset", "anchors": ["include/blast/math/dense/DynamicMatrixPointer.hpp: ptrOffset, hmove, vmove", "include/blast/math/dense/StaticMatrixPointer.hpp: ptrOffset", "include/blast/math/panel/DynamicPanelMatrixPointer.hpp: ptrOffset, hmove, vmove, isAligned", "include/blast/math/panel/StaticPanelMatrixPointer.hpp: ptrOffset", "include/blast/math/dense/DynamicVectorPointer.hpp: ptrOffset", "include/blast/math/dense/StaticVectorPointer.hpp: ptrOffset", "include/blast/math/simd/IsSimdAligned.hpp: isSimdAligned"]}
{"id": "C75", "title": "What the left-hand reference::trmm computes depends on the headers included", "statement": "reference::trmm(alpha, A, uplo, diag, B, C) is the reference implementation only if the optimised blast::trmm is not visible in the program, or A or C is row-major. If it is visible and both are column-major, the call has exactly the outcome of blast::trmm with the same arguments: lower-triangular and unit matrices are rejected with logic_error and elements below the diagonal of A contribute to the product. Therefore comparing the results of the two functions, as the unit test does, can never find a difference, whatever A contains. Both agree (over a commutative ring) when the sizes are multiples of the tile size or A has zeros below the diagonal.", "quantifier": "all sizes, layouts, storage orders, uplo and unit flags, memory contents, scalar operations", "why_tests_cant": "the test oracle is the function under test itself; no test input can reveal this", "anchors": ["include/blast/math/reference/Trmm.hpp: trmm(Real, MTA const&, UpLo, bool, MTB const&, MTC&)", "include/blast/math/algorithm/Trmm.hpp: trmm(size_t, size_t, ST, MPA, UpLo, bool, MPB, MPC)", "test/blast/math/dense/TrmmTest.cpp: testLeftUpper"]}
{"id": "C76", "title": "Threads: every schedule of non-interfering calls computes what the threads compute alone", "statement": "If no call of one thread writes what a call of another thread reads or writes, then under every schedule, stopped at any point, no call fails and every thread has computed exactly what its calls so far would have computed alone on the initial memory; all schedules that let the threads finish leave the same results. In particular gemm, column-major ger, syrk and, if the result does not replace the operand, trmm from either side may be executed by any number of threads: however the tiles are dealt out to the threads, in whatever order and with whatever interleaving, the final memory is the one a single call leaves. In place, trmm depends on the order of its tiles (refuted), but trmm from the right may be computed by threads strip by strip (sets of rows), also in place. Without this condition the result depends on the schedule (refuted).", "quantifier": "all numbers of threads, sequences of calls (with dependences within a thread), schedules and stopping points; for gemm, ger, syrk and trmm all sizes, layouts, SIMD sizes, scalar arithmetics and all distributions of the tiles. A call (a tile) is one step.", "why_tests_cant": "The number of schedules grows exponentially and the operating system picks them.", "anchors": ["include/blast/math/algorithm/Gemm.hpp: gemm", "include/blast/math/algorithm/arch/avx2/Tile.hpp: tile", "include/blast/math/Matrix.hpp: assign", "include/blast/math/dense/Ger.hpp: ger", "include/blast/math/dense/Syrk.hpp: syrkLower", "include/blast/math/algorithm/Trmm.hpp: trmm"]}
{"id": "C77", "title": "Rank-k update and Cholesky factorisation; Cholesky by blocks", "statement": "syrkLower(alpha, A, beta, C, D) followed by potrf(D, L) completes and leaves in L the Cholesky factor of beta*C + alpha*A*A^T whenever that matrix is positive definite - in particular for positive definite C, alpha >= 0, beta > 0, and for beta = 0, alpha > 0 and A with linearly independent rows, whatever C contains - also when D is C, L is D, and with the following triangular solves the solution of (beta*C + alpha*A*A^T) X = B is obtained. Factoring a positive definite matrix in place by blocks of columns (potrf of the block column, syrkLower(-1, ., 1, ., .) of the remaining lower triangle, and so on) with any list of block widths that are multiples of the tile size gives the same lower triangle as potrf of the whole matrix, and modifies nothing outside the lower triangle and the padding below it.", "quantifier": "all sizes, SIMD widths, tile sizes, windows, scalars, matrix contents (real arithmetic) and lists of block widths", "why_tests_cant": "Positive definiteness of the updated matrix and the equality with the unblocked factorisation are statements about all real matrices and all ways of blocking.", "anchors": ["include/blast/math/dense/Syrk.hpp: syrkLower", "include/blast/math/dense/Potrf.hpp: potrf", "include/blast/math/dense/Trsm.hpp: trsm"]}
{"id": "C78", "title": "Allocation requirements of the algorithms are exact", "statement": "For conforming arguments (layout, alignment, sizes and aliasing as documented), gemm, column-major ger, syrk and both forms of trmm are defined exactly when a specific set of elements is allocated: gemm needs every element of B and D, and of A and C also the padding rows up to a multiple of the SIMD size; ger needs all of y and B, x up to a multiple of the register height, and the padding rows of A only if A is an aligned padded view; syrk needs A padded to the tile height, the lower triangle of D and, of C, from the diagonal tile down; the right-hand trmm needs B padded, the lower triangle of A, and C; the left-hand trmm needs B, C, the upper triangle of A and, of the rows whose band does not fit into the matrix - of all rows if the number of columns is not a multiple of the tile size -, the elements from the band's first column on, with the rows that complete the band. If any one of these elements is not allocated the call has undefined behaviour, whatever the values, and with an empty result nothing is required. potrf on dense or panel matrices additionally reads the source beyond its last column up to a multiple of the tile width, so that on a container whose number of columns is not such a multiple it reads behind the end of the container's own buffer. iamax, swap, assign and the row-major ger, getf2 and getrf need exactly the elements of their operands (a factorisation of a single row: its first element), laswp exactly the rows of its non-trivial interchanges, trsm and trsv the right-hand side, the result and the referenced triangle (with the diagonal unless it is declared to be ones). The column-major getf2 needs all elements and, below the last row, what completes the last tile of multipliers; in the library's own containers this is always there on AVX2, and on NEON exactly unless the matrix is 2 by 2, when an element behind the end of the buffer is read.", "quantifier": "all SIMD sizes and register heights, all element types and scalars, all sizes, storage kinds, windows, allocations and memory contents", "why_tests_cant": "an out-of-bounds read of padding normally returns harmless values, so no test on ordinary allocations sees it; that the listed set is both sufficient and necessary is a statement about every allocation", "anchors": ["include/blast/math/algorithm/Gemm.hpp", "include/blast/math/algorithm/Tile.hpp", "include/blast/math/dense/Ger.hpp", "include/blast/math/dense/Syrk.hpp", "include/blast/math/algorithm/Trmm.hpp", "include/blast/math/dense/Potrf.hpp", "include/blast/math/panel/Potrf.hpp", "include/blast/math/algorithm/Trmm.hpp: trmmLeftUpper", "include/blast/math/dense/Getf2.hpp: getf2", "include/blast/math/dense/Laswp.hpp: laswp", "include/blast/math/dense/Trsm.hpp: trsm", "include/blast/math/dense/Iamax.hpp: iamax", "include/blast/math/dense/Swap.hpp: swap"]}
{"id": "C79", "title": "A call can be replaced by several smaller calls, to the last bit", "statement": "K calls of ger with vectors x_k, y_k on a matrix G apply to every element the same K fused multiply-adds, in the order of the calls; so syrkLower gives, bit for bit, the lower triangle of K rank-one updates of beta*C with the columns of A, and gemm gives fma(beta, C, alpha*G) where G are the rank-one updates of a zero matrix. Solving a triangular system for some columns of the right-hand side and then for the others, or with trsv column by column, gives bit for bit the memory that one call of trsm gives. laswp over a range is laswp over two consecutive ranges, whatever the pivots. iamax of a vector is the one of its first part unless the maximum of the second part is strictly larger.", "quantifier": "all sizes, numbers of updates, splits, SIMD widths, layouts, scalar arithmetics (with 1*a = a where ger is involved), in-place or not", "why_tests_cant": "bit-level equality of different call sequences for every size, split and floating-point value is not reachable by sampling; tests compare with a tolerance", "anchors": ["include/blast/math/dense/Ger.hpp: ger", "include/blast/math/dense/Syrk.hpp: syrkLower", "include/blast/math/algorithm/Gemm.hpp: gemm", "include/blast/math/dense/Trsm.hpp: trsm", "include/blast/math/dense/Trsv.hpp", "include/blast/math/dense/Laswp.hpp: laswp", "include/blast/math/dense/Iamax.hpp: iamax"]}
{"id": "C80", "title": "Printing a matrix", "statement": "os << A writes, after what the stream already holds, one line per row with every element followed by a tab: reading the text line by line and field by field gives exactly the elements, row by row, with nothing left over. Only elements are read, never padding, so any matrix, window or transposed view with readable elements is printed without an error; matrices of different kinds, storage orders and alignments with the same sizes and elements are printed alike; and if different elements are written differently, matrices with the same text have the same number of rows, the same number of columns unless there are no rows, and the same elements.", "quantifier": "all sizes, containers, views, storage orders, memory contents, element types and formats that write elements without tabs and newlines", "why_tests_cant": "a test compares the text of a few matrices; that the text identifies the matrix and never depends on layout or padding is a statement about all of them", "anchors": ["include/blast/math/Matrix.hpp: operator<<"]}
{"id": "C81", "title": "Updates whose result overlaps an operand: gemm into a factor, ger over its vectors, syrk over its factor", "statement": "gemm(alpha, A, B, beta, C, D) reads everything a tile needs before it stores the tile. Hence D may be A itself, or overlap it within rows, if D has at most four columns, and D may be B itself, or overlap it within columns, if D has at most as many rows as a SIMD register has elements: every D(i,j) is then computed from the contents of A, B and C before the call, by the same operations as without overlap. With one more column, or one more row than a register, the result is wrong (refuted). In the same sense the result of the column-major ger may contain the vector x, element i in row i, in its last block of columns (a block is one tile size wide), and the vector y, element j in column j, in its last block of rows; and the result of syrk may overlap its factor anywhere in its last block of columns, in particular replace it altogether if it is at most one block wide. With x in the first column, y in the first row, or a factor one column wider, the result is wrong (refuted). The element-by-element routines (row-major ger, reference gemm, axpy and ger) compute the result row by row, and their result may be stored over any operand element that is not read again: over an element of a matrix read along with the result once it has had its turn, over row i of a left factor (element i of x) from the last element of row i on, over column j of a right factor (element j of y) in the last row from column j on.", "quantifier": "all sizes, layouts, storage orders of B, SIMD sizes, scalars, arithmetics and contents; both traversal orders of the tiles", "why_tests_cant": "whether an overlap is harmless depends on the order in which tiles are read and written, for every size and traversal; tests of in-place calls sample a few sizes", "anchors": ["include/blast/math/algorithm/Gemm.hpp: gemm", "include/blast/math/algorithm/arch/avx2/Tile.hpp: tile", "include/blast/math/register_matrix/Gemm.hpp: gemm", "include/blast/math/dense/Ger.hpp: ger", "include/blast/math/dense/Syrk.hpp: syrkLower", "include/blast/math/reference/Gemm.hpp: gemm", "include/blast/math/reference/Axpy.hpp: axpy", "include/blast/math/reference/Ger.hpp: ger"]}
