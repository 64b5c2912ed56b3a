{"id": "C01", "title": "Applying a permutation and then its transpose restores the matrix", "statement": "For a transposition-list permutation P (entry i says: exchange i with P[i]) FFPACK::applyP on a matrix with (side, NoTrans) followed by applyP with (side, Trans) on the same rows/columns gives back exactly the original matrix, and applyP computes the same matrix as the unblocked sequence of row/column exchanges in the documented order, whatever the number of rows, the index range and the internal block size; cells outside the addressed matrix are never written.", "quantifier": "every matrix contents, every dimension, every permutation array whose entries stay inside the matrix, every index range [ibeg,iend), both sides, every internal block size >= 1", "why_tests_cant": "The blocked code path depends on the sizes relative to the block size and on arbitrary index arrays; a test samples finitely many.", "anchors": ["fflas-ffpack/ffpack/ffpack_permutation.inl:applyP", "fflas-ffpack/ffpack/ffpack_permutation.inl:applyP_block"]}
{"id": "C02", "title": "Transposition-list and explicit permutations are interchangeable", "statement": "LAPACKPerm2MathPerm turns any valid transposition list into a permutation of {0..N-1}; MathPerm2LAPACKPerm turns any permutation into a valid transposition list (P[i] >= i, P[i] < N); converting permutation -> list -> permutation is the identity, and applying the list with applyP moves rows/columns exactly as the explicit permutation says.", "quantifier": "every N and every permutation / every valid transposition list of length N", "why_tests_cant": "There are N! permutations of every size N; the in-place conversion with two auxiliary tables has no finite set of representative inputs.", "anchors": ["fflas-ffpack/ffpack/ffpack_permutation.inl:LAPACKPerm2MathPerm", "fflas-ffpack/ffpack/ffpack_permutation.inl:MathPerm2LAPACKPerm"]}
{"id": "C03", "title": "Composing block permutations", "statement": "composePermutationsLLM(P1,P2,R,N) (and the LLL and MLM variants) produce the permutation obtained by applying P1 on N indices and then P2 on the indices R..N-1, i.e. P1 times (Id_R (+) P2).", "quantifier": "every N, R <= N, every pair of valid permutations of sizes N and N-R", "why_tests_cant": "Quantifies over all pairs of permutations of all sizes.", "anchors": ["fflas-ffpack/ffpack/ffpack_permutation.inl:composePermutationsLLL", "fflas-ffpack/ffpack/ffpack_permutation.inl:composePermutationsLLM", "fflas-ffpack/ffpack/ffpack_permutation.inl:composePermutationsMLM"]}
{"id": "C04", "title": "One-dimensional parallel splitting visits every index exactly once", "statement": "The iterator behind FORBLOCK1D / PARFOR1D with any cutting strategy yields consecutive non-overlapping intervals whose union is exactly [0,n).", "quantifier": "every range length n, every number of threads >= 1, every strategy parameter (threads, grain, fixed)", "why_tests_cant": "Coverage must hold for every n and thread count; a single off-by-one only shows for particular remainders.", "anchors": ["fflas-ffpack/paladin/blockcuts.inl:ForStrategy1D"]}
{"id": "C05", "title": "Two-dimensional parallel splitting visits every cell exactly once", "statement": "The iterator behind FORBLOCK2D with any cutting strategy and parameter yields rectangles that are pairwise disjoint and whose union is exactly the m x n index rectangle.", "quantifier": "every m, n, every number of threads >= 1, every (Row|Column|Block) x (Fixed|Threads|Grain) strategy and every grain", "why_tests_cant": "Whether trailing rows/columns are visited depends on the remainders of m and n by the block sizes, for unboundedly many combinations.", "anchors": ["fflas-ffpack/paladin/blockcuts.inl:ForStrategy2D", "fflas-ffpack/paladin/blockcuts.inl:BlockCuts"]}
{"id": "C06", "title": "Delayed dot product is exact modulo p", "statement": "fdot over a prime field represented in floating point (delayed mode) returns the canonical representative of sum x_i*y_i mod p: every intermediate value accumulated without reduction stays in the range where machine arithmetic is exact.", "quantifier": "every vector length N, every vectors of reduced elements, every modulus, every mantissa size, both the non-negative and the balanced representation", "why_tests_cant": "Overflow of the mantissa occurs only for lengths/moduli/values near the bound; the input space is unbounded.", "anchors": ["fflas-ffpack/fflas/fflas_fdot.inl:fdot", "fflas-ffpack/utils/flimits.h:limits"]}
{"id": "C07", "title": "Delayed matrix product is exact modulo p", "statement": "The classical fgemm over a prime field held in floating point computes C <- alpha*A*B + beta*C exactly mod p: no value handed to or produced by the floating-point BLAS inside one unreduced block leaves the exactly representable range, whatever the inner dimension.", "quantifier": "every inner dimension k, every reduced operand entries, every modulus accepted by the helper, every beta, both representations", "why_tests_cant": "The failing combination (worst-case operands of a particular inner dimension relative to a particular modulus) has measure almost zero under random testing.", "anchors": ["fflas-ffpack/fflas/fflas_fgemm/fgemm_classical.inl:fgemm", "fflas-ffpack/fflas/fflas_helpers.inl:MMHelper::MaxDelayedDim"]}
{"id": "C08", "title": "Delayed matrix-vector product is exact modulo p", "statement": "fgemv over a prime field held in floating point returns y <- alpha*op(A)*x + beta*y exactly mod p for all sizes, including the degenerate ones (zero rows or zero columns still scale y by beta).", "quantifier": "every dimension including 0, every reduced entries, every modulus, every alpha and beta, both transposition modes", "why_tests_cant": "Degenerate dimensions and worst-case values at the delayed-reduction threshold are not reached by random tests.", "anchors": ["fflas-ffpack/fflas/fflas_fgemv.inl:fgemv"]}
{"id": "C09", "title": "Advertised output bounds are sound", "statement": "After a bounded product, the interval [Outmin,Outmax] recorded in the helper contains every entry of the (unreduced) result alpha*A*B + beta*C, given that the input intervals contain 0 and the operands; hence later code that decides whether a reduction is needed never skips a necessary one.", "quantifier": "every operand bounds containing 0 (as all the bounds the library builds do), all operands within the bounds, every inner dimension, every alpha and beta", "why_tests_cant": "The bound is a worst-case statement over all operands.", "anchors": ["fflas-ffpack/fflas/fflas_helpers.inl:MMHelper::setOutBounds", "fflas-ffpack/fflas/fflas_fgemm.inl:NeedPreAddReduction", "fflas-ffpack/fflas/fflas_fgemm.inl:NeedPreSubReduction", "fflas-ffpack/fflas/fflas_fgemm.inl:NeedDoublePreAddReduction"]}
{"id": "C10", "title": "One Winograd step computes the product", "statement": "The seven-product schedule used when beta = 0, including its reuse of C's quadrants and of the temporaries as scratch, leaves alpha*A*B in C and leaves A and B unchanged; temporaries' initial contents do not influence the result.", "quantifier": "every ring of scalars, every even-split block dimensions, every operands, every alpha, every initial contents of C and of the temporaries", "why_tests_cant": "Buffer-reuse errors depend on aliasing of liveness ranges and the identity must hold over every ring.", "anchors": ["fflas-ffpack/fflas/fflas_fgemm/schedule_winograd.inl:Winograd"]}
{"id": "C11", "title": "One accumulating Winograd step computes C <- alpha*A*B + beta*C", "statement": "The 3-temporaries accumulating schedules leave alpha*A*B + beta*C in C for nonzero beta, independently of the temporaries' initial contents, with A and B unchanged.", "quantifier": "every ring of scalars, every block dimensions, every operands, alpha, beta, every initial contents of the temporaries", "why_tests_cant": "As for the non-accumulating schedule, plus sign/scale tracking of beta through several buffers.", "anchors": ["fflas-ffpack/fflas/fflas_fgemm/schedule_winograd_acc.inl:WinogradAcc_3_23", "fflas-ffpack/fflas/fflas_fgemm/schedule_winograd_acc.inl:WinogradAcc_3_21", "fflas-ffpack/fflas/fflas_fgemm/schedule_winograd_acc.inl:WinogradAcc_2_24", "fflas-ffpack/fflas/fflas_fgemm/schedule_winograd_acc.inl:WinogradAcc_2_27"]}
{"id": "C12", "title": "Recursive Winograd fgemm with dynamic peeling equals the classical product for all shapes", "statement": "For every m, n, k (odd, even, zero, one) and every number of recursion levels, the recursive Winograd product with peeling of the odd rows/columns computes C <- alpha*A*B + beta*C and writes only the m x n window of C.", "quantifier": "every m, n, k, every recursion level, every operands, alpha, beta", "why_tests_cant": "Peeling has a different boundary case for every residue of the three dimensions by a power of two.", "anchors": ["fflas-ffpack/fflas/fflas_fgemm/fgemm_winograd.inl:fgemm", "fflas-ffpack/fflas/fflas_fgemm/fgemm_winograd.inl:DynamicPeeling", "fflas-ffpack/fflas/fflas_fgemm/fgemm_winograd.inl:DynamicPeeling2", "fflas-ffpack/fflas/fflas_fgemm/fgemm_winograd.inl:WinogradCalc"]}
{"id": "C13", "title": "ftrsm solves the triangular system", "statement": "ftrsm with any side, uplo, transposition, diag overwrites B with the matrix X such that op(A)*X = alpha*B (left) or X*op(A) = alpha*B (right), where A's unreferenced triangle (and its diagonal in unit mode) is ignored; it writes only B's window and A is unchanged.", "quantifier": "every field, every dimensions, every triangular A with invertible diagonal, every B and alpha, the 16 variants, every recursion split", "why_tests_cant": "Unbounded recursion depth and 16 variants with different block addressing.", "anchors": ["fflas-ffpack/fflas/fflas_ftrsm.inl:ftrsm", "fflas-ffpack/fflas/fflas_ftrsm_src.inl:ftrsm*"]}
{"id": "C14", "title": "ftrsm's delayed splitting is well defined and never overflows", "statement": "For every prime usable with the floating-point representation, the block sizes ftrsm computes for delayed reductions are positive (no division by zero) and the values accumulated between reductions stay exactly representable.", "quantifier": "every modulus p, every mantissa size, every system size, both representations", "why_tests_cant": "Only moduli in a narrow band near the representation limit exercise the boundary, with worst-case operand values.", "anchors": ["fflas-ffpack/fflas/fflas_ftrsm_src.inl:operator()", "fflas-ffpack/fflas/fflas_ftrsm_src.inl:delayed", "fflas-ffpack/fflas/fflas_bounds.inl:TRSMBound", "fflas-ffpack/fflas/fflas_bounds.inl:DotProdBoundClassic"]}
{"id": "C15", "title": "ftrmm multiplies by the triangular matrix", "statement": "ftrmm with any side, uplo, transposition, diag computes B <- alpha*op(A)*B (or alpha*B*op(A)), and the three-operand form computes C <- alpha*op(A)*B + beta*C for every alpha and beta including zero; unreferenced entries of A are ignored.", "quantifier": "every field, dimensions, operands, the 16 variants, every alpha and beta", "why_tests_cant": "Unbounded recursion and special scalars.", "anchors": ["fflas-ffpack/fflas/fflas_ftrmm.inl:ftrmm", "fflas-ffpack/fflas/fflas_ftrmm_src.inl:ftrmm*"]}
{"id": "C16", "title": "ftrtri inverts a triangular matrix in place", "statement": "ftrtri overwrites the designated triangle by the triangle of the inverse, for either triangle and diag mode, any base-case threshold, and does not write the other triangle (nor the diagonal in unit mode).", "quantifier": "every field, every size, every triangular matrix with invertible diagonal, every threshold", "why_tests_cant": "Recursive in-place algorithm for all sizes/thresholds.", "anchors": ["fflas-ffpack/ffpack/ffpack_ftrtr.inl:ftrtri"]}
{"id": "C17", "title": "PLUQ factors every matrix", "statement": "FFPACK::PLUQ returns r, P, Q and an in-place array such that A = P*L*U*Q, where L (m x r, lower trapezoidal) and U (r x n, upper trapezoidal) are read from the array with the unit diagonal on the side requested by Diag, all diagonal entries of the non-unit factor are nonzero, and P and Q are valid transposition lists.", "quantifier": "every field, every m, n, every A, both Diag modes, every base-case threshold", "why_tests_cant": "Correctness over all matrices including all rank-deficient patterns, for unbounded recursion.", "anchors": ["fflas-ffpack/ffpack/ffpack_pluq.inl:_PLUQ", "fflas-ffpack/ffpack/ffpack_pluq.inl:PLUQ_basecaseCrout"]}
{"id": "C18", "title": "PLUQ returns the rank", "statement": "The value returned by PLUQ (and by FFPACK::Rank) is the rank of the input matrix.", "quantifier": "every field, every m, n, every A", "why_tests_cant": "All rank-deficient patterns of all sizes.", "anchors": ["fflas-ffpack/ffpack/ffpack_pluq.inl:PLUQ", "fflas-ffpack/ffpack/ffpack.inl:Rank"]}
{"id": "C19", "title": "PLUQ reveals the rank profile matrix", "statement": "With (P,Q,r) returned by PLUQ, for every leading i x j sub-matrix of the input its rank equals the number of pivots (P(k),Q(k)), k<r, lying in it.", "quantifier": "every field, every m, n, every A, every leading sub-matrix, every base-case threshold", "why_tests_cant": "Ranges over all sub-matrices of all matrices; random matrices have generic rank profile and never exercise it.", "anchors": ["fflas-ffpack/ffpack/ffpack_pluq.inl:_PLUQ", "fflas-ffpack/ffpack/ffpack_pluq.inl:PLUQ_basecaseCrout", "fflas-ffpack/ffpack/ffpack_rankprofiles.inl:LeadingSubmatrixRankProfiles"]}
{"id": "C20", "title": "Row and column rank profiles are the lexicographically first independent rows/columns", "statement": "RowRankProfile (ColumnRankProfile) returns in increasing order the indices of the rows (columns) that are not in the span of the preceding ones.", "quantifier": "every field, every m, n, every A", "why_tests_cant": "All dependency patterns.", "anchors": ["fflas-ffpack/ffpack/ffpack_rankprofiles.inl:RowRankProfile", "fflas-ffpack/ffpack/ffpack_rankprofiles.inl:ColumnRankProfile", "fflas-ffpack/ffpack/ffpack_rankprofiles.inl:RankProfileFromLU"]}
{"id": "C21", "title": "Rank profile sub-matrix index arrays stay inside their allocations", "statement": "RowRankProfileSubmatrixIndices / ColRankProfileSubmatrixIndices return r row and r column indices of a nonsingular r x r sub-matrix, reading only initialised cells and writing only inside the arrays they allocate, for every shape.", "quantifier": "every m, n (including m < n and m > n), every A", "why_tests_cant": "Out-of-bounds writes into a heap array are silent in a test run.", "anchors": ["fflas-ffpack/ffpack/ffpack_rankprofiles.inl:RowRankProfileSubmatrixIndices", "fflas-ffpack/ffpack/ffpack_rankprofiles.inl:ColRankProfileSubmatrixIndices"]}
{"id": "C22", "title": "Determinant", "statement": "FFPACK::Det returns the determinant of the square input matrix.", "quantifier": "every field, every n, every A", "why_tests_cant": "Sign bookkeeping over all permutations.", "anchors": ["fflas-ffpack/ffpack/ffpack.inl:Det"]}
{"id": "C23", "title": "Square system solve", "statement": "FFPACK::Solve leaves in x the vector with A*x = b whenever A is nonsingular, for any strides of b and x.", "quantifier": "every field, every n, every nonsingular A, every b, every strides", "why_tests_cant": "All matrices, strides.", "anchors": ["fflas-ffpack/ffpack/ffpack.inl:Solve"]}
{"id": "C24", "title": "Null space basis", "statement": "NullSpaceBasis returns a matrix whose rows (left) or columns (right) form a basis of the corresponding kernel of A, of the dimension it reports.", "quantifier": "every field, every m, n, every A, both sides", "why_tests_cant": "All rank patterns.", "anchors": ["fflas-ffpack/ffpack/ffpack.inl:NullSpaceBasis"]}
{"id": "C25", "title": "Random null space vector lies in the kernel for any stride", "statement": "RandomNullSpaceVector writes into X (with increment incX) a vector of the left or right kernel of A, touching only the N (M) strided cells of X.", "quantifier": "every field, every m, n, every A, both sides, every incX >= 1, every random outcome", "why_tests_cant": "Tests use incX = 1; kernel membership must hold for each random outcome.", "anchors": ["fflas-ffpack/ffpack/ffpack.inl:RandomNullSpaceVector"]}
{"id": "C26", "title": "fgetrs solves consistent systems and flags inconsistent ones", "statement": "Given the output of PLUQ, fgetrs sets info=0 and produces X with A*X = B (or X*A = B) if the system is consistent, and sets info=1 exactly when no solution exists.", "quantifier": "every field, every m, n, r, every A, B, both sides, over- and under-determined shapes", "why_tests_cant": "Both directions of an equivalence over all systems.", "anchors": ["fflas-ffpack/ffpack/ffpack_fgetrs.inl:fgetrs"]}
{"id": "C27", "title": "Echelon forms", "statement": "(Reduced)RowEchelonForm / (Reduced)ColumnEchelonForm return the rank and a factorisation X*A = R (A*X = C) with X invertible and R (C) in (reduced) echelon form.", "quantifier": "every field, every m, n, every A", "why_tests_cant": "All rank patterns.", "anchors": ["fflas-ffpack/ffpack/ffpack_echelonforms.inl:ReducedRowEchelonForm", "fflas-ffpack/ffpack/ffpack_echelonforms.inl:RowEchelonForm"]}
{"id": "C28", "title": "Matrix inverse", "statement": "FFPACK::Invert reports the nullity of A, and when it is zero overwrites A by its inverse.", "quantifier": "every field, every n, every A", "why_tests_cant": "All matrices.", "anchors": ["fflas-ffpack/ffpack/ffpack_invert.inl:Invert", "fflas-ffpack/ffpack/ffpack_invert.inl:Invert2"]}
{"id": "C29", "title": "Floating-point modular reduction returns the canonical representative", "statement": "freduce on a floating-point prime field maps every exactly representable integer x with |x| below the mantissa bound to the representative of x mod p in [min,max], on the scalar and on the SIMD path.", "quantifier": "every integer in the exactly representable range, every modulus >= 2, both representations, every mantissa size", "why_tests_cant": "2^54 inputs per modulus; wrong results appear only for a sparse set of (x,p).", "anchors": ["fflas-ffpack/fflas/fflas_freduce.inl:reduce", "fflas-ffpack/fflas/fflas_freduce.inl:modp"]}
{"id": "C30", "title": "64-bit integer reduction returns the canonical representative", "statement": "freduce on int64-backed prime fields maps every int64 value to its canonical representative mod p without intermediate overflow.", "quantifier": "every int64 value, every modulus below 2^33, both representations", "why_tests_cant": "2^64 inputs for each modulus.", "anchors": ["fflas-ffpack/fflas/fflas_freduce.inl:reduce", "fflas-ffpack/fflas/fflas_freduce.inl:HelperMod"]}
{"id": "C31", "title": "SIMD modular arithmetic agrees with the field", "statement": "FieldSimd add/sub/mul/axpy/maxpy on vectors of reduced elements return, lane by lane, the reduced field sum/difference/product/...; all overloads of the same operation agree.", "quantifier": "every modulus, every lanes of reduced elements, both representations, every overload", "why_tests_cant": "Two overloads of the same name must agree on all inputs.", "anchors": ["fflas-ffpack/fflas/fflas_simd/simd_modular.inl:FieldSimd"]}
{"id": "C32", "title": "Vectorised vector addition/subtraction is alignment-independent", "statement": "fadd/fsub on contiguous vectors produce for every length and every alignment of the three buffers exactly the element-wise modular sum/difference in canonical range, each element processed exactly once and no cell beyond n touched.", "quantifier": "every n, every alignment offset, every SIMD width, every reduced operands, both representations", "why_tests_cant": "Prologue/body/epilogue split depends on addresses.", "anchors": ["fflas-ffpack/fflas/fflas_fadd.inl:addp", "fflas-ffpack/fflas/fflas_fadd.inl:subp"]}
{"id": "C33", "title": "Sparse CSR matrix-vector product", "statement": "Building a CSR matrix from row-sorted triplets and calling fspmv computes y <- A*x + beta*y exactly mod p, whatever the row lengths relative to the delayed-reduction bound.", "quantifier": "every m, n, every sorted triplet list, every x, y, beta, every modulus and mantissa size", "why_tests_cant": "Unbounded row lengths and structures.", "anchors": ["fflas-ffpack/fflas/fflas_sparse/csr/csr_utils.inl:sparse_init", "fflas-ffpack/fflas/fflas_sparse/csr/csr_spmv.inl:fspmv", "fflas-ffpack/fflas/fflas_sparse.inl:fspmv"]}
{"id": "C34", "title": "All sparse formats represent the same matrix", "statement": "COO, CSR, ELL and HYB_ZO built from the same row-sorted triplets give the same matrix-vector product.", "quantifier": "every triplet list, every x", "why_tests_cant": "Format conversions over all structures.", "anchors": ["fflas-ffpack/fflas/fflas_sparse/ell/ell_utils.inl:sparse_init", "fflas-ffpack/fflas/fflas_sparse/hyb_zo/hyb_zo_utils.inl:sparse_init", "fflas-ffpack/fflas/fflas_sparse/coo/coo_utils.inl:sparse_init", "fflas-ffpack/fflas/fflas_sparse/ell/ell_spmv.inl", "fflas-ffpack/fflas/fflas_sparse/coo/coo_spmv.inl"]}
{"id": "C35", "title": "Sparse products with a zero-one matrix are exact modulo p", "statement": "fspmv/fspmm with a matrix stored as a constant times a 0/1 pattern (CSR_ZO and the ZO parts of HYB_ZO) compute cst*A*x + y exactly mod p for any row length and any constant, and the output block is fully reduced.", "quantifier": "every pattern, every row length, every constant, every modulus and mantissa size, every block width and leading dimension", "why_tests_cant": "Overflow needs long rows; the constant and block-shape handling needs values never used in tests.", "anchors": ["fflas-ffpack/fflas/fflas_sparse.inl:fspmv", "fflas-ffpack/fflas/fflas_sparse.inl:fspmm", "fflas-ffpack/fflas/fflas_sparse/csr/csr_spmv.inl:fspmv_one"]}
{"id": "C36", "title": "Sparse matrix times dense block honours beta", "statement": "fspmm computes Y <- A*X + beta*Y for every beta on exactly the m x blockSize window of Y with leading dimension ldy.", "quantifier": "every beta, every window shape and leading dimension", "why_tests_cant": "Needs unusual beta together with a leading dimension larger than one.", "anchors": ["fflas-ffpack/fflas/fflas_sparse.inl:init_y"]}
{"id": "C37", "title": "SELL format delays reductions only when safe", "statement": "Building a SELL matrix records the longest row length, permutes rows bijectively, and marks the product as reduction-free only if every row is short enough for exact accumulation.", "quantifier": "every triplet list, every modulus, every chunk size", "why_tests_cant": "Requires adversarial row-length distributions.", "anchors": ["fflas-ffpack/fflas/fflas_sparse/sell/sell_utils.inl:sparse_init"]}
{"id": "C38", "title": "RNS conversion round trip", "statement": "Converting a multiprecision integer to the residue number system and back returns the same integer whenever its absolute value is at most (M-1)/2, M being the product of the moduli, and all floating-point intermediates are exact.", "quantifier": "every basis of pairwise coprime moduli, every integer in range, every number of moduli within the exactness bound", "why_tests_cant": "Unbounded integers and bases.", "anchors": ["fflas-ffpack/field/rns-double.inl:init", "fflas-ffpack/field/rns-double.inl:convert", "fflas-ffpack/field/rns-double.h:rns_double"]}
{"id": "C39", "title": "Transposition, out of place and in place", "statement": "ftranspose writes B[j,i]=A[i,j] for all i,j, for any shape, leading dimensions, SIMD width and block size, in the three modes (distinct buffers, square in place, rectangular in place), and writes nothing else.", "quantifier": "every m, n, lda, ldb, contents, vector size, block size multiple of it", "why_tests_cant": "In-place blocked transposition with remainders for all shapes.", "anchors": ["fflas-ffpack/fflas/fflas_transpose.h:ftranspose", "fflas-ffpack/fflas/fflas_transpose.h:square_inplace", "fflas-ffpack/fflas/fflas_transpose.h:not_inplace"]}
{"id": "C40", "title": "Freivalds check is complete and rarely wrong", "statement": "freivalds always accepts C = alpha*op(A)*op(B), and if C is wrong then at most a fraction 1/q of the random vectors lead to acceptance over a field of q elements.", "quantifier": "every finite field, dimensions, matrices, every random vector", "why_tests_cant": "A counting statement over all random vectors.", "anchors": ["fflas-ffpack/fflas/fflas_freivalds.inl:freivalds"]}
{"id": "C41", "title": "Certificate checkers never reject correct results", "statement": "The fgemm, ftrsm, PLUQ and inverse checkers accept every correct result for every random vector, and accept an incorrect one for at most a fraction 1/q of them.", "quantifier": "every field, dimensions, inputs, random vectors", "why_tests_cant": "Quantifies over all inputs and all random choices.", "anchors": ["fflas-ffpack/checkers/checker_fgemm.inl:CheckerImplem_fgemm", "fflas-ffpack/checkers/checker_ftrsm.inl:CheckerImplem_ftrsm", "fflas-ffpack/checkers/checker_pluq.inl:CheckerImplem_PLUQ", "fflas-ffpack/checkers/checker_invert.inl:CheckerImplem_invert"]}
{"id": "C42", "title": "Parallel matrix product is schedule independent", "statement": "Every parallel fgemm variant (block, 2D/3D recursive and adaptive) returns the same C as the sequential product, for every order in which its tasks may be executed.", "quantifier": "every dimensions, operands, number of threads, every admissible task interleaving", "why_tests_cant": "Interleavings and shapes are unbounded; races and wrong block shapes appear only for some of them.", "anchors": ["fflas-ffpack/paladin/pfgemm_variants.inl:pfgemm"]}
{"id": "C43", "title": "High half of 64-bit products", "statement": "mulhi_64 and mulhi_u64 return the exact high 64 bits of the 128-bit product, on the portable code path as well.", "quantifier": "all 2^128 operand pairs", "why_tests_cant": "Exhaustive testing impossible; carries matter for sparse operands.", "anchors": ["fflas-ffpack/utils/bit_manipulation.h:mulhi_64", "fflas-ffpack/utils/bit_manipulation.h:mulhi_u64"]}
{"id": "C44", "title": "Triangular vector solve", "statement": "ftrsv overwrites X by op(A)^{-1} X for every uplo/trans/diag and stride.", "quantifier": "every field, size, triangular A with invertible diagonal, X, stride >= 1", "why_tests_cant": "All sizes and strides.", "anchors": ["fflas-ffpack/fflas/fflas_ftrsv.inl:ftrsv"]}
{"id": "C45", "title": "Rank-one update", "statement": "fger computes A <- A + alpha*x*y^T on exactly the M x N window for every shape, strides and alpha.", "quantifier": "every field, M, N, strides, alpha, operands", "why_tests_cant": "Two loop orders and three scalar cases, all shapes.", "anchors": ["fflas-ffpack/fflas/fflas_fger.inl:fger"]}
{"id": "C46", "title": "Symmetric rank-k update touches only the requested triangle", "statement": "fsyrk computes C <- alpha*A*A^T + beta*C on the requested triangle and leaves the opposite strict triangle of C unchanged, in every computation mode.", "quantifier": "every field representation, N, K, operands, alpha, beta, both triangles", "why_tests_cant": "The untouched half is usually not inspected by tests.", "anchors": ["fflas-ffpack/fflas/fflas_fsyrk.inl:fsyrk", "fflas-ffpack/fflas/fflas_fsyrk.inl:fsyrk_convert"]}
{"id": "C47", "title": "LUdivine is a rank revealing factorisation", "statement": "LUdivine overwrites A (or, with FflasTrans, its transpose) with factors such that A = C*U*P, C in column echelon form with unit (or stored) leading entries in the increasing rows Q[0..R), U upper triangular with nonzero pivots, P the product of the exchanges (t, P[t]); it returns the rank and leaves everything outside the M x N window unchanged, whatever P and Q contained.", "quantifier": "every field, both Diag and trans modes, every M, N, A, P, Q", "why_tests_cant": "Every rank pattern in every half of the recursion decides how rows are moved.", "anchors": ["fflas-ffpack/ffpack/ffpack_ludivine.inl:LUdivine"]}
{"id": "C48", "title": "IsSingular", "statement": "IsSingular returns false exactly for the square matrices of full rank (0 x 0 included).", "quantifier": "every field, every M, N, A", "why_tests_cant": "Early exits depend on which half first loses rank.", "anchors": ["fflas-ffpack/ffpack/ffpack.inl:IsSingular", "fflas-ffpack/ffpack/ffpack_ludivine.inl:LUdivine"]}
{"id": "C49", "title": "Inverse of a full rank minor from its LQUP factors", "statement": "LQUPtoInverseOfFullRankMinor applied to the factors of A returns the inverse of the r x r minor of A at the pivot rows and columns.", "quantifier": "every field, every A", "why_tests_cant": "The routine is documented as not used and no test calls it.", "anchors": ["fflas-ffpack/ffpack/ffpack_rankprofiles.inl:LQUPtoInverseOfFullRankMinor"]}
{"id": "C50", "title": "In-place Winograd schedules", "statement": "The in-place variants (overwriting A and/or B) compute alpha*op(A)*op(B) (+ beta*C) under the dimension conditions they check, whatever the temporaries contain.", "quantifier": "every ring of scalars, every block dimensions passing the checks of the schedule, both transpose modes, every operands", "why_tests_cant": "They are only compiled under NEWIP/NEWACCIP and only called on square blocks; sub-block overflow depends on shapes and transposition.", "anchors": ["fflas-ffpack/fflas/fflas_fgemm/schedule_winograd_ip.inl", "fflas-ffpack/fflas/fflas_fgemm/schedule_winograd_acc_ip.inl"]}
{"id": "C51", "title": "Determinant and characteristic polynomial checkers", "statement": "The determinant checker accepts the determinant and factors returned by the library for every draw and accepts a wrong determinant for at most (q+1)/q^2 of the draws, whatever factors it is given; the characteristic polynomial checker accepts the characteristic polynomial for every draw and a wrong polynomial g for at most max(deg g, n) values of lambda.", "quantifier": "every finite field, every n, matrix, claimed result, every draw", "why_tests_cant": "The probability bound is over all draws and all wrong answers.", "anchors": ["fflas-ffpack/checkers/checker_det.inl:CheckerImplem_Det", "fflas-ffpack/checkers/checker_charpoly.inl:CheckerImplem_charpoly"]}
{"id": "C52", "title": "Strided vector addition and subtraction over any field", "statement": "fadd/fsub called with arbitrary strides over a field without a vectorised implementation write the element-wise sum/difference in the strided output cells and nothing else.", "quantifier": "every field operation, every length, every stride and placement in which no output cell is read later", "why_tests_cant": "Contiguous and strided calls, additions and subtractions, are separate branches, each of which must be right on all fields.", "anchors": ["fflas-ffpack/fflas/fflas_fadd.inl:fadd", "fflas-ffpack/fflas/fflas_fadd.h:fsub"]}
{"id": "C53", "title": "Register shuffles of the SIMD wrappers", "statement": "unpacklo/unpackhi/unpacklohi interleave, pack_even/pack_odd/pack deinterleave, transpose transposes, blend<s> and shuffle<s> select the lanes designated by s, for every vector type of 128, 256 and 512 bits and both AVX and AVX2 code paths, whatever the lanes contain.", "quantifier": "every content of the registers, every mask s", "why_tests_cant": "Each instruction set path needs the corresponding hardware; masks are template parameters, so only a few can be instantiated.", "anchors": ["fflas-ffpack/fflas/fflas_simd/simd256_float.inl:transpose", "fflas-ffpack/fflas/fflas_simd/simd512_float.inl:transpose", "fflas-ffpack/fflas/fflas_simd/simd256_int16.inl:pack_even", "fflas-ffpack/fflas/fflas_simd/simd128_int16.inl:shuffle", "fflas-ffpack/fflas/fflas_simd/simd256_int16.inl:blend"]}
{"id": "C54", "title": "Emulated integer SIMD operations", "statement": "The integer SIMD operations that have no direct instruction (64-bit arithmetic shift, unsigned and large-or-equal comparisons, mulx, 32-bit mulhi, 64-bit mullo/mul and mulhi_fast) return in each lane the result their documentation announces, for all lane values.", "quantifier": "every pair of lane values, every shift count, every lane width where the code is uniform", "why_tests_cant": "2^128 operand pairs; wrong sign corrections only show for large magnitudes.", "anchors": ["fflas-ffpack/fflas/fflas_simd/simd128_int64.inl:sra", "fflas-ffpack/fflas/fflas_simd/simd128_int64.inl:mulhi_fast", "fflas-ffpack/fflas/fflas_simd/simd128_int32.inl:mulhi", "fflas-ffpack/fflas/fflas_simd/simd128_int16.inl:mulx", "fflas-ffpack/fflas/fflas_simd/simd256_int64.inl:mullo"]}
{"id": "C55", "title": "Symmetric rank-k update with a diagonal or block-diagonal middle factor", "statement": "fsyrk with a diagonal D (or with D made of 1x1 and antidiagonal 2x2 blocks described by twoBlocks) computes C <- alpha*op(A)*D*op(A)^T + beta*C on the requested triangle, replaces op(A) by op(A)*D, writes nothing outside the N x N block of C, and terminates without out-of-bounds access for every threshold.", "quantifier": "every field, N, K, op, triangle, alpha, beta, D, block pattern and threshold", "why_tests_cant": "The recursion depth depends on N and the threshold, so small tests stay in the base case; scratch contents are arbitrary.", "anchors": ["fflas-ffpack/fflas/fflas_fsyrk.inl:fsyrk"]}
{"id": "C56", "title": "Symmetric rank-2k update and triangular systems with triangular or symmetric right-hand side", "statement": "fsyr2k computes C <- alpha*(op(A)op(B)^T + op(B)op(A)^T) + beta*C on the requested triangle; ftrstr solves A*X = B or X*A = B for triangular A, B, X inside the triangle of B; ftrssyr2k solves A^T X + X^T A = B for triangular X with B symmetric stored by its triangle.", "quantifier": "every field, N, K, triangle, diag modes, side, scalars and contents of the unused triangles", "why_tests_cant": "Correctness is an algebraic identity over all operands, including characteristic two and the contents of the half that is not inspected.", "anchors": ["fflas-ffpack/fflas/fflas_fsyr2k.inl:fsyr2k", "fflas-ffpack/ffpack/ffpack_ftrstr.inl:ftrstr", "fflas-ffpack/ffpack/ffpack_ftrssyr2k.inl:ftrssyr2k"]}
{"id": "C57", "title": "LDL^T factorisation", "statement": "fsytrf returns true exactly when every leading principal minor of the symmetric matrix stored in the requested triangle is non-zero; then the array holds a unit triangular factor and the non-zero diagonal D with A = L D L^T (Lower) or U^T D U (Upper), for both base cases and every positive threshold.", "quantifier": "every field, order N, symmetric A, triangle, threshold, contents of scratch memory", "why_tests_cant": "Matrices of generic rank profile are what random tests draw; failure detection must be exact for every matrix and every split.", "anchors": ["fflas-ffpack/ffpack/ffpack_fsytrf.inl:fsytrf", "fflas-ffpack/ffpack/ffpack_fsytrf.inl:fsytrf_nonunit", "fflas-ffpack/ffpack/ffpack_fsytrf.inl:fsytrf_BC_RL"]}
{"id": "C58", "title": "Integer and multiprecision modular products through a residue number system", "statement": "fgemm over ZRing<Integer> returns alpha*A*B + beta*C exactly, and fgemm over Modular<Integer> the canonical representative of that value, whatever primes are drawn for the basis, as long as the conversions stay within the mantissa.", "quantifier": "every size, every integer entry, every alpha and beta, every sequence of primes drawn, every summation order", "why_tests_cant": "The basis is random and its size depends on the magnitude of the entries; exactness depends on the product of the moduli reaching twice the largest entry.", "anchors": ["fflas-ffpack/fflas/fflas_fgemm/fgemm_classical_mp.inl:fgemm", "fflas-ffpack/field/rns-double.h:rns_double"]}
{"id": "C59", "title": "Reduction modulo p inside the residue number system", "statement": "RNSIntegerMod::reduce_modp maps the residues of x to the residues of an integer congruent to x modulo p and of magnitude at most p times the sum of the moduli, although the quotient is computed in floating point; initialisation and comparison of RNSIntegerMod elements agree with arithmetic modulo p.", "quantifier": "every basis, every p, every x away from half the product of the moduli by the rounding error, every summation order", "why_tests_cant": "An error of one in the rounded quotient silently adds the product of the moduli, only for values near a boundary.", "anchors": ["fflas-ffpack/field/rns-integer-mod.h:reduce_modp", "fflas-ffpack/field/rns-integer-mod.h:init", "fflas-ffpack/field/rns-integer-mod.h:areEqual"]}
{"id": "C60", "title": "Parallel vector products, zeroing and triangular systems are schedule independent", "statement": "The parallel fgemv, fdot and fzero and the iterative and hybrid parallel ftrsm return what their sequential counterparts return and touch nothing else, for every order in which their tasks may be executed, and they terminate.", "quantifier": "every dimensions, increments, operands, number of threads, cutting strategy, every admissible task interleaving", "why_tests_cant": "A block that is lost, shared by two tasks or stored past the end of a buffer only shows for some sizes, thread counts and interleavings.", "anchors": ["fflas-ffpack/paladin/pfgemv.inl:pfgemv", "fflas-ffpack/fflas/fflas_plevel1.h:fdot", "fflas-ffpack/fflas/fflas_plevel1.h:pfzero", "fflas-ffpack/fflas/fflas_pftrsm.inl:ftrsm"]}
{"id": "C61", "title": "Recursive symmetric product", "statement": "fsyrk with a Winograd helper (five recursive half-size products, using a pair x,y with x^2+y^2=-1 in the field) stores beta C + alpha op(A) op(A)^T on the designated triangle of C, and writes nothing outside of the N x N block.", "quantifier": "every field with such a pair, every dimensions, recursion depth, alpha, beta, contents of the temporaries, both triangles, both transpositions", "why_tests_cant": "The quadrants of C are reused as temporaries in place, under two different schedules and two allocation policies; a lost or aliased block only shows for particular shapes, and the identity itself must hold for all values.", "anchors": ["fflas-ffpack/fflas/fflas_fsyrk_strassen.inl:computeS1S2", "fflas-ffpack/fflas/fflas_fsyrk_strassen.inl:fsyrk", "fflas-ffpack/fflas/fflas_fsyrk_strassen.inl:fsyrk_strassen"]}
{"id": "C62", "title": "Minimal polynomial of a matrix and a vector", "statement": "MatVecMinPoly returns the monic polynomial of least degree p with p(A) v = 0; the polynomials annihilating v are its multiples.", "quantifier": "every field, order, matrix, vector, contents of the work arrays", "why_tests_cant": "The Krylov basis is built and eliminated by a recursion that stops at the first dependency, wherever it falls in the recursion tree; minimality quantifies over all polynomials.", "anchors": ["fflas-ffpack/ffpack/ffpack_minpoly.inl:MatVecMinPoly", "fflas-ffpack/ffpack/ffpack_ludivine.inl:LUdivine_construct"]}
{"id": "C63", "title": "Characteristic polynomial", "statement": "Danilevski and LUKrylov return factors whose product is det(X - A), and CharPoly with these algorithms returns its coefficients.", "quantifier": "every field, order, matrix, nonzero vectors drawn, contents of the work arrays", "why_tests_cant": "Which blocks appear depends on zeros met during the elimination and on the vectors drawn; degenerate matrices are never drawn by random tests over large fields.", "anchors": ["fflas-ffpack/ffpack/ffpack_charpoly_danilevski.inl:Danilevski", "fflas-ffpack/ffpack/ffpack_charpoly.inl:LUKrylov", "fflas-ffpack/ffpack/ffpack_charpoly.inl:CharPoly"]}
{"id": "C64", "title": "Minimal polynomial of a matrix", "statement": "MinPoly returns the minimal polynomial of A.", "quantifier": "every field, order, matrix and random vector", "why_tests_cant": "Wrong only for the vectors of a proper subvariety; tests over large fields do not draw them.", "anchors": ["fflas-ffpack/ffpack/ffpack_minpoly.inl:MinPoly"]}
{"id": "C65", "title": "Determinant and characteristic polynomial over the integers", "statement": "Det and CharPoly over ZRing<Integer>, which compute modulo the primes of a residue number system and convert back, return the determinant and the characteristic polynomial of the integer matrix.", "quantifier": "every order, integer matrix, sequence of primes drawn, previous contents of the result", "why_tests_cant": "The result is wrong only when it falls in the upper half of the interval the moduli cover, or when the result variable was not zero before the call.", "anchors": ["fflas-ffpack/ffpack/ffpack_det_mp.inl:Det", "fflas-ffpack/ffpack/ffpack_charpoly_mp.inl:CharPoly", "fflas-ffpack/fflas/fflas_level2.inl:bitsize"]}
{"id": "C66", "title": "Bruhat generators of quasi-separable matrices", "statement": "LTBruhatGen computes pivots and factors with L R^T U equal to A strictly left of the antidiagonal; getLTBruhatGen hands out L, R and U for any leading dimension; the pivots in every leading block that does not cross the antidiagonal count its rank, and LTQSorder is the quasi-separability order.", "quantifier": "every field, order N >= 1, matrix, diagonal convention, PLUQ base-case threshold, previous contents of the outputs", "why_tests_cant": "Truncated rows and columns are dropped on the argument that they lie beyond the antidiagonal; that only holds for the order in which PLUQ finds its pivots, for every rank profile. The test uses matrices of generic rank profile and leading dimension N.", "anchors": ["fflas-ffpack/ffpack/ffpack_bruhatgen.inl:LTBruhatGen", "fflas-ffpack/ffpack/ffpack_bruhatgen.inl:getLTBruhatGen", "fflas-ffpack/ffpack/ffpack_bruhatgen.inl:LTQSorder"]}
{"id": "C67", "title": "Compact storage of a quasi-separable matrix loses nothing", "statement": "Bruhat2EchelonPermutation is a permutation of the N indices that puts the lines of a Bruhat factor in echelon order. CompressToBlockBiDiagonal stores a factor with pivots of order at most s in 2s lines, touching nothing else and always finding a free slot for the tails it folds; ExpandBlockBiDiagonalToBruhat applied to its outputs gives back the factor, entry by entry, for both the upper and the lower factor and whatever the arrays held before.", "quantifier": "For all fields, N, all sets of pivots strictly left of the antidiagonal, all s at least the quasi-separability order, all factors of the shape LTBruhatGen produces, all initial contents of the arrays.", "why_tests_cant": "Whether a free slot exists depends on the combinatorics of all pivots; the test draws a few random matrices, always with leading dimension N and with rank above zero.", "anchors": ["fflas-ffpack/ffpack/ffpack_bruhatgen.inl:194-393"]}
{"id": "C68", "title": "Products with a sequentially semi-separable generator", "statement": "productSSSxTS computes alpha A B + beta C, where A is the block matrix with D_i on the diagonal, P_i R_{i-1} ... R_{j+1} Q_j below and U_i W_{i+1} ... W_{j-1} V_j above, in the N x t window of C only, whatever the scratch blocks held; SSSToDense writes exactly that matrix.", "quantifier": "For all fields, N, t, all block sizes s (dividing N or not, any parity of the number of blocks), all generators and right-hand sides.", "why_tests_cant": "The loops are unrolled by two with special cases for parity and for a short last block; the tests draw a few random sizes, all above s.", "anchors": ["fflas-ffpack/ffpack/ffpack_sss.inl:32-330"]}
{"id": "C69", "title": "A semi-separable generator is extracted exactly when the ranks allow it", "statement": "DenseToSSS stays inside of its scratch blocks if and only if every block above or below the diagonal cut at a multiple of s has rank at most s; then the generator it returns stands for A entry by entry, SSSToDense gives A back and productSSSxTS multiplies by A.", "quantifier": "For all fields, N, s, all matrices, all initial contents of the arrays, all base case sizes of PLUQ.", "why_tests_cant": "Each step reuses the factor of the step before in place; only an argument on row and column spaces shows the rank never exceeds s. The test checks a few random matrices built with the right ranks.", "anchors": ["fflas-ffpack/ffpack/ffpack_sss.inl:358-535"]}
{"id": "C70", "title": "Random matrices have the properties asked for", "statement": "Whatever is drawn: RandomMatrixWithRankandRPM (and its symmetric and left triangular variants) gives a matrix whose leading i x j blocks all have as many independent rows as there are prescribed pivots in them, symmetric if the pivots are; RandomMatrixWithDet gives the determinant asked for; RandomSymmetricMatrix, nonsingular, is symmetric and invertible; RandomMatrixWithRank gives rank r.", "quantifier": "For all fields, dimensions, pivots, all values of the random iterator (nonzero where a nonzero one is asked for), all contents of fresh arrays.", "why_tests_cant": "The tests of every other routine take these generators as ground truth; a wrong generator silently narrows what they cover, and no test checks it for all draws.", "anchors": ["fflas-ffpack/utils/fflas_randommatrix.h:131-276", "fflas-ffpack/utils/fflas_randommatrix.h:743-834", "fflas-ffpack/utils/fflas_randommatrix.h:970-1049"]}
{"id": "C71", "title": "Random pivots and permutations are well formed", "statement": "RandomIndexSubset draws R different indices below N; RandomPermutation a permutation in LAPACK format; RandomSymmetricRankProfileMatrix returns, and then R pivots, at most one per row and column, closed under transposition.", "quantifier": "For all N, R <= N and all sequences of draws.", "why_tests_cant": "Termination depends on the sequence of draws; a run that loops for ever needs one particular sequence.", "anchors": ["fflas-ffpack/utils/fflas_randommatrix.h:183-394"]}
{"id": "C72", "title": "The packed int64 product is exact on 32-bit entries", "statement": "igemm (packing, block sizes, the six kernels, both storage orders, transposes) computes beta C + alpha op(A) op(B) in the window of C and touches nothing else, with no undefined scalar operation, when alpha is 0, 1 or -1, the entries of A and B fit in 32 signed bits and |beta C| + sum |a||b| < 2^63; without the bound the result is right modulo 2^64. The fgemv over ZRing<int64_t> built on it is exact under the same conditions, for any strides.", "quantifier": "For all dimensions, leading dimensions, block sizes mc, kc > 0, vector widths, contents of the packing blocks, entries and (if small) alpha.", "why_tests_cant": "Which kernel handles an entry depends on the dimensions modulo the vector width, and on the cache sizes of the machine the test runs on; entries near 2^31 and sums near 2^63 are not drawn by tests.", "anchors": ["fflas-ffpack/fflas/fflas_igemm/igemm.inl:36-180", "fflas-ffpack/fflas/fflas_igemm/igemm_kernels.inl:65-660", "fflas-ffpack/fflas/fflas_igemm/igemm_tools.inl:36-136", "fflas-ffpack/fflas/fflas_fgemv.inl:367-407"]}
{"id": "C73", "title": "The parallel PLUQ is a PLUQ factorisation", "statement": "pPLUQ returns valid transposition lists, the rank and packed factors with A = P^T L U Q, as the sequential PLUQ; tasks allowed to run together never write an entry another one uses; pRowRankProfile and pColumnRankProfile return the rank profiles.", "quantifier": "For all M, N, A over a field, both diagonal modes, all thresholds, all ranks of the blocks.", "why_tests_cant": "One-row and one-column blocks inside the recursion only appear for particular rank deficiencies of the leading quadrants; random matrices of generic profile never show the order of the other columns.", "anchors": ["fflas-ffpack/ffpack/ffpack_ppluq.inl:80-428", "fflas-ffpack/ffpack/ffpack_rankprofiles.inl:38-119"]}
{"id": "C74", "title": "Monotonic permutations move the lines the pivots name", "statement": "MonotonicApplyP permutes the rows (or columns) by the permutation whose R first values are those of the transposition list and whose other values increase (its inverse when transposed); it reads and writes only inside the window; it agrees with applyP when the list is itself monotonic after R.", "quantifier": "all element types, sides, transpositions, block sizes, widths, lengths, ranks R and transposition lists", "why_tests_cant": "The in-place shifting of non-pivot lines depends on the whole pattern of pivots; the routine is compiled in only under a macro.", "anchors": ["fflas-ffpack/ffpack/ffpack_permutation.inl:38-140", "fflas-ffpack/ffpack/ffpack_permutation.inl:259-292"]}
{"id": "C75", "title": "Parallel rank, determinant, solution and echelon forms answer as the sequential ones", "statement": "pRank, pDet and pSolve return the rank, the determinant and the solution; pRowEchelonForm, pColumnEchelonForm and their reduced versions return the rank and, through the accessors, an echelon form.", "quantifier": "all fields, sizes, matrices, thresholds, block sizes and tags", "why_tests_cant": "The parallel factorisation chooses pivots in another order on one-row and one-column blocks; the effect depends on the rank pattern of the blocks, which random matrices do not reach.", "anchors": ["fflas-ffpack/ffpack/ffpack.inl:42-208", "fflas-ffpack/ffpack/ffpack_echelonforms.inl:44-246", "fflas-ffpack/ffpack/ffpack_ppluq.inl:80-428"]}
{"id": "C76", "title": "The three monotonic compressions are interchangeable", "statement": "MonotonicCompressCycles and MonotonicCompressMorePivots apply the permutation they are given, and MonotonicApplyP built with either of them acts as applyP, like the default one, on lists increasing after the R first pivots.", "quantifier": "all element types, sizes, permutations, numbers of pivots, block sizes, sides and transpositions", "why_tests_cant": "The variant is chosen by a macro, so a test binary contains only one of them; the in-place walks are only exercised by permutations with several cycles crossing the pivot boundary.", "anchors": ["fflas-ffpack/ffpack/ffpack_permutation.inl:85-97", "fflas-ffpack/ffpack/ffpack_permutation.inl:143-218", "fflas-ffpack/ffpack/ffpack_permutation.inl:220-257"]}
{"id": "C77", "title": "faxpy and fscal on strided vectors", "statement": "faxpy replaces every entry of y by the representative of a x + y, and fscal by that of a x, and nothing else in memory changes, apart from buffers of their own, whichever of the vectorised, strided, copying and generic paths is taken.", "quantifier": "every field whose products fit the type, length, positive increments, alignment, vector width, scalar and pair of disjoint vectors", "why_tests_cant": "The path depends on the increments, the alignment of the address, the length against a threshold, the value of the scalar and the category of the field; tests take a few of these combinations.", "anchors": ["fflas-ffpack/fflas/fflas_faxpy.inl:46-249", "fflas-ffpack/fflas/fflas_fscal.inl:43-387", "fflas-ffpack/fflas/fflas_fadd.h:75-105"]}
{"id": "C78", "title": "Parallel matrix additions are schedule independent", "statement": "pfadd, pfsub, pfaddin and pfsubin leave in C the entrywise sum or difference of the old operands and change nothing else, for every order in which their tasks may be executed, also when an operand is C itself.", "quantifier": "every ring, dimensions, leading dimensions of at least N, contents, number of threads, every admissible task interleaving", "why_tests_cant": "A row lost or shared between two blocks only shows for some sizes, thread counts and interleavings.", "anchors": ["fflas-ffpack/fflas/fflas_fadd.h:pfadd", "fflas-ffpack/fflas/fflas_fadd.h:pfsub", "fflas-ffpack/fflas/fflas_fadd.h:pfaddin", "fflas-ffpack/fflas/fflas_fadd.h:pfsubin"]}
