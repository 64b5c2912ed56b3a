{
 "claims": [
  {
   "property": "C01",
   "status": "proved",
   "theorems": [
    "C01_roundtrip",
    "C01_matrix",
    "C01_orthogonal",
    "C01_frame",
    "C01_tasks"
   ],
   "note": "All sizes, ranges, block sizes, sides; frame and task order included."
  },
  {
   "property": "C02",
   "status": "proved",
   "theorems": [
    "C02_list_to_perm",
    "C02_perm_to_list",
    "C02_apply"
   ],
   "note": ""
  },
  {
   "property": "C03",
   "status": "proved",
   "theorems": [
    "C03_MLM",
    "C03_LLM",
    "C03_LLL"
   ],
   "note": ""
  },
  {
   "property": "C04",
   "status": "proved",
   "theorems": [
    "C04_split1d_exact"
   ],
   "note": ""
  },
  {
   "property": "C05",
   "status": "partial",
   "theorems": [
    "C05_split2d_threads_partial",
    "C05_split2d_disjoint",
    "C05_split2d_exact_iff",
    "C05_split2d_fixed_refuted",
    "C05_split2d_grain_refuted"
   ],
   "note": "false for Fixed/Grain"
  },
  {
   "property": "C06",
   "status": "proved",
   "theorems": [
    "C06_fdot_exact"
   ],
   "note": "All lengths, representations, mantissa sizes and summation orders; storage rounding modelled as round-to-nearest-even."
  },
  {
   "property": "C07",
   "status": "partial",
   "theorems": [
    "C07_fgemm_exact_partial",
    "C07_headroom_beta",
    "C07_fgemm_beta0_refuted"
   ],
   "note": "Exact under a head-room condition, always true for beta<>0. Without it the claim is false of the code: witness for ModularBalanced<float> mod 2273."
  },
  {
   "property": "C08",
   "status": "partial",
   "theorems": [
    "C08_fgemv_exact_partial",
    "C08_fgemv_M0_refuted",
    "C08_fgemv_beta0_refuted"
   ],
   "note": "Exact for M<>0 under the same head-room condition; both exceptions refuted by witnesses."
  },
  {
   "property": "C09",
   "status": "proved",
   "theorems": [
    "C09_out_bounds_sound",
    "C09_out_bounds_zero",
    "C09_pre_add_sound",
    "C09_pre_sub_sound",
    "C09_double_pre_add_sound",
    "C09_out_bounds_nonzero_refuted"
   ],
   "note": "For intervals containing 0 (every interval the library builds); C09_out_bounds_nonzero_refuted shows the hypothesis is needed."
  },
  {
   "property": "C10",
   "status": "proved",
   "theorems": [
    "C10_Winograd"
   ],
   "note": "over every commutative ring; Winograd and the sequential order of WinoPar; reductions between steps not modelled"
  },
  {
   "property": "C11",
   "status": "proved",
   "theorems": [
    "C11_WinogradAcc"
   ],
   "note": "over every commutative ring; four accumulating schedules"
  },
  {
   "property": "C12",
   "status": "proved",
   "theorems": [
    "C12_fgemm_winograd"
   ],
   "note": "over every commutative ring; WINOTHRESHOLD at least 2"
  },
  {
   "property": "C13",
   "status": "partial",
   "theorems": [
    "C13_ftrsm",
    "C13_invertible",
    "C13_ftrsm_delayed_partial",
    "C13_ftrsm_delayed_trans_refuted"
   ],
   "note": "Generic path proved for the 16 variants. The float/double path is proved equal to it except for transposed non-unit systems, where it is refuted (base case normalises and copies the wrong triangle, reads uninitialised memory). CBLAS base solve taken as the exact recursive solve."
  },
  {
   "property": "C14",
   "status": "partial",
   "theorems": [
    "C14_ftrsm_split_refuted",
    "C14_split_positive_iff",
    "C14_ftrsm_exact_partial"
   ],
   "note": "False as stated: in a band of primes near the top of each representation nsplit is 0 and every non-empty solve divides by zero (refuted for float/double, positive/balanced); the band is characterised exactly. Outside it the delayed solve is exact for every size and summation order. Missing: updates large enough for the Winograd recursion."
  },
  {
   "property": "C15",
   "status": "partial",
   "theorems": [
    "C15_ftrmm",
    "C15_ftrmm_blocked",
    "C15_ftrmm3_partial",
    "C15_ftrmm3_blocked_partial",
    "C15_beta0_refuted",
    "C15_alpha0_refuted"
   ],
   "note": "In-place form proved for both paths. Three-operand form proved for non-zero scalars (and beta = 0 on the float path); refuted for beta = 0 on generic fields and for alpha = 0."
  },
  {
   "property": "C16",
   "status": "proved",
   "theorems": [
    "C16_ftrtri",
    "C16_ftrtrm"
   ],
   "note": "ftrtri and ftrtrm, any positive threshold."
  },
  {
   "property": "C17",
   "status": "proved",
   "theorems": [
    "C17_PLUQ",
    "C17_crout"
   ],
   "note": "recursive _PLUQ and Crout base case, every threshold; generic fields, sequential"
  },
  {
   "property": "C18",
   "status": "proved",
   "theorems": [
    "C18_rank",
    "C18_crout_rank",
    "C18_Rank"
   ],
   "note": "PLUQ, the Crout base case and FFPACK::Rank"
  },
  {
   "property": "C19",
   "status": "proved",
   "theorems": [
    "C19_rank_profile",
    "C19_crout",
    "C19_ordered"
   ],
   "note": "every leading sub-matrix, every threshold"
  },
  {
   "property": "C20",
   "status": "proved",
   "theorems": [
    "C20_row_profile_tile",
    "C20_col_profile_tile",
    "C20_leading_profiles",
    "C20_row_profile_slab",
    "C20_col_profile_slab"
   ],
   "note": "Tile and Slab tags (LUdivine), LeadingSubmatrixRankProfiles"
  },
  {
   "property": "C21",
   "status": "partial",
   "theorems": [
    "C21_row_indices",
    "C21_row_submatrix",
    "C21_col_indices_partial",
    "C21_col_indices_wide_oob",
    "C21_col_indices_refuted"
   ],
   "note": "row version proved; column version proved for square matrices, shown to write out of bounds for every M < N and to read uninitialised memory for some M > N"
  },
  {
   "property": "C22",
   "status": "proved",
   "theorems": [
    "C22_Det"
   ],
   "note": "sequential Det"
  },
  {
   "property": "C23",
   "status": "proved",
   "theorems": [
    "C23_Solve"
   ],
   "note": "x untouched when A is singular"
  },
  {
   "property": "C24",
   "status": "proved",
   "theorems": [
    "C24_NullSpaceBasis"
   ],
   "note": "both sides"
  },
  {
   "property": "C25",
   "status": "partial",
   "theorems": [
    "C25_right_partial",
    "C25_left_partial",
    "C25_stride_refuted",
    "C25_stride_left_refuted"
   ],
   "note": "true for incX = 1 (with surjectivity onto the kernel); false for incX > 1: the final applyP ignores the increment"
  },
  {
   "property": "C26",
   "status": "proved",
   "theorems": [
    "C26_fgetrs_inplace",
    "C26_fgetrs",
    "C26_fgesv",
    "C26_fgesv_inplace"
   ],
   "note": "fgetrs and fgesv, in place and out of place, both sides"
  },
  {
   "property": "C27",
   "status": "partial",
   "theorems": [
    "C27_row",
    "C27_col",
    "C27_reduced_row",
    "C27_reduced_col",
    "C27_gauss_jordan",
    "C27_gauss_jordan_form",
    "C27_gauss_jordan_slab_form_refuted"
   ],
   "note": "RowEchelonForm, ColumnEchelonForm, ReducedRowEchelonForm, ReducedColumnEchelonForm and every accessor, with FfpackSlabRecursive and FfpackTileRecursive, and ReducedRowEchelonForm with the two GaussJordan tags for every positive base case size: rank, (reduced) echelon form, invertible transformation, for all sizes. With FfpackGaussJordanSlab and transform = false the form is not in echelon order (refuted on a 2 x 2 matrix). The parallel overloads are in C75."
  },
  {
   "property": "C28",
   "status": "partial",
   "theorems": [
    "C28_Invert2",
    "C28_Invert_partial",
    "C28_Invert_refuted"
   ],
   "note": "Invert2 is proved. Invert: for every M and every positive base case size of the Gauss-Jordan elimination the nullity is right, but the result is the inverse with its rows permuted, since the column permutation is never applied; C28_Invert_refuted gives a 2 x 2 witness."
  },
  {
   "property": "C29",
   "status": "partial",
   "theorems": [
    "C29_reduce_refuted",
    "C29_modp_partial"
   ],
   "note": "Scalar path without fused multiply-add is wrong within p of 2^prec (refuted); otherwise proved for all lengths, alignments, widths and representations"
  },
  {
   "property": "C30",
   "status": "proved",
   "theorems": [
    "C30_int64_reduce"
   ],
   "note": "Scalar and SIMD paths, all int64 values, p < 2^33, no intermediate overflow"
  },
  {
   "property": "C31",
   "status": "partial",
   "theorems": [
    "C31_sub2_refuted",
    "C31_balanced_refuted",
    "C31_maxpy_refuted",
    "C31_addsub_partial",
    "C31_mul_axpy"
   ],
   "note": "Two-argument sub, balanced add/sub and maxpy refuted; positive add and three-argument sub, mul and axpy proved"
  },
  {
   "property": "C32",
   "status": "proved",
   "theorems": [
    "C32_fadd_fsub_vectorised"
   ],
   "note": "All lengths, alignments, vector widths, float and integer lanes, both representations, in place or disjoint"
  },
  {
   "property": "C33",
   "status": "proved",
   "theorems": [
    "C33_csr",
    "C33_no_row_refuted"
   ],
   "note": "CSR: exact for every row length and for both dispatch tags; a matrix with no row is outside the statement (refuted separately)."
  },
  {
   "property": "C34",
   "status": "partial",
   "theorems": [
    "C34_generic",
    "C34_formats_agree",
    "C34_modular_partial",
    "C34_coo_unreduced_refuted",
    "C34_coo_refuted",
    "C34_hyb_refuted",
    "C34_ell_empty_refuted"
   ],
   "note": "Generic fields: all four formats agree. Delayed products: COO for rows shorter than kmax, HYB_ZO below its overflow bound; beyond these refuted."
  },
  {
   "property": "C35",
   "status": "partial",
   "theorems": [
    "C35_generic",
    "C35_modular_partial",
    "C35_block_generic",
    "C35_constant_refuted",
    "C35_long_row_refuted",
    "C35_ell_padding_refuted",
    "C35_block_window_refuted"
   ],
   "note": "Proved for constants 1 and -1, with a bound on the row length in the delayed case; other constants, long rows, ELL padding, block reduction refuted."
  },
  {
   "property": "C36",
   "status": "partial",
   "theorems": [
    "C36_partial",
    "C36_refuted"
   ],
   "note": "Proved for beta 0 or 1, or one row, or ldy = 1; refuted for other beta."
  },
  {
   "property": "C37",
   "status": "partial",
   "theorems": [
    "C37_maxrow_is_shortest",
    "C37_delayed_refuted",
    "C37_perm_partial",
    "C37_sort_permutes",
    "C37_sigma_refuted",
    "C37_row_order_refuted",
    "C37_chunk_refuted"
   ],
   "note": "maxrow is the shortest row, not the longest: delayed products refuted. Permutation bijective for the default sigma; other sigma refuted."
  },
  {
   "property": "C38",
   "status": "proved",
   "theorems": [
    "C38_init",
    "C38_convert",
    "C38_unique",
    "C38_round_trip",
    "C38_basis",
    "C38_tail",
    "C38_extended_init",
    "C38_extended_convert",
    "C38_repeated_prime_refuted",
    "C38_repeated_prime_any",
    "C38_major_scalar_refuted",
    "C38_extended_negative_refuted"
   ],
   "note": "Both conversions and the round trip, all summation orders and reductions; basis construction. Refuted: repeated primes with the (pbits,size) constructor, RNS-major reduction without SSE 4.1, negative integers with rns_double_extended."
  },
  {
   "property": "C39",
   "status": "proved",
   "theorems": [
    "C39_ftranspose"
   ],
   "note": "All three modes, any shape, leading dimensions, vector length and block size multiple of it; frame condition included; the register transposition inside a block is C53."
  },
  {
   "property": "C40",
   "status": "partial",
   "theorems": [
    "C40_freivalds_partial",
    "C40_freivalds_refuted"
   ],
   "note": "false for k = 0 transposed (refuted); proved in all other cases"
  },
  {
   "property": "C41",
   "status": "proved",
   "theorems": [
    "C41_fgemm",
    "C41_ftrsm",
    "C41_invert",
    "C41_PLUQ"
   ],
   "note": "fgemm, ftrsm, invert and PLUQ checkers"
  },
  {
   "property": "C42",
   "status": "partial",
   "theorems": [
    "C42_block",
    "C42_2d_adaptive",
    "C42_2d",
    "C42_3d_inplace",
    "C42_3d",
    "C42_3d_adaptive_partial",
    "C42_3d_adaptive_refuted"
   ],
   "note": "Every schedule of the block, 2D, 2D-adaptive, 3D and 3D-in-place variants gives the product and changes nothing else, over any ring, for all sizes and thread counts. The 3D-adaptive variant is refuted (temporary added with swapped dimensions) and proved when every k-split is square. The leaves are entry-wise products; helper objects shared between tasks are not part of the memory."
  },
  {
   "property": "C43",
   "status": "proved",
   "theorems": [
    "C43_mulhi_64",
    "C43_mulhi_u64",
    "C43_mulhi_fast"
   ],
   "note": "Portable code path; also a bound for mulhi_fast_64"
  },
  {
   "property": "C44",
   "status": "proved",
   "theorems": [
    "C44_ftrsv"
   ],
   "note": "Vectors by logical entries."
  },
  {
   "property": "C45",
   "status": "proved",
   "theorems": [
    "C45_fger"
   ],
   "note": "Vectors by logical entries; generic element path."
  },
  {
   "property": "C46",
   "status": "partial",
   "theorems": [
    "C46_default",
    "C46_divide",
    "C46_fsyrk_partial",
    "C46_delayed_partial",
    "C46_convert_partial",
    "C46_delayed_exact_partial",
    "C46_delayed_frame_partial",
    "C46_empty_refuted",
    "C46_delayed_refuted",
    "C46_convert_refuted",
    "C46_delayed_unreduced_refuted",
    "C46_delayed_empty_refuted"
   ],
   "note": "The requested triangle is always right (field level, every mode; delayed reductions over rounded integers with headroom). The opposite triangle is proved untouched for the default and divide-and-conquer routines, and otherwise only for K > 0 and alpha = +-1; refuted beyond."
  },
  {
   "property": "C47",
   "status": "proved",
   "theorems": [
    "C47_LUdivine",
    "C47_rank"
   ],
   "note": ""
  },
  {
   "property": "C48",
   "status": "proved",
   "theorems": [
    "C48_IsSingular"
   ],
   "note": "default cutoff 1 (LUdivine_small ignores trans and is not modelled)"
  },
  {
   "property": "C49",
   "status": "partial",
   "theorems": [
    "C49_inverse_minor_refuted"
   ],
   "note": "false of the code: U is copied into the result before the solve"
  },
  {
   "property": "C50",
   "status": "partial",
   "theorems": [
    "C50_WinogradAcc_in_place",
    "C50_Winograd_in_place_partial",
    "C50_Winograd_in_place_refuted"
   ],
   "note": "the accumulating in-place schedules are right under their checks; the others only on square blocks, refuted on what they check"
  },
  {
   "property": "C51",
   "status": "partial",
   "theorems": [
    "C51_Det_complete",
    "C51_Det_sound",
    "C51_charpoly_partial",
    "C51_charpoly_refuted"
   ],
   "note": "charpoly checker false for n = 0 (refuted)"
  },
  {
   "property": "C52",
   "status": "partial",
   "theorems": [
    "C52_fsub_strided_refuted",
    "C52_generic_partial"
   ],
   "note": "fsub with a stride different from one is refuted; fadd with any strides and contiguous fsub proved"
  },
  {
   "property": "C53",
   "status": "partial",
   "theorems": [
    "C53_unpack",
    "C53_pack",
    "C53_transpose",
    "C53_blend",
    "C53_shuffle_128_64",
    "C53_shuffle_partial",
    "C53_shuffle_refuted",
    "C53_blend_comment_refuted"
   ],
   "note": "unpack, pack, transpose, blend proved for every type and code path; shuffle<s> on 16-bit (and 256-bit int32) elements refuted, characterised exactly by the partial theorem; the comment of blend refuted."
  },
  {
   "property": "C54",
   "status": "partial",
   "theorems": [
    "C54_sra64",
    "C54_compare_unsigned",
    "C54_compare_signed",
    "C54_mulx",
    "C54_mulhi32",
    "C54_mullo64_partial",
    "C54_mul_u64_refuted",
    "C54_mulhi_fast_partial",
    "C54_mulhi_fast_refuted"
   ],
   "note": "sra, comparisons, mulx, 32-bit mulhi proved; 64-bit mul is undefined on signed overflow (exact characterisation), refuted for uint64; mulhi_fast refuted."
  },
  {
   "property": "C55",
   "status": "partial",
   "theorems": [
    "C55_diagonal",
    "C55_blocks_partial",
    "C55_few_columns_refuted",
    "C55_threshold1_refuted",
    "C55_other_triangle_refuted"
   ],
   "note": "Diagonal version: full. Two-blocks version: threshold >= 2 and K >= N/2 (or N <= threshold); out-of-bounds access and non-termination refuted beyond. The opposite triangle is overwritten."
  },
  {
   "property": "C56",
   "status": "partial",
   "theorems": [
    "C56_fsyr2k_partial",
    "C56_ftrstr",
    "C56_ftrssyr2k_partial",
    "C56_fsyr2k_empty_refuted",
    "C56_fsyr2k_other_overwritten",
    "C56_ftrssyr2k_lower_refuted"
   ],
   "note": "ftrstr: full. fsyr2k for K > 0; ftrssyr2k in odd characteristic for the equation it solves; the rest refuted."
  },
  {
   "property": "C57",
   "status": "proved",
   "theorems": [
    "C57_fsytrf",
    "C57_other_triangle_refuted",
    "C57_stride_refuted",
    "C57_threshold0_refuted"
   ],
   "note": "Every positive threshold, both base cases, both triangles. Stride other than 1 and zero threshold of the inner routine, and the opposite triangle, are refuted separately."
  },
  {
   "property": "C58",
   "status": "partial",
   "theorems": [
    "C58_fgemm_integer_partial",
    "C58_fgemm_modinteger_partial",
    "C58_zero_operand_refuted"
   ],
   "note": "Exact when the conversions stay within the mantissa. Refuted: a zero operand leaves C unscaled."
  },
  {
   "property": "C59",
   "status": "partial",
   "theorems": [
    "C59_reduce_modp_partial",
    "C59_init_truncates_refuted",
    "C59_areEqual_refuted"
   ],
   "note": "reduce_modp with a full rounding analysis of the quotient. Refuted: init of integers longer than p, areEqual on congruent elements."
  },
  {
   "property": "C60",
   "status": "partial",
   "theorems": [
    "C60_pfgemv_row",
    "C60_pfgemv_recursive_notrans",
    "C60_pfgemv_recursive_trans_refuted",
    "C60_pfgemv_nothread_refuted",
    "C60_pfdot_threads",
    "C60_pfdot_fixed_refuted",
    "C60_pfzero",
    "C60_pfzero_refuted",
    "C60_pftrsm_iterative",
    "C60_pftrsm_hybrid",
    "C60_pftrsm_hybrid_empty_refuted",
    "C60_pftrsm_right_iterative",
    "C60_pftrsm_right_hybrid",
    "C60_pftrsm_right_threads",
    "C60_pftrsm_right_hybrid_empty_refuted",
    "C60_pftrsm_left_any",
    "C60_pftrsm_right_any"
   ],
   "note": "Row pfgemv, non-transposed recursive pfgemv, fdot with the Threads parameter, pfzero when the blocks cover, iterative and hybrid ftrsm (left lower unit and right upper unit; any shape whose tasks keep to their own columns or rows) are proved for every schedule; transposed recursive pfgemv, fdot with fixed blocks, pfzero in general, hybrid ftrsm with an empty right-hand side and pfgemv with no thread are refuted. pfrand is missing."
  },
  {
   "property": "C61",
   "status": "partial",
   "theorems": [
    "C61_strassen",
    "C61_driver_partial",
    "C61_delayed_partial",
    "C61_two_squares",
    "C61_bases",
    "C61_small_refuted",
    "C61_other_triangle_refuted"
   ],
   "note": "Proved for both schedules, the peeling driver and the delayed driver, over any field with x^2+y^2=-1 (which every finite field has), any classical routine at the leaves. Missing because false: beta nonzero with N < 2^(recLevel+1) (out-of-bounds access) and the opposite triangle (used as workspace); both refuted. Delayed intervals of this file not modelled."
  },
  {
   "property": "C62",
   "status": "proved",
   "theorems": [
    "C62_MatVecMinPoly",
    "C62_ideal"
   ],
   "note": "All fields, orders, vectors, contents of K and P. FfpackDense branch of LUdivine_construct."
  },
  {
   "property": "C63",
   "status": "proved",
   "theorems": [
    "C63_Danilevski",
    "C63_LUKrylov",
    "C63_CharPoly",
    "C63_CharPoly_defined"
   ],
   "note": "Danilevski and LUKrylov for all matrices; CharPoly whenever it calls one of them (C63_CharPoly_defined says when it does not: ArithProg is not modelled). Product of polynomials is a convolution. Vectors drawn are nonzero, as NonZeroRandomMatrix guarantees."
  },
  {
   "property": "C64",
   "status": "partial",
   "theorems": [
    "C64_MinPoly_partial",
    "C64_MinPoly_refuted"
   ],
   "note": "Refuted for a vector without component on an eigenspace; what is computed divides the minimal polynomial."
  },
  {
   "property": "C65",
   "status": "partial",
   "theorems": [
    "C65_Det_partial",
    "C65_Det_exact_partial",
    "C65_Det_empty",
    "C65_Det_reused_refuted",
    "C65_Det_sign_refuted",
    "C65_CharPoly_partial",
    "C65_CharPoly_reused_refuted"
   ],
   "note": "Exact description of the value returned; equal to the determinant (characteristic polynomial) when twice its size is below the product of the moduli and the result variable was zero; refuted otherwise. Missing: words beyond the mantissa, ArithProg."
  },
  {
   "property": "C66",
   "status": "partial",
   "theorems": [
    "C66_LTBruhatGen",
    "C66_getLTBruhatGen_partial",
    "C66_rank",
    "C66_LTQSorder",
    "C66_LTBruhatGen_zero",
    "C66_getLTBruhatGen_refuted"
   ],
   "note": "Proved for every N >= 1; the extraction of L and U for leading dimension N, refuted for others. Order 0 does not terminate."
  },
  {
   "property": "C67",
   "status": "partial",
   "theorems": [
    "C67_Bruhat2Echelon",
    "C67_roundtrip_partial",
    "C67_pipeline",
    "C67_lda_refuted",
    "C67_lda_bounds_refuted",
    "C67_empty_refuted"
   ],
   "note": "Round trip for leading dimension N and at least one pivot, for both factors, from LTBruhatGen on; refuted for another leading dimension (wrong entries, or accesses outside of the copy) and for no pivot. The lower branch is modelled as the upper one on transposed arrays."
  },
  {
   "property": "C68",
   "status": "partial",
   "theorems": [
    "C68_productSSSxTS_partial",
    "C68_SSSToDense",
    "C68_small_refuted",
    "C68_empty_refuted"
   ],
   "note": "Proved for s <= N (product) and 0 < N (dense); refuted for 0 < N < s and N = 0, where the code leaves its arrays."
  },
  {
   "property": "C69",
   "status": "proved",
   "theorems": [
    "C69_DenseToSSS_defined",
    "C69_DenseToSSS_entry",
    "C69_roundtrip",
    "C69_product"
   ],
   "note": ""
  },
  {
   "property": "C70",
   "status": "partial",
   "theorems": [
    "C70_given_rpm",
    "C70_random_rpm",
    "C70_symmetric_rpm",
    "C70_det",
    "C70_symmetric",
    "C70_ltqs_partial",
    "C70_with_rank_full",
    "C70_with_rank_refuted",
    "C70_triangular_frame_refuted",
    "C70_symmetric_refuted",
    "C70_det_empty_refuted"
   ],
   "note": "For all draws: rank profile matrix (given, random, symmetric, left triangular), determinant, symmetric nonsingular. The draw of left triangular pivots is not modelled. Refuted: RandomMatrixWithRank ignores r, Lower with m > n writes outside, symmetric with zero pivots, determinant with n = 0."
  },
  {
   "property": "C71",
   "status": "partial",
   "theorems": [
    "C71_subset",
    "C71_permutation",
    "C71_symmetric_pivots",
    "C71_symmetric_terminates_partial",
    "C71_symmetric_terminates_refuted"
   ],
   "note": "Subset, permutation and symmetric pivots for all draws; termination for R even or R = N; refuted in general (four draws that make it loop for ever)."
  },
  {
   "property": "C72",
   "status": "partial",
   "theorems": [
    "igemm_exact",
    "igemm_mod64",
    "igemm_alpha_partial",
    "igemm_alpha_refuted",
    "igemm_range_refuted",
    "fgemv_int64_exact",
    "fgemv_int64_scalar_refuted",
    "fgemm_int64_scalar_ok",
    "BlockingFactor_pos",
    "BlockingFactor_refuted"
   ],
   "note": "Proved for alpha 0, 1, -1 and 32-bit entries, all dimensions, block sizes and vector widths; for other alpha only when alpha, alpha B and the sums fit in 32 bits (false beyond, witness). Refuted: entries beyond 32 bits, a first cache of size 0, the scalar fgemv. Overflow of the scalar loops outside igemm is not modelled."
  },
  {
   "property": "C73",
   "status": "partial",
   "theorems": [
    "C73_pPLUQ",
    "C73_rank",
    "C73_tasks_apart",
    "C73_profile_refuted",
    "C73_threshold_refuted"
   ],
   "note": "Factorisation and rank proved for all inputs, and that tasks of a group use disjoint regions. The rank profiles are refuted, by a concrete matrix and for every field and threshold from 4 on: one-row blocks exchange columns instead of rotating them. The tasks are run in the order of the text; that any other order gives the same matrix follows from the disjoint regions but is not stated on the model; the parallel applyP is not modelled."
  },
  {
   "property": "C74",
   "status": "partial",
   "theorems": [
    "C74_monotonic",
    "C74_unique",
    "C74_applyP",
    "C74_ibeg_refuted"
   ],
   "note": "MonotonicApplyP with MonotonicCompress and MonotonicExpand (the default): proved for all inputs, with agreement with applyP on monotonic lists; with ibeg > 0 it does not act as applyP (refuted). The other variants are C76."
  },
  {
   "property": "C75",
   "status": "partial",
   "theorems": [
    "C75_pRank",
    "C75_pDet",
    "C75_pSolve",
    "C75_slab",
    "C75_gauss_jordan",
    "C75_echelon_rank",
    "C75_row",
    "C75_row_alone",
    "C75_reduced_row",
    "C75_reduced_row_alone",
    "C75_col",
    "C75_col_alone",
    "C75_reduced_col",
    "C75_reduced_col_alone",
    "C75_row_form_refuted",
    "C75_reduced_row_form_refuted",
    "C75_col_form_refuted",
    "C75_reduced_col_form_refuted"
   ],
   "note": "pRank, pDet, pSolve proved; the slab and Gauss-Jordan parallel echelon forms are the sequential ones (C27); for the tile ones T A = E with T invertible, the rank and pivots further and further right (identity columns for the reduced forms) are proved with and without transformation, but, refuted on a 6 x 7 matrix with PLUQ threshold 4, entries left of the pivots need not be zero. Missing: task orders other than that of the program text."
  },
  {
   "property": "C76",
   "status": "proved",
   "theorems": [
    "C76_cycles",
    "C76_more_pivots",
    "C76_applyP",
    "C76_PLUQ",
    "C76_macro_refuted",
    "C76_fixed_refuted"
   ],
   "note": "Both compressions, for every permutation; MonotonicApplyP with either macro is applyP on lists increasing after R, in particular on the lists of PLUQ, so MONOTONIC_APPLYP does not change PLUQ. On other lists the macro changes the result (witnesses)."
  },
  {
   "property": "C77",
   "status": "partial",
   "theorems": [
    "C77_faxpy_floating",
    "C77_faxpy_int64",
    "C77_faxpy_matrix",
    "C77_faxpy_generic_partial",
    "C77_faxpy_generic_refuted",
    "C77_faxpy_broadcast_refuted",
    "C77_fscal_floating",
    "C77_fscal_domain_partial",
    "C77_fscal_domain_refuted"
   ],
   "note": "faxpy over prime fields in float, double (vectors and matrices) and int64_t (vectors) and fscal over those in float and double are proved for all paths; faxpy over the other categories is proved except for a = -1 with an increment, where it is refuted; incX = 0 is refuted; fscal over DoubleDomain is proved for equal increments and refuted otherwise."
  },
  {
   "property": "C78",
   "status": "proved",
   "theorems": [
    "C78_pfadd",
    "C78_pfsub",
    "C78_pfaddin",
    "C78_pfsubin"
   ],
   "note": "The four operations for any ring, sizes and thread count, every schedule; operands equal to C or stored apart. The sequential kernel of one row is modelled entry by entry (its vectorised form is C32)."
  }
 ]
}
