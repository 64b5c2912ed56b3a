# Formal model of FFLAS-FFPACK: design

The model is written in Rocq (Coq 8.16.1) under `rocq/theories`.  Nothing from
`/repo` is compiled or run; every model definition cites the file and lines it
transcribes, and says so where it simplifies.

## Conventions

* **Field-level model.**  Dense linear algebra is modelled over an arbitrary
  mathcomp `fieldType` (or `ringType`/`comRingType`).  This is what a user
  sees when the element type is a field whose operations are exact.
* **Representation-level model.**  Delayed reductions, floating-point storage
  and machine words are modelled over `Z`.  A floating-point value is an
  integer, `rnd prec z` is round-to-nearest-even of `z` to `prec` significant
  bits, and a sum computed by the BLAS may be associated in any order (every
  order is a parenthesisation tree; each node rounds).  Exactness is a theorem
  about these, not an assumption.
* **Memory.**  Dense storage is a function `nat -> nat -> F` (row, column)
  addressed through windows, or a flat `nat -> F` with explicit strides where
  the property is about strides, leading dimensions or overlap.  Specifications
  are stated on windows; frame conditions say what is not written.
* **Undefined behaviour** (division by zero, out-of-bounds index, reading an
  uninitialised cell) is a distinct outcome (`None`/`UB`) in the models of the
  properties which are about it.
* **Order of files.**  `*_model.v` transcribes code, `*_spec.v` (or a `Spec`
  section) states the property in terms of textbook notions,
  `*_proofs.v` contains proofs, `*_props.v` contains only the final theorems
  (each closed by `exact`), followed by `Print Assumptions`, and Examples
  showing that a concrete non-trivial case meets the hypotheses.
* A property which is false of the faithful model gets a `..._refuted`
  theorem with a concrete witness, and a `..._partial` theorem with the extra
  hypothesis under which it is true.

## Per-property plan

| id | modelled code | how it is proved |
|----|---------------|------------------|
| C01 | `applyP`, `applyP_block`: loops of exchanges on a grid, block loop over columns | each exchange is an involution; list reversal; block loop = full loop since exchanges on different columns commute |
| C02 | `LAPACKPerm2MathPerm`, `MathPerm2LAPACKPerm` as loops over list/function arrays | loop invariant: composition of the first i transpositions |
| C03 | `composePermutations{LLL,LLM,MLM}` | loop invariants over C02 |
| C04 | `ForStrategy1D` constructor/iteration | arithmetic on quotient/remainder, induction on the number of blocks |
| C05 | `ForStrategy2D`, `BlockCuts` | idem for the Threads strategies; refutation for Fixed/Grain |
| C06 | `fdot` delayed, bounds | invariant: accumulated magnitude <= 2^prec, any summation tree |
| C07 | `fgemm` classic lazy + `MaxDelayedDim` | idem; refuted for beta = 0; partial with the missing head-room |
| C08 | `fgemv` | idem; refuted for M = 0 transposed |
| C09 | `setOutBounds` | case analysis on signs, interval arithmetic |
| C10, C11, C50 | the Winograd schedules as data (lists of instructions on quadrants and flat temporaries with their leading dimensions and allocated sizes) run by an interpreter | abstract execution: an invariant says what each live buffer holds as a function of the inputs; every overwritten buffer is dropped; final ring identities by `ring` on block products; over every commutative ring |
| C12 | recursive driver with peeling, `WinogradSteps` | strong induction on the fuel; block splits of the sum; needs WINOTHRESHOLD >= 2 (0 and 1 loop for ever) |
| C13 | `ftrsm` recursion | strong induction on the size, all variants |
| C14 | `TRSMBound`, `DotProdBoundClassic`, `delayed`, `operator()` on one column with rounding | refutation on a band of primes (division by zero), the band characterised by an iff; otherwise exact for every summation order: separate bounds on the positive and negative terms, closed form of the growth of a unit triangular solve |
| C15, C16 | `ftrmm`, `ftrtri` | strong induction |
| C17-C19 | `_PLUQ`, `PLUQ_basecaseCrout` | invariant: entry law + order law, see below |
| C20-C22 | rank profiles, `Rank`, `Det` | from C17-C19 |
| C23-C26 | drivers | from the above |
| C27 | echelon forms, accessors | invariant `elim`: (T P) A Q = E with T identity beyond column R and E R x R invertible; the slab case first compresses U; column routines are row routines on the transpose; Gauss-Jordan: invariant `slice` for a column slice starting at a given row (the rows above are reduced too), one lemma for the base case and one joining two slices |
| C28 | `Invert`, `Invert2` | from C27 and C47; refuted for `Invert` |
| C29, C30 | `reduce`, `modp` with the rounded inverse | rounding is monotone with respect to representable numbers, so the quotient is off by at most one; refuted without fused multiply-add close to 2^prec |
| C31 | `FieldSimd` | lane-wise; refuted for two-argument `sub`, balanced `add`/`sub`, `maxpy` |
| C32, C52 | `addp`, `subp` loops on a flat memory; generic strided `fadd` | loop invariant on prologue, vector body, epilogue; `fsub` refuted for strides other than one |
| C33 | CSR `sparse_init`, all `fspmv` kernels, delayed by blocks of kmax | invariant per row on the sorted triplets; congruence and exactness bound per block |
| C34 | COO, ELL, HYB_ZO beside CSR | each is equal to the same row sums, uniqueness of the representative gives agreement; COO and HYB_ZO without intermediate reduction: bound as a hypothesis, refuted beyond |
| C35 | CSR_ZO `fspmv_one/mone`, `fspmm_one/mone`, ELL_ZO | as C33 with constant 1 or -1; constants, long rows, padding and the swapped block reduction refuted |
| C36 | `fspmm` on a flat memory with leading dimensions | writes confined to a window; refuted for a general beta |
| C37 | SELL `sparse_init` and its kernels | minimum of the row lengths; permutation by bijectivity of the sort; refutations |
| C38 | RNS init/convert, basis construction, rns_double_extended | the dot products with 16-bit words are exact under the mantissa bound, then CRT; the basis loop keeps pairwise coprimality as an invariant |
| C39 | `ftranspose` on one flat memory with explicit addresses, the three modes | loop invariants on the set of cells already written; blocks (ib, jb) with jb >= ib own disjoint cells |
| C53 | register shuffles of the SIMD wrappers as functions of the lane number | case analysis on the lane number, for all contents |
| C54 | integer SIMD operations emulated with others | arithmetic modulo 2^w, any width where the code is uniform in it; refuted for `mulhi_fast` and 64-bit `mullo` |
| C40, C41, C51 | Freivalds and the fgemm, ftrsm, PLUQ, invert, Det, charpoly checkers; draws are arguments, uninitialised buffers are arguments | acceptance is shown equal to `D v = 0` (`w D u = 0`, equality of two polynomials at a point); counting by an injection (kernel x F -> vectors) and by the number of roots |
| C42 | the parallel fgemm variants as programs of loads and stores on a shared memory, with all interleavings | a program whose parallel parts are independent (disjoint writes, no read of the other's writes) ends like its sequential run in every schedule; windows by induction on the recursion; ThreeDAdaptive refuted unless m = n at each k-split |
| C60 | pfgemv, parallel fdot, pfzero, iterative and hybrid ftrsm on both sides (Partr files for the right one), on the same memory | as C42, with the coverage theorems of C04 and C05 for the blocks |
| C43 | mulhi, portable path; signed overflow is `None` | splitting in 32-bit halves |
| C44, C45 | ftrsv, fger | induction |
| C46, C55 | `fsyrk`: default, delayed (also over the integers with rounding), converted, divide and conquer, with a diagonal, with 1x1 and 2x2 blocks | loops as functions of the cell; strong induction on the split; delayed entries by the same bound as C07; the opposite triangle and the two-block recursion refuted |
| C61 | `fsyrk` with a Winograd helper: computeS1S2, the two schedules of `fsyrk_strassen` on the quadrants of C, the drivers | each step as a function of the quadrants (Upper read as Lower on the transpose), products as bilinear dot products, one algebraic identity per quadrant; induction on the levels; out-of-bounds access and opposite triangle refuted |
| C65 | Det, CharPoly over ZRing<Integer> | C22 and C63 over `'F_p` for every modulus, the ring morphism Z -> 'F_p, then the conversions of C38 |
| C66 | LTBruhatGen, getLTBruhatGen (L, U, R), LTQSorder | C19's PLUQ with its ordering law; the Schur phase of PLUQ reused; one lemma combining the factorisation of the first quadrant with the generators of the two others (a zero row never becomes a pivot row; dropped entries multiply zeros); ranks from the triangular pivot blocks; the order by the pivot counts |
| C67 | Bruhat2EchelonPermutation, CompressToBlockBiDiagonal, ExpandBlockBiDiagonalToBruhat | rank in the sorted list of pivots; an invariant saying which line's tail sits in which slot of a block; a free slot by counting the lines alive at a column against the order; unfolding block by block, last to first |
| C68 | productSSSxTS, SSSToDense | the accumulator after b blocks is the product of the first (last) b blocks with R (W) applied; two blocks a turn, split on parity and on the short last block |
| C69 | DenseToSSS | H's block line b times U W ... W gives the block of A right of the cut; its row space lies in that of A's block, so the next PLUQ has rank at most s; transposed for the lower part; for the converse, the block of A lies in the row space of what PLUQ is given |
| C70 | random matrices | X = L U with column k of L starting at row P k and row k of U at column Q k: the pivots inside a leading block pick an invertible triangular minor, the others contribute nothing, so the rank is their number; Laplace-free determinants of triangular factors and Pmx |
| C71 | random pivots | picked values followed by available ones form a permutation of 0..N-1; each pick is a transposition of it; the rows and the columns still available are the same set between two turns |
| C72 | packed int64 product | every kernel updates one rectangle of C (a tile) by a function of the entry alone; rectangles compose by rows and by columns; packing appends blocks, so its layout is a closed formula; panels add up modulo 2^64, and the overflow flag stays set under the bound |
| C73 | parallel PLUQ | the invariant of C17 without its order part is preserved by the same combination lemma (`facg false`); one-row and one-column blocks satisfy it directly; witness for the profiles, and one for every threshold from 4 on |
| C77 | `faxpy` and `fscal` on strided vectors: vectorised, strided and copying paths, generic fields, DoubleDomain | the loop invariants of C32; the copies are shown to be a change of address, so that one lemma serves both routines; a = -1 with an increment (generic fields) and unequal increments (DoubleDomain) refuted |
| C78 | pfadd, pfsub, pfaddin, pfsubin on the memory of C42 | the row blocks of FORBLOCK1D are independent because an operand is C itself or apart; one lemma for any binary operation, the four theorems are its instances |
| C74 | `MonotonicApplyP` | loop invariants of the two shifts on the increasing enumeration of the lines that are not pivots; blocks as in C01; refuted against applyP for ibeg > 0 |
| C75 | parallel rank, determinant, solve, echelon forms | from the factorisation of C73 as the sequential ones from C17; for the tile tag the stages of C27 on the matrix with its columns relabelled give T A = E; 6 x 7 witness for the four echelon forms with the tile tag |
| C76 | MONOTONIC_CYCLES, MONOTONIC_MOREPIVOTS | `done` is the set of saved rows; walks described by trajectories of the permutation; a finite set closed under a permutation is closed backwards; agreement with applyP from C74's argument; witnesses where the macro changes the result |
| C62, C64 | LUdivine_construct, MatVecMinPoly, MinPoly | CUP law (C47) for the Krylov rows computed so far, stopping at the first dependent one; divisibility through `horner_mx` |
| C63 | Danilevski, LUKrylov, CharPoly | every step is a similarity (or a block split) of a virtual matrix whose processed columns are companion columns; spec is mathcomp's `char_poly` |
| C56 | `fsyr2k`, `ftrstr`, `ftrssyr2k` | block equations over C13 and C15; characteristic 2 separately |
| C57 | `fsytrf`, `fsytrf_nonunit`, both base cases | invariant: entry law `S = W^T E W` above the diagonal of the processed part, with a Schur complement for the rest; determinants of the leading blocks |
| C58 | `fgemm` over ZRing<Integer> and Modular<Integer> | C38 for the conversions, C07 for the product modulo each prime, uniqueness of the centred representative |
| C59 | RNSIntegerMod: `reduce_modp`, init, add, areEqual | error analysis of the quotient alpha computed with rounded inverses, for any summation tree of bounded depth |
| C47-C49, C20, C21 | `LUdivine` (slab recursion), IsSingular, rank profile sub-matrices | invariant `cup`: entry law of the CUP factors plus increasing pivot rows; index arrays as `option` cells, out-of-bounds or uninitialised access is `None` |

### PLUQ

The invariant carried through both the base case and the recursion is, for
the output array `X`, row map `sP`, column map `sQ` and rank `r`:

* entry law: `A (sP k) (sQ l) = sum_{t < min r (k+1) (l+1)} L k t * U t l`,
* order law: `L k t <> 0 -> sP t <= sP k` and `U t l <> 0 -> sQ t <= sQ l`,
* nonzero pivots.

From these follow `r = rank A` and the rank-profile-matrix statement.

## Trusted base

* The Coq 8.16.1 kernel (and `vm_compute`).
* What `Print Assumptions` lists for each theorem.  Every theorem of every
  `*_props.v` file prints "Closed under the global context": no axiom at all.
* The faithfulness of the hand transcription from C++ to Gallina; each
  definition cites the lines it models.

### Code modelled

| file of /repo/fflas-ffpack | modelled in | what is left out |
|---|---|---|
| paladin/blockcuts.inl | Cuts_model | the OpenMP/TBB macros |
| paladin/pfgemm_variants.inl, pfgemv.inl, fflas/fflas_plevel1.h, fflas_pftrsm.inl, fflas_fadd.h:150-211 | Par_model, Partr_model, Padd_model | sequentially consistent memory at the grain of one load or store; the helper objects shared by the tasks of the Block variant (their fields are written concurrently); pfrand; the leaves are entry-wise products, not the delayed ones; the triangular shapes other than left lower and right upper (both unit), which are only covered by C60_pftrsm_left_any and C60_pftrsm_right_any |
| fflas/fflas_helpers.inl, fflas_bounds.inl, fflas_fdot.inl, fflas_fgemm/fgemm_classical_mp.inl and fgemm_classical.inl, fflas_fgemv.inl | Delayed_model | the BLAS itself (any summation order), RNS and multi-precision helpers |
| ffpack/ffpack_permutation.inl | Perm_model, Mono_model, Monoc_model | tracing under VERBOSE |
| fflas/fflas_bounds.inl (TRSMBound, DotProdBoundClassic), fflas_ftrsm_src.inl float/double | Trsmb_model | one variant, one column (others are index maps, Tri_model); double rounding inside TRSMBound/DotProdBoundClassic taken exact; updates below the Winograd threshold |
| fflas/fflas_freduce.inl, fflas_fadd.inl, fflas_simd/simd_modular.inl, FLOAT_MOD/NORML_MOD of fflas_simd.h | Red_model | intrinsics (each lane is its scalar meaning), strided modp and level-2 wrappers |
| fflas/fflas_faxpy.inl, fflas_fscal.inl, fflas_fassign.inl, level 1 | Axpy_model | the level-2 wrappers other than faxpy over floating-point prime fields, fscalin (fscal on itself), the BLAS behind DoubleDomain (its meaning is the model); the buffers of the copies are addresses given by the allocator, apart from the vectors |
| fflas/fflas_transpose.h | Transp_model | `nonsquare_inplace_v2` (not called) |
| fflas/fflas_simd/simd{128,256,512}_*.inl: unpack*, pack*, transpose, blend, shuffle | Shuf_model | `simd512_int32.inl` (not included by the library); `shuffle_twice` and the other one-instruction wrappers |
| fflas/fflas_simd/simd{128,256}_int*.inl, simd512_int64.inl: operations made of several intrinsics | Emul_model | one-instruction wrappers (the intrinsic is the model) |
| fflas/fflas_sparse.inl, fflas_sparse/{csr,coo,ell,hyb_zo,sell}/*.inl | Sparse_model, Sparse2_model | csr_hyb, ell_simd, pspmv/pspmm, MKL paths, the reading of matrix files; float operations are rounded by `rnd` to prec bits |
| fflas/fflas_fsyrk.inl, fflas_fsyr2k.inl, ffpack/ffpack_ftrstr.inl, ffpack_ftrssyr2k.inl, ffpack_fsytrf.inl | Sym_model, Syrkd_model | parallel overloads, fsytrf_RPM; `Syrkd_model` has the delayed reductions, `Sym_model` the field level |
| fflas/fflas_fsyrk_strassen.inl | Strass_model | the interval bookkeeping of the delayed version (reductions are the identity on exact values) |
| field/rns-double.{h,inl}, rns-integer.h, rns-integer-mod.h, fflas_fgemm/fgemm_classical_mp.inl | Rns_model | recint conversions; parallel sections; the level-2 operations of RNSIntegerMod (same formulas per entry); the BLAS of each residue is `fgemm_delayed` |
| utils/bit_manipulation.h (mulhi) | Mulhi_model | other functions of the file, the int128 branches |
| fflas/fflas_ftrsm*.inl, ftrmm, ftrsv, fger, ffpack_ftrtr.inl | Tri_model | delayed variants (C14 separately), row-major only |
| ffpack/ffpack_pluq.inl | Pluq_model | other base cases (not compiled in) |
| ffpack/ffpack.inl pRank, pDet, pSolve; parallel echelon forms | Ppar_model | the wrappers' choice of a number of threads |
| ffpack/ffpack_ppluq.inl, parallel rank profiles | Ppluq_model | threads_ftrsm/threads_fgemm (unused helpers); tasks run in the order of the text, their regions are in Ppluq_spec |
| ffpack/ffpack.inl, ffpack_fgetrs.inl, ffpack_fgesv.inl, ffpack_rankprofiles.inl | Api_model | parallel variants |
| ffpack/ffpack_ludivine.inl, ffpack_rankprofiles.inl (Slab) | Ludiv_model | `LUdivine_small` (cutoff > 1) |
| ffpack/ffpack_echelonforms.inl, ffpack_invert.inl | Ech_model | parallel overloads (see Ppar_model); the Gauss-Jordan tags are proved for every positive base case size (with size 0 the recursion of the source never ends) |
| ffpack/ffpack_bruhatgen.inl: LTBruhatGen, getLTBruhatGen, LTQSorder | Bruhat_model | |
| ffpack/ffpack_bruhatgen.inl: Bruhat2EchelonPermutation, Compress/Expand to the block bidiagonal form | Bidiag_model | the lower branch is the upper one on transposed arrays; TInverter, expandLCRE, productBruhatxTS not modelled |
| ffpack/ffpack_sss.inl: productSSSxTS, SSSToDense, DenseToSSS | Sss_model, Sssgen_model | columns past N of the last V are not specified |
| utils/fflas_randommatrix.h: RandInt, RandomIndexSubset, RandomPermutation, RandomRankProfileMatrix, RandomSymmetricRankProfileMatrix, RandomTriangularMatrix, RandomSymmetricMatrix, RandomMatrixWithRank, RandomMatrixWithRankandRPM, RandomSymmetricMatrixWithRankandRPM, RandomMatrixWithDet, RandomLTQSMatrixWithRankandQSorder after the pivots | Rmat_model | draws are parameters, and the nonzero iterator's contract a hypothesis; RandomLTQSRankProfileMatrix is not modelled |
| fflas_igemm/igemm.inl, igemm_kernels.inl, igemm_tools.inl; fflas_fgemv.inl:367-407 and fgemm_classical.inl:293-325 over ZRing<int64_t> | Igemm_model | vector lanes of 64 bits, wrapping; scalar overflow clears a flag; loads of C happen right before the stores; the (int) casts of dimensions and the overflow of the scalar loops outside igemm are not modelled; the processor's cache sizes are parameters |
| ffpack/ffpack_det_mp.inl, ffpack_charpoly_mp.inl, bitsize | Detmp_model | the logarithms in double precision that give the exponent of the bound: an input of the model; Hadamard's bound itself is not proved |
| ffpack/ffpack_charpoly_danilevski.inl, ffpack_minpoly.inl, ffpack_charpoly.inl, LUdivine_construct | Charp_model | ArithProg (ffpack_frobenius.inl) and the KG tags: CharPoly is `None` where it calls them; FfpackKGF inside LUdivine_construct; product of polynomials (Givaro) as a convolution |
| fflas/fflas_fgemm/schedule_winograd*.inl, fgemm_winograd.inl | Wino_model | `*_hybrid`; delayed-reduction bounds and the reductions between steps (scalars are taken exact here); WinoPar in task order only; DynamicPeeling (1), only 2 is called |
| fflas/fflas_freivalds.inl, checkers/checker_{fgemm,ftrsm,pluq,invert,det,charpoly}.inl | Check_model | the random generator (uniformity of its draws), the integer charpoly checker (it accepts anything) |

## Findings

Statements that turned out to be false of the code, with the theorem that
refutes them where it exists.

* `BlockCuts` with the Fixed and Grain strategies: blocks do not cover (C05).
* `pfgemm` ThreeDAdaptive adds its temporary as an n x m matrix instead of
  m x n: wrong and out of bounds for every threshold (C42).
* `pfgemv` Recursive, transposed: A is advanced by Ydim instead of Ydim/2, and
  the recursion does not end with no thread (C60).
* Parallel `fdot` with the Fixed or Grain parameter: more blocks than partial
  results (C60).  `pfzero` misses entries (C60).  Hybrid `ftrsm` with an empty
  right-hand side does not end on the left side, and converts an infinity to
  int on the right side (C60).
* `faxpy` over a field without vectorised additions, with a = -1 and an
  increment different from one, adds instead of subtracting; with incX = 0 it
  does nothing (C77).  `fscal` over DoubleDomain and FloatDomain reads x with
  the increment of y (C77).
* `nt_mod--` on an unsigned value in pfgemm_variants.inl wraps: after the zero
  every later task gets one thread more (harmless, in the model).
* Delayed `fgemm`/`fgemv` with beta = 0 can exceed the exactness bound, and
  `fgemv` with M = 0 transposed (C07, C08).
* `ftrsm` for float/double, Trans and NonUnit (ftrsm_src.inl:241-254, 292-299):
  the diagonal is inverted on the wrong copy (C13).
* Three-operand `ftrmm` with beta = 0 or alpha = 0 (C15).
* `RandomNullSpaceVector` ignores incX in its last permutation (C25).
* `ColRankProfileSubmatrixIndices` mixes up M and N: out of bounds for every
  M < N, uninitialised reads for some M > N (C21).
* `LQUPtoInverseOfFullRankMinor` copies U together with L (C49).
* `LUdivine_small` ignores `trans` (not modelled; only reached with cutoff > 1).
* `Invert` never applies the column permutation found by the Gauss-Jordan
  elimination: the inverse of [[0,1],[1,0]] comes out as the identity (C28).
* `RowEchelonForm` with a GaussJordan tag factors with PLUQ, but the accessors
  read the result with the slab layout (outside the domain of C27). In the
  same way `ReducedRowEchelonForm` with FfpackGaussJordanSlab and no
  transformation returns rows out of order (C27_gauss_jordan_slab_form_refuted).
* The in-place Winograd schedules `Winograd_LR_S`, `Winograd_L_S`,
  `Winograd_R_S` check too little: on non-square blocks that pass the checks
  they overwrite live operands (C50).  They are correct on square blocks, the
  only way they are called (and only under NEWIP/NEWACCIP).
* WINOTHRESHOLD 0 or 1 makes `fgemm` recurse for ever (hypothesis of C12).
* `WinogradAcc_2_24` and `_2_27` assign to `const` pointers: they cannot be
  instantiated as written; their schedules are correct (C11).
* `freivalds` rejects right products when k = 0 and A is transposed (or n = 0
  and B is transposed): `fgemv` returns early without clearing its output, an
  uninitialised buffer is then used (C40).
* The charpoly checker reads one element of an empty allocation for n = 0 (C51).
* Scalar `reduce` without fused multiply-add returns a wrong representative for
  some |A| within p of 2^prec, e.g. -9007199254740991 mod 7 (C29).
* `FieldSimd`: two-argument `sub` (and `subin`) adds p on the wrong side; `add`
  and `sub` leave the interval in balanced representation; `maxpy` has the
  opposite sign (C31).
* `fsub` over a generic field with a stride other than one computes a sum (C52).
* `shuffle<s>` on 16-bit elements and on 32-bit elements of 256 bits masks the odd
  fields with 0xF0 without shifting: out of bounds even for the identity mask (C53).
* The comments of `blend<s>` exchange a and b (C53).
* SIMD `mulhi_fast`: `signbits` shifts by 31 instead of 63; off by 2^62 (C54).
* `Simd128/256<uint64_t>::mul` without AVX512 multiplies as int64_t: undefined when
  the signed product overflows although the unsigned one fits (C54).
* `simd512_int32.inl` is not included and would not compile.
* Sparse matrices without rows (any format) or without entries (ELL): `sparse_init`
  dereferences the end of an empty vector (C33, C34).
* COO: the delayed product stops its loop with the last block unreduced, and loses
  exactness on rows longer than kmax; HYB_ZO never reduces its parts (C34).
* ZO products ignore the constant (treat it as 1), overflow on long rows, and the ELL
  version adds x[0] for each padding cell; `fspmm` ZO reduces a blockSize x m block
  instead of m x blockSize (C35).
* `init_y` on a block passes leading dimension 1 to `fscalin` and `fnegin`: wrong for
  every beta other than 0 and 1 (C36).
* SELL: `maxrow` is the minimum row length, so the delayed product overflows; the result
  comes out in the sorted order of the rows; sigma other than 0 and m breaks the
  permutation; the kernel without SIMD strides past the chunk (C37).
* `fsyrk` with K = 0 or alpha = 0, and the delayed mode with alpha other than 1 and -1,
  scale the opposite triangle; the converted mode with beta = 0 fills it with
  uninitialised memory; the versions with D and `fsyr2k` use it as scratch (C46, C55, C56).
* `fsyrk` with two-blocks reads twoBlocks[N/2-1], which describes columns: out of bounds
  when K < N/2; with threshold 1 it can call itself for ever (C55).
* `fsyrk` with a Winograd helper, beta nonzero and N < 2^(recLevel+1): the schedule runs
  on empty blocks and accesses C22[-1], DC22[-1]; the opposite triangle is a workspace (C61).
* `fsyr2k` with K = 0 multiplies by beta twice (C56).
* `ftrssyr2k` Lower solves A X^T + X A^T = B, not the documented equation (C56).
* `fsytrf_nonunit` ignores incDinv in its recursion; a zero threshold never ends; above
  the threshold the opposite triangle is overwritten (C57).
* `fsytrf` leaks Dinv when it returns false; `fsytrf_RPM` Lower returns rank 0 (not modelled).
* `fgemm` over ZRing<Integer>: when A or B is zero the early return skips the scaling by
  beta (C58).
* `rns_double(pbits,size)` does not check that the primes it draws are distinct; with a
  repeated one no conversion back can be right (C38).
* RNS-major `reduce` without SSE 4.1 uses the modulus of the row instead of the column,
  skips elements and runs past the array (C38).
* `rns_double_extended::init` takes the absolute value of the remainder: wrong residues
  for negative integers (C38).
* `RNSIntegerMod::init` keeps only as many 16-bit words as p has; `areEqual` compares
  residues, so congruent elements can differ (C59).
* Neither conversion checks that its dot products fit the mantissa: with 26-bit primes
  the worst case exceeds 53 bits beyond about 2048 words (32768 bits) per entry.
* `MinPoly` returns the minimal polynomial of one vector, a divisor of that of
  the matrix (C64).  The second test of the automatic choice in `CharPoly`
  repeats the first, so that FfpackLUK is never chosen by it.
* `Det` and `CharPoly` over ZRing<Integer> convert back with gamma = 1: the result is added
  to what the variable held before the call.  The bound has no factor 2 for the sign: the
  determinant of the 1 x 1 matrix (2^21-1) comes out negative (C65).
* `getLTBruhatGen` (factors) clears the output with leading dimension N instead of ldt;
  with ldt > N earlier contents stay in L and U (C66).
* `LTBruhatGen` of order 0 calls itself with order 0 for ever (C66).
* `CompressToBlockBiDiagonal` permutes its N x N copy with the leading dimension
  of A: wrong output, or accesses outside of the copy, when that is not N (C67).
* `ExpandBlockBiDiagonalToBruhat` computes NbBlocks - 1 in an unsigned type;
  without pivots (zero matrix) it runs out of its arrays (C67).
* productSSSxTS reads before the start of V when 0 < N < s, and writes s lines of
  C when N = 0; SSSToDense with N = 0 loops over 2^64 - 1 rows; s = 0 divides by
  zero in all three (C68).
* DenseToSSS checks no rank: with an off-diagonal block of rank above s it
  writes past the end of Temp (C69 says exactly when).
* RandomMatrixWithRank never reads its argument r: the matrix always has rank
  min(m, n) (C70).
* RandomTriangularMatrix, Lower, more rows than columns: row i gets i+1 entries,
  past the last column and for the last rows past the array (C70).
* RandomSymmetricMatrix without the nonsingular flag is not symmetric when a
  pivot is zero; RandomMatrixWithDet loops for ever on n = 0 (C70).
* RandomSymmetricRankProfileMatrix loops for ever if, R odd and N = R+1, the last
  turn throws away the two values that were left in common (N = 4, R = 3) (C71).
* igemm with alpha other than 0, 1, -1 multiplies only the low 32 bits of the sums by
  alpha: 2 (65536 x 65536) gives 0; entries beyond 32 bits are cut as well (C72).
* BlockingFactor divides by zero when the first cache is reported as smaller than
  2 (mr + nr) 8 bytes, 0 for instance (C72).
* fgemv over ZRing<int64_t> without SSE4.1 replaces y by beta y^2 + ... (`*Yi *= beta * *Yi`) (C72).
* The parallel PLUQ treats one-row (one-column) blocks with an exchange of columns (rows)
  where the sequential one rotates, so the other columns lose their order:
  pColumnRankProfile (pRowRankProfile) with the Tile tag can return a wrong profile, and the
  pivots need not be the rank profile matrix (C73).  As a consequence
  `pRowEchelonForm`, `pColumnEchelonForm` and their reduced versions, with their
  default tag, can return forms that are not in echelon form (C75).
* `MonotonicApplyP` uses ibeg only to compute a length: the lines from 0 on are
  moved, not those from ibeg on (C74; every call in the library has ibeg = 0).
  It leaks MathP when the pivots do not move (not modelled).
* On lists that are not increasing after the R first pivots, defining
  MONOTONIC_CYCLES or MONOTONIC_MOREPIVOTS changes the result of MonotonicApplyP,
  unless the R first pivots are fixed, when nothing moves (C76).  The lists of
  PLUQ are increasing, so the calls in ffpack_pluq.inl are not concerned.
