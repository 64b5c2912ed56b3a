(** * C70, C71: random matrices and random pivots *)
From mathcomp Require Import all_ssreflect all_algebra.
From Verif Require Import Grid Perm_model Perm_spec Tri_model Tri_spec Pluq_model Bruhat_spec Rmat_model Rmat_spec Rmat_ex.
Import GRing.Theory.
Local Open Scope ring_scope.

(** C70. Whatever is drawn, RandomMatrixWithRankandRPM gives a matrix whose
    leading blocks have the ranks that the pivots prescribe ... *)
Theorem C70_given_rpm : forall (F : fieldType) M N R rows cols (G : nat -> nat -> F) z GU zU L0 U0 A,
  distinct_below M R rows -> distinct_below N R cols -> (forall k, z k != 0) -> (forall k, zU k != 0) ->
  forall i j, (i <= M)%N -> (j <= N)%N ->
  \rank (mx i j (RandomMatrixWithRankandRPM M N R rows cols G z GU zU L0 U0 A)) = nlead rows cols R i j.
Proof. exact given_api. Qed.
Print Assumptions C70_given_rpm.

(** ... and with the pivots drawn at random the rank is the one asked for. *)
Theorem C70_random_rpm : forall (F : fieldType) M N R x y rows0 cols0 (G : nat -> nat -> F) z GU zU L0 U0 A,
  (R <= M)%N -> (R <= N)%N -> (forall k, z k != 0) -> (forall k, zU k != 0) ->
  exists rows cols, RandomRankProfileMatrix M N R x y rows0 cols0 = Some (rows, cols) /\
  [/\ distinct_below M R rows, distinct_below N R cols &
      let X := RandomMatrixWithRankandRPM M N R rows cols G z GU zU L0 U0 A in
      \rank (mx M N X) = R /\ forall i j, (i <= M)%N -> (j <= N)%N -> \rank (mx i j X) = nlead rows cols R i j].
Proof. exact rpm_api. Qed.
Print Assumptions C70_random_rpm.

(** Symmetric pivots give a symmetric matrix with that rank profile matrix. *)
Theorem C70_symmetric_rpm : forall (F : fieldType) N R rows cols GU zU (L0 U0 A : grid F),
  sym_pivots N R rows cols -> (forall k, zU k != 0) ->
  let X := RandomSymmetricMatrixWithRankandRPM N R rows cols GU zU L0 U0 A in
  [/\ forall i j, (i < N)%N -> (j < N)%N -> X i j = X j i, \rank (mx N N X) = R &
      forall i j, (i <= N)%N -> (j <= N)%N -> \rank (mx i j X) = nlead rows cols R i j].
Proof. exact sym_api. Qed.
Print Assumptions C70_symmetric_rpm.

(** RandomMatrixWithDet: the determinant is the one asked for. *)
Theorem C70_det : forall (F : fieldType) bk n (d : F) GL GU zL zU x y P0 Q0 L0 U0 A,
  (0 < bk)%N -> (0 < n)%N -> (forall k, zL k != 0) ->
  exists A', RandomMatrixWithDet bk n d GL GU zL zU x y P0 Q0 L0 U0 A = Some A' /\ \det (mx n n A') = d.
Proof. exact det_api. Qed.
Print Assumptions C70_det.

(** RandomSymmetricMatrix, when asked for a nonsingular one. *)
Theorem C70_symmetric : forall (F : fieldType) n G (z : nat -> F) A, (forall k, z k != 0) ->
  let X := RandomSymmetric n true G z A in
  [/\ forall i j, (i < n)%N -> (j < n)%N -> X i j = X j i, mx n n X \in unitmx & \det (mx n n X) = \prod_(i < n) z i].
Proof. exact symm_api. Qed.
Print Assumptions C70_symmetric.

(** RandomLTQSMatrixWithRankandQSorder after the draw of the pivots: a left
    triangular matrix whose quasi-separability order is that of the pivots.
    Missing: the drawing of the pivots. *)
Theorem C70_ltqs_partial : forall (F : fieldType) n r rows cols (G : nat -> nat -> F) z GU zU L0 U0 A,
  (forall k, (k < r)%N -> (rows k + cols k < n - 1)%N) -> distinct_below n r rows -> distinct_below n r cols ->
  (forall k, z k != 0) -> (forall k, zU k != 0) ->
  let X := RandomLTQSMatrix n r rows cols G z GU zU L0 U0 A in
  [/\ forall i j, (i < n)%N -> (j < n)%N -> (n - 1 <= i + j)%N -> X i j = 0,
      forall a b, (a + b <= n)%N -> \rank (mx a b X) = nlead rows cols r a b &
      qs_order n X = \max_(i < n) nlead rows cols r i.+1 (n - 1 - i)].
Proof. exact ltqs_api. Qed.
Print Assumptions C70_ltqs_partial.

(** RandomMatrixWithRank always makes a matrix of full rank ... *)
Theorem C70_with_rank_full : forall (F : fieldType) bk m n r (GL GU : grid F) zL zU x y P0 Q0 L0 U0 A, (0 < bk)%N ->
  (forall k, zL k != 0) -> (forall k, zU k != 0) ->
  \rank (mx m n (RandomMatrixWithRank bk m n r GL GU zL zU x y P0 Q0 L0 U0 A)) = minn m n.
Proof. exact fullrank_api. Qed.
Print Assumptions C70_with_rank_full.

(** ... so not of rank r. *)
Theorem C70_with_rank_refuted : exists m n r (GL GU : grid 'F_7) zL zU x y P0 Q0 L0 U0 A,
  [/\ (r < minn m n)%N, forall k, zL k != 0, forall k, zU k != 0 &
      \rank (mx m n (RandomMatrixWithRank 1 m n r GL GU zL zU x y P0 Q0 L0 U0 A)) = r.+1].
Proof. exact rank_witness. Qed.
Print Assumptions C70_with_rank_refuted.

(** RandomTriangularMatrix, Lower with more rows than columns: writes past the last column. *)
Theorem C70_triangular_frame_refuted : exists m n (G : grid 'F_7) z A i j,
  (n <= j)%N /\ RandomTriangular m n Lower Unit true G z A i j <> A i j.
Proof. exact tri_witness. Qed.
Print Assumptions C70_triangular_frame_refuted.

(** RandomSymmetricMatrix, singular matrices allowed: the result need not be symmetric. *)
Theorem C70_symmetric_refuted : exists n (G : grid 'F_7) z A i j, [/\ (i < n)%N, (j < n)%N &
  RandomSymmetric n false G z A i j <> RandomSymmetric n false G z A j i].
Proof. exact nosym_witness. Qed.
Print Assumptions C70_symmetric_refuted.

(** RandomMatrixWithDet on the empty matrix never returns. *)
Theorem C70_det_empty_refuted : exists (d : 'F_7), forall GL GU zL zU x y P0 Q0 L0 U0 A,
  RandomMatrixWithDet 1 0 d GL GU zL zU x y P0 Q0 L0 U0 A = None.
Proof. exact det0_witness. Qed.
Print Assumptions C70_det_empty_refuted.

(** C71. RandomIndexSubset draws R different indices below N ... *)
Theorem C71_subset : forall N R x P, (R <= N)%N -> exists P', RandomIndexSubset N R x P = Some P' /\ distinct_below N R P'.
Proof. exact subset_api. Qed.
Print Assumptions C71_subset.

(** ... RandomPermutation a permutation in LAPACK format ... *)
Theorem C71_permutation : forall N x P, is_lapack N (RandomPermutation N x P).
Proof. exact perm_api. Qed.
Print Assumptions C71_permutation.

(** ... and RandomSymmetricRankProfileMatrix, if it returns, symmetric pivots. *)
Theorem C71_symmetric_pivots : forall fuel N R x rows cols rows' cols', (0 < fuel)%N -> (R <= N)%N ->
  RandomSymmetricRankProfileMatrix fuel N R x rows cols = Some (rows', cols') -> sym_pivots N R rows' cols'.
Proof. exact sympiv_api. Qed.
Print Assumptions C71_symmetric_pivots.

(** It returns, each search succeeding at its first draw, if R is even or R = N. *)
Theorem C71_symmetric_terminates_partial : forall N R x rows cols, (R <= N)%N -> ~~ odd R || (R == N) ->
  exists rows' cols', RandomSymmetricRankProfileMatrix 1 N R x rows cols = Some (rows', cols').
Proof. exact symterm_api. Qed.
Print Assumptions C71_symmetric_terminates_partial.

(** Otherwise four draws can be enough to make it loop for ever. *)
Theorem C71_symmetric_terminates_refuted : exists N R (x0 : nat -> nat), (R <= N)%N /\
  forall fuel x rows cols, (forall n, (n < 4)%N -> x n = x0 n) ->
  RandomSymmetricRankProfileMatrix fuel N R x rows cols = None.
Proof. exact endless_witness. Qed.
Print Assumptions C71_symmetric_terminates_refuted.
