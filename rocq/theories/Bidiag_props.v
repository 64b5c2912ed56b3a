(** * C67: compact storage of the factors of a quasi-separable matrix *)
From mathcomp Require Import all_ssreflect all_algebra.
From Verif Require Import Grid Perm_spec Tri_model Tri_spec Bruhat_model Bruhat_spec Bidiag_model Bidiag_spec Bidiag_ex.
Set Implicit Arguments.
Unset Strict Implicit.
Unset Printing Implicit Defensive.
Import GRing.Theory.
Local Open Scope ring_scope.

(** C67. Bruhat2EchelonPermutation is a permutation of the N indices which sends
    the line of a pivot to the number of pivots that come before it. *)
Theorem C67_Bruhat2Echelon : forall N r P Q M0, lt_pivots N r P Q ->
  let M := bruhat2echelon N r P Q M0 in
  [/\ is_perm N M, forall x, (N <= x)%N -> M x = M0 x,
      forall k, (k < r)%N -> M (Q k) = count (fun j => P j < P k)%N (iota 0 r),
      forall k, (k < r)%N -> (M (Q k) < r)%N &
      forall j k, (j < r)%N -> (k < r)%N -> (M (Q j) < M (Q k))%N = (P j < P k)%N].
Proof. exact echelon_api. Qed.
Print Assumptions C67_Bruhat2Echelon.

(** CompressToBlockBiDiagonal reads and writes inside of its arrays, changes only
    2s lines of X, and ExpandBlockBiDiagonalToBruhat gets the matrix back, for
    a matrix of leading dimension N with at least one pivot. *)
Theorem C67_roundtrip_partial : forall (F : fieldType) up bk N s r P Q (A : grid F) X0 K0 M0 T0 A0, (0 < bk)%N -> (0 < r)%N ->
  lt_pivots N r P Q -> qs_pivots N s r P Q -> bruhat_shape up N r P Q A ->
  exists X K M T nb, [/\ bd_compress up bk N s r P Q A N X0 K0 M0 T0 = Some (Bidiag X K M T nb),
      ((nb - 1) * s < r <= nb * s)%N,
      forall i c, (if up then (2 * s <= i) || (N <= c) else (N <= i) || (2 * s <= c))%N -> X i c = X0 i c &
      exists2 A1, bd_expand up bk N s r A0 X nb K M T = Some A1 &
        forall i j, (i < N)%N -> (j < N)%N -> A1 i j = A i j].
Proof. exact roundtrip_api. Qed.
Print Assumptions C67_roundtrip_partial.

(** From LTBruhatGen, getLTBruhatGen and LTQSorder on. *)
Theorem C67_pipeline : forall (F : fieldType) up bk d thr N (A : grid F) P Q X P' Q' r s (TL TU : nat -> F) X0 K0 M0 T0 A0,
  (0 < bk)%N -> (0 < N)%N ->
  LTBruhatGen bk d thr N A P Q = Some (Bruhat X P' Q' r) -> (0 < r)%N -> LTQSorder N r P' Q' = Some s ->
  let G : grid F := fun i j => if up then getLT_U d N r P' Q' X N TU (i * N + j)%N
                               else getLT_L (odiag d) N r P' Q' X N TL (i * N + j)%N in
  exists X1 K M T nb A1, [/\ bd_compress up bk N s r P' Q' G N X0 K0 M0 T0 = Some (Bidiag X1 K M T nb),
      bd_expand up bk N s r A0 X1 nb K M T = Some A1 &
      forall i j, (i < N)%N -> (j < N)%N -> A1 i j = G i j].
Proof. exact pipeline. Qed.
Print Assumptions C67_pipeline.

(** With a leading dimension other than N, the matrix is not recovered ... *)
Theorem C67_lda_refuted : exists (N s r : nat) P Q (A : grid 'F_7) lda X0 A0 A1 i j,
  [/\ (0 < r)%N /\ (N <= lda)%N, lt_pivots N r P Q /\ qs_pivots N s r P Q, bruhat_shape true N r P Q A,
      obind (fun b => bd_expand true 32 N s r A0 (bdgX b) (bdgN b) (bdgK b) (bdgM b) (bdgT b))
        (bd_compress true 32 N s r P Q A lda X0 id id id) = Some A1 & [/\ (i < N)%N, (j < N)%N & A1 i j != A i j]].
Proof. exact lda_witness. Qed.
Print Assumptions C67_lda_refuted.

(** ... or the copy is accessed outside of its bounds. *)
Theorem C67_lda_bounds_refuted : exists (N s r : nat) P Q (A : grid 'F_7) lda X0,
  [/\ (0 < r)%N /\ (N <= lda)%N, lt_pivots N r P Q /\ qs_pivots N s r P Q, bruhat_shape true N r P Q A &
      bd_compress true 32 N s r P Q A lda X0 id id id = None].
Proof. exact lda_out. Qed.
Print Assumptions C67_lda_bounds_refuted.

(** Without pivot the expansion accesses K and T outside of their bounds. *)
Theorem C67_empty_refuted : exists b, bd_compress true 32 2 0 0 id id z9 2 z9 id id id = Some b /\ bdgN b = 0%N /\
  bd_expand true 32 2 0 0 z9 (bdgX b) (bdgN b) (bdgK b) (bdgM b) (bdgT b) = None.
Proof. exact empty_witness. Qed.
Print Assumptions C67_empty_refuted.
