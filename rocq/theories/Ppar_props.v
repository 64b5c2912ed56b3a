(** * C75: parallel rank, determinant, solution and echelon forms *)
From mathcomp Require Import all_ssreflect all_algebra.
From Verif Require Import Grid Lit Perm_model Perm_spec Tri_model Tri_spec Pluq_model Pluq_spec.
From Verif Require Import Api_model Api_spec Ech_model Ech_spec Ppluq_model Ppar_model Ppar_spec Ppar_proofs Ppar_ech.
Set Implicit Arguments.
Unset Strict Implicit.
Unset Printing Implicit Defensive.
Local Open Scope ring_scope.
Import GRing.Theory.

(** C75. pRank, pDet and pSolve answer as their sequential versions do. *)
Theorem C75_pRank : forall (F : fieldType) bk thr M N (A : grid F), (0 < bk)%N ->
  pRank bk thr M N A = \rank (mx M N A).
Proof. exact pRankE. Qed.
Print Assumptions C75_pRank.

Theorem C75_pDet : forall (F : fieldType) bk thr N (A : grid F), (0 < bk)%N ->
  pDet bk thr N A = \det (mx N N A).
Proof. exact pDetE. Qed.
Print Assumptions C75_pDet.

Theorem C75_pSolve : forall (F : fieldType) bk thr M (A : grid F) incx x incb b,
  (0 < bk)%N -> (0 < incx)%N -> (0 < incb)%N ->
  let y := pSolve bk thr M A incx x incb b in
  if mx M M A \in unitmx then
    mx M M A *m cv M (vec incx y) = cv M (vec incb b) /\ vec_frame M incx y x
  else y = x.
Proof. exact pSolve_ok. Qed.
Print Assumptions C75_pSolve.

(** C75. The parallel echelon forms: the slab variants and the Gauss-Jordan
    elimination are the sequential ones (C27); the others return the rank. *)
Theorem C75_slab : forall (F : fieldType) bk thr tthr bc tf M N (A : grid F) P Q,
  [/\ pColumnEchelonForm bk thr tthr Slab tf M N A P Q = ColumnEchelonForm bk thr tthr Slab tf M N A P Q,
      pRowEchelonForm bk thr tthr Slab tf M N A P Q = RowEchelonForm bk thr tthr Slab tf M N A P Q,
      pReducedColumnEchelonForm bk thr tthr Slab tf M N A P Q = ReducedColumnEchelonForm bk thr tthr Slab tf M N A P Q &
      pReducedRowEchelonForm bk thr tthr bc Slab tf M N A P Q = ReducedRowEchelonForm bk thr tthr bc Slab tf M N A P Q].
Proof. exact pslab. Qed.
Print Assumptions C75_slab.

Theorem C75_gauss_jordan : forall (F : fieldType) bk thr tthr bc tag M N (A : grid F) P Q, tag = GJSlab \/ tag = GJTile ->
  pReducedRowEchelonForm bk thr tthr bc tag true M N A P Q = ReducedRowEchelonForm bk thr tthr bc tag true M N A P Q.
Proof. exact pgj. Qed.
Print Assumptions C75_gauss_jordan.

Theorem C75_echelon_rank : forall (F : fieldType) bk thr tthr bc tag tf M N (A : grid F) P Q, (0 < bk)%N -> tag <> Slab ->
  [/\ resR (pColumnEchelonForm bk thr tthr tag tf M N A P Q) = \rank (mx M N A),
      resR (pRowEchelonForm bk thr tthr tag tf M N A P Q) = \rank (mx M N A),
      resR (pReducedColumnEchelonForm bk thr tthr tag tf M N A P Q) = \rank (mx M N A) &
      tag = Tile \/ ~~ tf -> resR (pReducedRowEchelonForm bk thr tthr bc tag tf M N A P Q) = \rank (mx M N A)].
Proof. exact ptile_rank. Qed.
Print Assumptions C75_echelon_rank.

(** C75. With FfpackTileRecursive the form is nevertheless reached by an
    invertible transformation, the one the accessor returns, and its nonzero
    rows have pivots further and further right. *)
Theorem C75_row : forall (F : fieldType) bk thr tthr, (0 < bk)%N -> (0 < tthr)%N -> forall M N (A : grid F) P0 Q0 T0 E0,
  let: Pluq X P Q R := pRowEchelonForm bk thr tthr Tile true M N A P0 Q0 in
  row_reached M N A R (getEchelonForm bk Upper Unit M N R Q X E0 false Tile)
    (getEchelonTransform bk Upper Unit M N R P Q X T0 Tile).
Proof. exact prow_ok. Qed.
Print Assumptions C75_row.

Theorem C75_row_alone : forall (F : fieldType) bk thr tthr, (0 < bk)%N -> (0 < tthr)%N -> forall M N (A : grid F) P0 Q0 E0,
  let: Pluq X P Q R := pRowEchelonForm bk thr tthr Tile false M N A P0 Q0 in
  exists T, row_reached M N A R (getEchelonForm bk Upper Unit M N R Q X E0 false Tile) T.
Proof. exact prow_nt_ok. Qed.
Print Assumptions C75_row_alone.

Theorem C75_reduced_row : forall (F : fieldType) bk thr tthr bc, (0 < bk)%N -> (0 < tthr)%N -> forall M N (A : grid F) P0 Q0 T0 E0,
  let: Pluq X P Q R := pReducedRowEchelonForm bk thr tthr bc Tile true M N A P0 Q0 in
  rrow_reached M N A R (getReducedEchelonForm bk Upper M N R Q X E0 false Tile)
    (getReducedEchelonTransform bk Upper M N R P Q X T0 Tile).
Proof. exact predrow_ok. Qed.
Print Assumptions C75_reduced_row.

Theorem C75_reduced_row_alone : forall (F : fieldType) bk thr tthr bc, (0 < bk)%N -> (0 < tthr)%N -> forall M N (A : grid F) P0 Q0 E0,
  let: Pluq X P Q R := pReducedRowEchelonForm bk thr tthr bc Tile false M N A P0 Q0 in
  exists T, rrow_reached M N A R (getReducedEchelonForm bk Upper M N R Q X E0 false Tile) T.
Proof. exact predrow_nt_ok. Qed.
Print Assumptions C75_reduced_row_alone.

Theorem C75_col : forall (F : fieldType) bk thr tthr, (0 < bk)%N -> (0 < tthr)%N -> forall M N (A : grid F) P0 Q0 T0 E0,
  let: Pluq X P Q R := pColumnEchelonForm bk thr tthr Tile true M N A P0 Q0 in
  col_reached M N A R (getEchelonForm bk Lower Unit M N R Q X E0 false Tile)
    (getEchelonTransform bk Lower Unit M N R P Q X T0 Tile).
Proof. exact pcol_ok. Qed.
Print Assumptions C75_col.

Theorem C75_col_alone : forall (F : fieldType) bk thr tthr, (0 < bk)%N -> (0 < tthr)%N -> forall M N (A : grid F) P0 Q0 E0,
  let: Pluq X P Q R := pColumnEchelonForm bk thr tthr Tile false M N A P0 Q0 in
  exists T, col_reached M N A R (getEchelonForm bk Lower Unit M N R Q X E0 false Tile) T.
Proof. exact pcol_nt_ok. Qed.
Print Assumptions C75_col_alone.

Theorem C75_reduced_col : forall (F : fieldType) bk thr tthr, (0 < bk)%N -> (0 < tthr)%N -> forall M N (A : grid F) P0 Q0 T0 E0,
  let: Pluq X P Q R := pReducedColumnEchelonForm bk thr tthr Tile true M N A P0 Q0 in
  rcol_reached M N A R (getReducedEchelonForm bk Lower M N R Q X E0 false Tile)
    (getReducedEchelonTransform bk Lower M N R P Q X T0 Tile).
Proof. exact predcol_ok. Qed.
Print Assumptions C75_reduced_col.

Theorem C75_reduced_col_alone : forall (F : fieldType) bk thr tthr, (0 < bk)%N -> (0 < tthr)%N -> forall M N (A : grid F) P0 Q0 E0,
  let: Pluq X P Q R := pReducedColumnEchelonForm bk thr tthr Tile false M N A P0 Q0 in
  exists T, rcol_reached M N A R (getReducedEchelonForm bk Lower M N R Q X E0 false Tile) T.
Proof. exact predcol_nt_ok. Qed.
Print Assumptions C75_reduced_col_alone.

(** C75. With FfpackTileRecursive, the default of the parallel functions, the
    forms need not be echelon forms. *)
Definition We : grid 'F_7 := gl 7 [:: [:: 1; 0; 0; 0; 0; 0; 0]; [:: 0; 1; 0; 0; 0; 0; 0]; [:: 0; 0; 0; 0; 0; 0; 1];
                                     [:: 0; 0; 0; 1; 0; 1; 0]; [:: 0; 0; 0; 0; 1; 0; 0]; [:: 0; 0; 0; 0; 0; 0; 0]]%N.
Theorem C75_row_form_refuted : exists M N (A : grid 'F_7) P Q,
  let r := @pRowEchelonForm [fieldType of 'F_7] 1 4 1 Tile true M N A P Q in
  ~ row_echelon M N (resR r) (getEchelonForm 1 Upper Unit M N (resR r) (resQ r) (resA r) A false Tile).
Proof. by exists 6%N, 7%N, We, id, id; apply: (@not_echelon _ _ _ _ 2 3 3); vm_compute. Qed.
Print Assumptions C75_row_form_refuted.

Theorem C75_reduced_row_form_refuted : exists M N (A : grid 'F_7) P Q,
  let r := @pReducedRowEchelonForm [fieldType of 'F_7] 1 4 1 256 Tile true M N A P Q in
  ~ row_echelon M N (resR r) (getReducedEchelonForm 1 Upper M N (resR r) (resQ r) (resA r) A false Tile).
Proof. by exists 6%N, 7%N, We, id, id; apply: (@not_echelon _ _ _ _ 2 3 3); vm_compute. Qed.
Print Assumptions C75_reduced_row_form_refuted.

Theorem C75_col_form_refuted : exists M N (A : grid 'F_7) P Q,
  let r := @pColumnEchelonForm [fieldType of 'F_7] 1 4 1 Tile true M N A P Q in
  ~ col_echelon M N (resR r) (getEchelonForm 1 Lower Unit M N (resR r) (resQ r) (resA r) A false Tile).
Proof. by exists 7%N, 6%N, (tr We), id, id; apply: (@not_echelon _ _ _ _ 2 3 3); vm_compute. Qed.
Print Assumptions C75_col_form_refuted.

Theorem C75_reduced_col_form_refuted : exists M N (A : grid 'F_7) P Q,
  let r := @pReducedColumnEchelonForm [fieldType of 'F_7] 1 4 1 Tile true M N A P Q in
  ~ col_echelon M N (resR r) (getReducedEchelonForm 1 Lower M N (resR r) (resQ r) (resA r) A false Tile).
Proof. by exists 7%N, 6%N, (tr We), id, id; apply: (@not_echelon _ _ _ _ 2 3 3); vm_compute. Qed.
Print Assumptions C75_reduced_col_form_refuted.

Example C75_case :
  (let r := @pReducedRowEchelonForm [fieldType of 'F_7] 1 4 1 256 Tile true 6 7 We id id in
   (resR r, out 6 7 (getReducedEchelonForm 1 Upper 6 7 (resR r) (resQ r) (resA r) We false Tile))) =
  (5, [:: [:: 1; 0; 0; 0; 0; 0; 0]; [:: 0; 1; 0; 0; 0; 0; 0]; [:: 0; 0; 0; 0; 1; 0; 0];
          [:: 0; 0; 0; 1; 0; 1; 0]; [:: 0; 0; 0; 0; 0; 0; 1]; [:: 0; 0; 0; 0; 0; 0; 0]])%N /\
  (let r := @ReducedRowEchelonForm [fieldType of 'F_7] 1 4 1 256 Tile true 6 7 We id id in
   (resR r, out 6 7 (getReducedEchelonForm 1 Upper 6 7 (resR r) (resQ r) (resA r) We false Tile))) =
  (5, [:: [:: 1; 0; 0; 0; 0; 0; 0]; [:: 0; 1; 0; 0; 0; 0; 0]; [:: 0; 0; 0; 1; 0; 1; 0];
          [:: 0; 0; 0; 0; 1; 0; 0]; [:: 0; 0; 0; 0; 0; 0; 1]; [:: 0; 0; 0; 0; 0; 0; 0]])%N.
Proof. by vm_compute. Qed.

(** Singular, and with a permutation. *)
Example C75_small_case : pRank 1 4 6 7 We = 5%N /\
  nat_of_ord (pDet 1 2 3 (gl 7 [:: [:: 0; 2; 0]; [:: 0; 0; 3]; [:: 4; 0; 0]]%N : grid [fieldType of 'F_7])) = 3%N /\
  out1 3 (fun i => nat_of_ord (pSolve 1 2 3 (gl 7 [:: [:: 0; 2; 0]; [:: 0; 0; 3]; [:: 4; 0; 0]]%N : grid [fieldType of 'F_7])
     1 (fun _ => 6%:R) 1 (fun i => (2 * i + 2)%:R) i)) = [:: 5; 1; 6]%N.
Proof. by vm_compute. Qed.
