(** * C20 (slab), C21, C47 - C49: LUdivine and routines built on it *)
From mathcomp Require Import all_ssreflect all_algebra.
From Verif Require Import Grid Lit Perm_model Perm_spec Tri_model Tri_spec Pluq_model Pluq_spec.
From Verif Require Import Api_model Api_spec Api_props Ludiv_model Ludiv_spec Ludiv_proofs Ludiv_rank Ludiv_sub.
Set Implicit Arguments.
Unset Strict Implicit.
Unset Printing Implicit Defensive.
Local Open Scope ring_scope.
Import GRing.Theory.

(** Contents of an index array before the call. *)
Definition junk : nat -> nat := fun=> 9%N.

(** C47. LUdivine factors the matrix, or its transpose with FflasTrans, as
    C U P with C in column echelon form and its pivot rows in Q, whatever P
    and Q contained, and changes nothing outside the M x N window. *)
Theorem C47_LUdivine : forall (F : fieldType) bk, (0 < bk)%N -> forall d t M N (A : grid F) P Q,
  let: Pluq X P' Q' R := LUdivine bk d t false M N A P Q in
  let: (m, n) := if t is Trans then (N, M) else (M, N) in
  frame M N X A /\ cup d m n (optr t A) (optr t X) P' Q' R.
Proof. exact LUdivine_cup. Qed.
Print Assumptions C47_LUdivine.

(** Its result is the rank. *)
Theorem C47_rank : forall (F : fieldType) d M N (A X : grid F) P Q R, cup d M N A X P Q R -> \rank (mx M N A) = R.
Proof. exact cup_rank. Qed.
Print Assumptions C47_rank.

Example C47_case :
  (let r : pluq_res [fieldType of 'F_7] := LUdivine 1 NonUnit NoTrans false 4 5 E4 junk junk in
   (resR r, out1 3 (resP r), out1 3 (resQ r), out 4 5 (resA r))) =
    (3, [:: 3; 1; 2], [:: 0; 1; 3],
     [:: [:: 2; 0; 0; 0; 1]; [:: 0; 3; 1; 0; 4]; [:: 1; 2; 5; 1; 3]; [:: 0; 0; 0; 0; 0]])%N /\
  (let r : pluq_res [fieldType of 'F_7] := LUdivine 1 Unit Trans false 4 5 E4 junk junk in
   (resR r, out1 3 (resP r), out1 3 (resQ r), out 4 5 (resA r))) =
    (3, [:: 3; 1; 2], [:: 0; 1; 3],
     [:: [:: 1; 0; 5; 0; 3]; [:: 0; 3; 1; 0; 4]; [:: 0; 2; 0; 2; 1]; [:: 0; 0; 1; 0; 0]])%N.
Proof. by vm_compute. Qed.

(** C20. With FfpackSlabRecursive, the default. *)
Theorem C20_row_profile_slab : forall (F : fieldType) bk, (0 < bk)%N -> forall M N (A : grid F) P Q,
  RowRankProfile_slab bk M N A P Q = (row_profile M N A, \rank (mx M N A)).
Proof. exact row_profile_slab. Qed.
Print Assumptions C20_row_profile_slab.

Theorem C20_col_profile_slab : forall (F : fieldType) bk, (0 < bk)%N -> forall M N (A : grid F) P Q,
  ColumnRankProfile_slab bk M N A P Q = (col_profile M N A, \rank (mx M N A)).
Proof. exact col_profile_slab. Qed.
Print Assumptions C20_col_profile_slab.

Example C20_slab_case :
  RowRankProfile_slab 1 4 5 E4 junk junk = ([:: 0; 1; 3], 3)%N /\
  ColumnRankProfile_slab 1 4 5 E4 junk junk = ([:: 0; 1; 3], 3)%N.
Proof. by vm_compute. Qed.

(** C48. IsSingular, with the default cutoff. *)
Theorem C48_IsSingular : forall (F : fieldType) bk, (0 < bk)%N -> forall M N (A : grid F) P Q,
  IsSingular bk M N A P Q = ~~ ((M == N) && (\rank (mx M N A) == N)).
Proof. exact IsSingularE. Qed.
Print Assumptions C48_IsSingular.

Example C48_case : IsSingular 1 3 3 E3 junk junk = false /\ IsSingular 1 3 3 E4 junk junk = true.
Proof. by vm_compute. Qed.

(** C21. The row version: no access outside the arrays or to uninitialised
    cells, the row indices are the row rank profile, the column indices are a
    permutation, and the leading r x r sub-matrix they select is invertible. *)
Theorem C21_row_indices : forall (F : fieldType) bk, (0 < bk)%N -> forall M N (A : grid F) P Q, exists ci,
  [/\ RowRankProfileSubmatrixIndices bk M N A P Q =
        Some (map Some (row_profile M N A) ++ alloc (M - \rank (mx M N A)), map Some ci, \rank (mx M N A)),
      perm_eq ci (iota 0 N) &
      mx (\rank (mx M N A)) (\rank (mx M N A))
        (fun i j => A (nth 0 (row_profile M N A) i) (nth 0 ci j))%N \in unitmx].
Proof. exact row_indices. Qed.
Print Assumptions C21_row_indices.

Theorem C21_row_submatrix : forall (F : fieldType) bk, (0 < bk)%N -> forall M N (A : grid F) P Q, exists X,
  RowRankProfileSubmatrix bk M N A P Q = Some (X, \rank (mx M N A)) /\
  mx (\rank (mx M N A)) (\rank (mx M N A)) X \in unitmx.
Proof. exact row_submatrix. Qed.
Print Assumptions C21_row_submatrix.

(** The column version is right for square matrices only: it writes outside
    rowindices whenever M < N, ... *)
Theorem C21_col_indices_partial : forall (F : fieldType) bk, (0 < bk)%N -> forall N (A : grid F) P Q, exists ri,
  [/\ ColRankProfileSubmatrixIndices bk N N A P Q =
        Some (map Some ri, map Some (col_profile N N A) ++ alloc (N - \rank (mx N N A)), \rank (mx N N A)),
      perm_eq ri (iota 0 N) &
      mx (\rank (mx N N A)) (\rank (mx N N A))
        (fun i j => A (nth 0 ri i) (nth 0 (col_profile N N A) j))%N \in unitmx].
Proof. exact col_indices_square. Qed.
Print Assumptions C21_col_indices_partial.

Theorem C21_col_indices_wide_oob : forall (F : fieldType) bk, (0 < bk)%N -> forall M N (A : grid F) P Q,
  (M < N)%N -> ColRankProfileSubmatrixIndices bk M N A P Q = None.
Proof. exact col_indices_wide. Qed.
Print Assumptions C21_col_indices_wide_oob.

(** ... and may read uninitialised cells when N < M. *)
Theorem C21_col_indices_refuted : exists M N (A : grid 'F_7),
  (N < M)%N /\ ColRankProfileSubmatrixIndices 1 M N A junk junk = None.
Proof. by exists 2%N, 1%N, (gl 7 [:: [:: 0]; [:: 1]]%N); vm_compute. Qed.
Print Assumptions C21_col_indices_refuted.

Example C21_case :
  RowRankProfileSubmatrixIndices 1 4 5 E4 junk junk =
    Some ([:: Some 0; Some 1; Some 3; None], [:: Some 3; Some 1; Some 2; Some 0; Some 4], 3)%N /\
  ColRankProfileSubmatrixIndices 1 3 3 E3 junk junk = Some ([:: Some 1; Some 0; Some 2], [:: Some 0; Some 1; Some 2], 3)%N.
Proof. by vm_compute. Qed.

(** C49. LQUPtoInverseOfFullRankMinor copies the whole of the factors, so that
    U takes part in the product: for the 1 x 1 matrix (3) over Z/7Z it returns 1,
    not 1/3 = 5. *)
Theorem C49_inverse_minor_refuted : exists A : grid 'F_7,
  let r : pluq_res [fieldType of 'F_7] := LUdivine 1 NonUnit NoTrans false 1 1 A junk junk in
  resR r = 1%N /\ resP r 0%N = 0%N /\ resQ r 0%N = 0%N /\
  A 0%N 0%N * LQUPtoInverseOfFullRankMinor 1 (resR r) (resA r) (resQ r) A 0%N 0%N != 1.
Proof. by exists (gl 7 [:: [:: 3]]%N); vm_compute. Qed.
Print Assumptions C49_inverse_minor_refuted.
