(** * C73: parallel PLUQ *)
From mathcomp Require Import all_ssreflect all_algebra.
From Verif Require Import Grid Lit Perm_model Perm_spec Tri_model Tri_spec Pluq_model Pluq_spec.
From Verif Require Import Api_model Api_spec Ppluq_model Ppluq_spec Ppluq_ex Ppluq_thr.
Set Implicit Arguments.
Unset Strict Implicit.
Unset Printing Implicit Defensive.
Local Open Scope ring_scope.
Import GRing.Theory.

(** C73. The parallel PLUQ factors every matrix, for every threshold and in
    both diagonal modes: valid transposition lists, nonzero pivots, zeros below
    and right of them, A = P^T L U Q, nothing written outside the window. *)
Theorem C73_pPLUQ : forall (F : fieldType) bk d thr M N (A : grid F), (0 < bk)%N ->
  let: Pluq X P Q R := pPLUQ bk d thr M N A in
  [/\ is_lapack M P, is_lapack N Q, frame M N X A,
      factors d M N A X (sigma P 0 M) (sigma Q 0 N) R &
      mx M N A = (Pmx F M P 0 M)^T *m Lmx d M R X *m Umx d R N X *m Pmx F N Q 0 N].
Proof. exact pPLUQ_factors'. Qed.
Print Assumptions C73_pPLUQ.

(** C73. The returned value is the rank. *)
Theorem C73_rank : forall (F : fieldType) bk d thr M N (A : grid F), (0 < bk)%N ->
  resR (pPLUQ bk d thr M N A) = \rank (mx M N A).
Proof. exact pPLUQ_rank'. Qed.
Print Assumptions C73_rank.

(** C73. Within each group of tasks, no task writes an entry of A that another
    one reads or writes, whatever the sizes and ranks of the blocks. *)
Theorem C73_tasks_apart : forall M N M2 N2 R1 R2 R3, (M2 <= M)%N -> (N2 <= N)%N ->
  (R1 + R2 <= M2)%N -> (R1 + R3 <= N2)%N -> (R3 <= M - M2)%N -> (R2 <= N - N2)%N ->
  forall g, List.In g (groups M N M2 N2 R1 R2 R3) -> all_apart g.
Proof. exact groups_apart'. Qed.
Print Assumptions C73_tasks_apart.

(** With M2 = 2, N2 = 2, R1 = 1, R2 = 1, R3 = 1, in a 5 x 4 matrix, the regions
    written by the tasks of the fifth group are not empty. *)
Example C73_groups_case : [seq inr (t_w t) 2 0 | t <- nth [::] (groups 5 4 2 2 1 1 1) 4] = [:: true; false; false; false; false] /\
  [seq inr (t_w t) 4 2 | t <- nth [::] (groups 5 4 2 2 1 1 1) 4] = [:: false; false; false; false; true].
Proof. by []. Qed.

Definition show (m n : nat) (r : pluq_res [fieldType of 'F_7]) :=
  (out m n (resA r), out1 m (resP r), out1 n (resQ r), resR r).
Example C73_case :
  show 2 6 (pPLUQ 1 NonUnit 2 2 6 Wp) =
    ([:: [:: 1; 0; 0; 0; 0; 0]; [:: 0; 1; 1; 0; 0; 0]]%N, [:: 0; 1]%N, [:: 2; 1; 2; 3; 4; 5]%N, 2%N).
Proof. by vm_compute. Qed.

(** C73. The pivots need not be the rank profile matrix: the leading 2 x 1 part
    of Wp has rank 1 and no pivot, because one-row blocks are handled by an
    exchange which changes the order of the other columns.  Both the sequential
    PLUQ and the documentation of pColumnRankProfile say otherwise. *)
Theorem C73_profile_refuted : exists (M N : nat) (A : grid [fieldType of 'F_7]),
  pColumnRankProfile_tile 1 2 M N A <> ColumnRankProfile_tile 1 2 M N A /\
  pRowRankProfile_tile 1 2 N M (tr A) <> RowRankProfile_tile 1 2 N M (tr A).
Proof. by exists 2%N, 6%N, Wp; split; vm_compute. Qed.
Print Assumptions C73_profile_refuted.

(** C73. It happens for every field and every threshold from 4 on (so for the
    default): some matrix gets a wrong column rank profile. *)
Theorem C73_threshold_refuted : forall (F : fieldType) bk, (0 < bk)%N -> forall thr, (3 < thr)%N ->
  exists M N (A : grid F), (pColumnRankProfile_tile bk thr M N A).1 <> col_profile M N A.
Proof. exact pCol_wrong. Qed.
Print Assumptions C73_threshold_refuted.

Example C73_profile_case :
  pColumnRankProfile_tile 1 2 2 6 Wp = ([:: 1; 2], 2)%N /\ ColumnRankProfile_tile 1 2 2 6 Wp = ([:: 0; 2], 2)%N /\
  pColumnRankProfile_tile 1 4 6 6 Wp4 = ([:: 0; 1; 4; 5], 4)%N /\
  ColumnRankProfile_tile 1 4 6 6 Wp4 = ([:: 0; 1; 3; 5], 4)%N.
Proof. by vm_compute. Qed.
