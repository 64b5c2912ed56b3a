(** * C17, C18, C19: PLUQ *)
From mathcomp Require Import all_ssreflect all_algebra.
From Verif Require Import Grid Lit Perm_model Perm_spec Tri_model Tri_spec Pluq_model Pluq_spec Pluq_api_proofs.
Set Implicit Arguments.
Unset Strict Implicit.
Unset Printing Implicit Defensive.
Local Open Scope ring_scope.
Import GRing.Theory.

(** C17. PLUQ factors every matrix, for every threshold (recursive algorithm,
    base case, or any mix), in both diagonal modes, and writes only the M x N
    window: P and Q are valid transposition lists, the pivots are nonzero, the
    part below and right of the pivots is zero, and A = P^T L U Q in the
    conventions of applyP. *)
Theorem C17_PLUQ : forall (F : fieldType) bk d thr M N (A : grid F), (0 < bk)%N ->
  let: Pluq X P Q R := PLUQ bk d thr M N A in
  [/\ is_lapack M P, is_lapack N Q, frame M N X A,
      factors d M N A X (sigma P 0 M) (sigma Q 0 N) R &
      mx M N A = (Pmx F M P 0 M)^T *m Lmx d M R X *m Umx d R N X *m Pmx F N Q 0 N].
Proof. exact PLUQ_factors. Qed.
Print Assumptions C17_PLUQ.

(** C17. The base case alone, whatever the buffers P and Q contain. *)
Theorem C17_crout : forall (F : fieldType) d M N (A : grid F) P0 Q0,
  let: Pluq X P Q R := crout d M N A P0 Q0 in
  [/\ is_lapack M P, is_lapack N Q, frame M N X A,
      factors d M N A X (sigma P 0 M) (sigma Q 0 N) R &
      mx M N A = (Pmx F M P 0 M)^T *m Lmx d M R X *m Umx d R N X *m Pmx F N Q 0 N].
Proof. exact crout_factors. Qed.
Print Assumptions C17_crout.

(** A 4 x 5 matrix of rank 3 whose leading 1 x 3 block is zero; third row =
    first + 2 second. *)
Definition E4 : grid 'F_7 :=
  gl 7 [:: [:: 0; 0; 0; 2; 1]; [:: 0; 3; 1; 0; 4]; [:: 0; 6; 2; 2; 2]; [:: 1; 0; 5; 0; 3]]%N.
Definition show (m n : nat) (r : pluq_res [fieldType of 'F_7]) :=
  (out m n (resA r), out1 m (resP r), out1 n (resQ r), resR r).
Example C17_case :
  show 4 5 (PLUQ 1 NonUnit 1 4 5 E4) =
   ([:: [:: 3; 0; 0; 1; 4]; [:: 0; 2; 0; 0; 1]; [:: 0; 0; 1; 5; 3]; [:: 2; 1; 0; 0; 0]]%N,
    [:: 1; 1; 3; 3]%N, [:: 1; 3; 3; 3; 4]%N, 3%N) /\
  show 4 5 (PLUQ 2 Unit 100 4 5 E4) =
   ([:: [:: 2; 0; 0; 0; 4]; [:: 0; 3; 0; 5; 6]; [:: 0; 0; 1; 5; 3]; [:: 2; 6; 0; 0; 0]]%N,
    [:: 0; 1; 3; 3]%N, [:: 3; 1; 3; 3; 4]%N, 3%N).
Proof. by split; vm_compute. Qed.

(** C18. The returned value is the rank. *)
Theorem C18_rank : forall (F : fieldType) bk d thr M N (A : grid F), (0 < bk)%N ->
  resR (PLUQ bk d thr M N A) = \rank (mx M N A).
Proof. exact PLUQ_rank. Qed.
Print Assumptions C18_rank.

Theorem C18_crout_rank : forall (F : fieldType) d M N (A : grid F) P0 Q0,
  resR (crout d M N A P0 Q0) = \rank (mx M N A).
Proof. exact crout_rank. Qed.
Print Assumptions C18_crout_rank.

Example C18_case : resR (PLUQ 1 Unit 2 4 5 E4) = 3%N /\ resR (PLUQ 1 Unit 2 3 3 E4) = 1%N.
Proof. by split; vm_compute. Qed.

(** C19. The rank of every leading sub-matrix is the number of pivots in it:
    the pivots are the rank profile matrix, for every threshold. *)
Theorem C19_rank_profile : forall (F : fieldType) bk d thr M N (A : grid F) i j, (0 < bk)%N ->
  (i <= M)%N -> (j <= N)%N ->
  let: Pluq X P Q R := PLUQ bk d thr M N A in
  \rank (mx i j A) = npiv (sigma P 0 M) (sigma Q 0 N) R i j.
Proof. exact PLUQ_lead_rank. Qed.
Print Assumptions C19_rank_profile.

Theorem C19_crout : forall (F : fieldType) d M N (A : grid F) P0 Q0 i j, (i <= M)%N -> (j <= N)%N ->
  let: Pluq X P Q R := crout d M N A P0 Q0 in
  \rank (mx i j A) = npiv (sigma P 0 M) (sigma Q 0 N) R i j.
Proof. exact crout_lead_rank. Qed.
Print Assumptions C19_crout.

(** C19. A pivot row (column) never contributes to an earlier row (column) of
    A, and the rows (columns) without pivot keep their order. *)
Theorem C19_ordered : forall (F : fieldType) bk d thr M N (A : grid F), (0 < bk)%N ->
  let: Pluq X P Q R := PLUQ bk d thr M N A in
  ordered d M N X (sigma P 0 M) (sigma Q 0 N) R.
Proof. exact PLUQ_ordered. Qed.
Print Assumptions C19_ordered.

(** The pivots of E4 are (0,3), (1,1), (3,0), for both algorithms. *)
Example C19_case :
  let piv (r : pluq_res [fieldType of 'F_7]) :=
    [seq (sigma (resP r) 0 4 t, sigma (resQ r) 0 5 t) | t <- iota 0 (resR r)] in
  piv (PLUQ 1 NonUnit 1 4 5 E4) = [:: (1, 1); (0, 3); (3, 0)]%N /\
  piv (PLUQ 1 NonUnit 9 4 5 E4) = [:: (0, 3); (1, 1); (3, 0)]%N.
Proof. by split; vm_compute. Qed.
