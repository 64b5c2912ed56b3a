(** * C20, C22 - C26: routines built on PLUQ *)
From mathcomp Require Import all_ssreflect all_algebra.
From Verif Require Import Grid Lit Perm_model Perm_spec Tri_model Tri_spec Pluq_model Pluq_spec.
From Verif Require Import Api_model Api_spec Api_proofs Null_proofs Rand_proofs Prof_proofs.
Set Implicit Arguments.
Unset Strict Implicit.
Unset Printing Implicit Defensive.
Local Open Scope ring_scope.
Import GRing.Theory.

(** 4 x 5 of rank 3, third row = first + 2 second; and two 3 x 3 matrices,
    the first nonsingular. *)
Definition E4 : grid 'F_7 :=
  gl 7 [:: [:: 0; 0; 0; 2; 1]; [:: 0; 3; 1; 0; 4]; [:: 0; 6; 2; 2; 2]; [:: 1; 0; 5; 0; 3]]%N.
Definition E3 : grid 'F_7 := gl 7 [:: [:: 0; 2; 1]; [:: 3; 0; 4]; [:: 1; 5; 0]]%N.

(** C20. With the Tile tags, the profiles are the rows (columns) outside the
    span of the preceding ones, in increasing order. *)
Theorem C20_row_profile_tile : forall (F : fieldType) bk thr M N (A : grid F), (0 < bk)%N ->
  RowRankProfile_tile bk thr M N A = (row_profile M N A, \rank (mx M N A)).
Proof. exact row_profile_tile. Qed.
Print Assumptions C20_row_profile_tile.

Theorem C20_col_profile_tile : forall (F : fieldType) bk thr M N (A : grid F), (0 < bk)%N ->
  ColumnRankProfile_tile bk thr M N A = (col_profile M N A, \rank (mx M N A)).
Proof. exact col_profile_tile. Qed.
Print Assumptions C20_col_profile_tile.

(** The same for every leading sub-matrix, from the permutations of PLUQ. *)
Theorem C20_leading_profiles : forall (F : fieldType) bk d thr M N (A : grid F) m n,
  (0 < bk)%N -> (m <= M)%N -> (n <= N)%N ->
  let: Pluq X P Q R := PLUQ bk d thr M N A in
  LeadingSubmatrixRankProfiles M N R m n P Q = (row_profile m n A, col_profile m n A, \rank (mx m n A)).
Proof. exact leading_profiles. Qed.
Print Assumptions C20_leading_profiles.

Example C20_case :
  RowRankProfile_tile 1 1 4 5 E4 = ([:: 0; 1; 3], 3)%N /\
  ColumnRankProfile_tile 1 1 4 5 E4 = ([:: 0; 1; 3], 3)%N /\
  (let r : pluq_res [fieldType of 'F_7] := PLUQ 1 Unit 1 4 5 E4 in
   LeadingSubmatrixRankProfiles 4 5 (resR r) 3 3 (resP r) (resQ r)) = ([:: 1], [:: 1], 1)%N.
Proof. by vm_compute. Qed.

(** C18. FFPACK::Rank. *)
Theorem C18_Rank : forall (F : fieldType) bk thr M N (A : grid F), (0 < bk)%N ->
  Rank bk thr M N A = \rank (mx M N A).
Proof. exact RankE. Qed.
Print Assumptions C18_Rank.

(** C22. FFPACK::Det. *)
Theorem C22_Det : forall (F : fieldType) bk thr N (A : grid F), (0 < bk)%N ->
  Det bk thr N A = \det (mx N N A).
Proof. exact DetE. Qed.
Print Assumptions C22_Det.

Example C22_case : nat_of_ord (Det 1 1 3 E3) = 2%N /\ nat_of_ord (Det 1 1 4 E4) = 0%N.
Proof. by vm_compute. Qed.

(** C23. Solve: x is the solution when A is nonsingular, and is not touched
    otherwise; cells outside the strided vector are kept. *)
Theorem C23_Solve : forall (F : fieldType) bk thr M (A : grid F) incx x incb b,
  (0 < bk)%N -> (0 < incx)%N -> (0 < incb)%N ->
  let y := Solve bk thr M A incx x incb b in
  if mx M M A \in unitmx then
    mx M M A *m cv M (vec incx y) = cv M (vec incb b) /\ vec_frame M incx y x
  else y = x.
Proof. exact Solve_ok. Qed.
Print Assumptions C23_Solve.

Example C23_case :
  out1 7 (fun i => nat_of_ord (Solve 1 1 3 E3 3 (fun _ => 6%:R) 2 (fun i => (i + 1)%:R : 'F_7) i)) = [:: 0; 6; 6; 1; 6; 6; 6]%N.
Proof. by vm_compute. Qed.

(** C24. NullSpaceBasis: a basis of the kernel of the returned dimension; a
    null pointer only when the dimension is zero. *)
Theorem C24_NullSpaceBasis : forall (F : fieldType) bk thr s M N (A : grid F) junk, (0 < bk)%N ->
  let: (res, dim) := NullSpaceBasis bk thr s M N A junk in
  dim = ((if s is SLeft then M else N) - \rank (mx M N A))%N /\
  match res with
  | None => dim = 0%N
  | Some NS =>
    match s with
    | SRight => frame N dim NS junk /\ right_basis (mx M N A) (mx N dim NS)
    | SLeft => frame dim M NS junk /\ left_basis (mx M N A) (mx dim M NS)
    end
  end.
Proof. exact NullSpaceBasis_ok. Qed.
Print Assumptions C24_NullSpaceBasis.

Definition showo (m n : nat) (r : option (grid 'F_7) * nat) := (omap (out m n) r.1, r.2).
Example C24_case :
  showo 5 2 (NullSpaceBasis 1 1 SRight 4 5 E4 (fun _ _ => 1)) =
    (Some [:: [:: 2; 4]; [:: 2; 1]; [:: 1; 0]; [:: 0; 3]; [:: 0; 1]], 2)%N /\
  showo 1 4 (NullSpaceBasis 1 1 SLeft 4 5 E4 (fun _ _ => 1)) = (Some [:: [:: 6; 5; 1; 0]], 1)%N /\
  showo 1 4 (NullSpaceBasis 1 1 SLeft 3 3 E3 (fun _ _ => 1)) = (None, 0)%N.
Proof. by vm_compute. Qed.

(** C25, incX = 1: for every draw a kernel vector, every kernel vector for
    some draw, other cells kept.  Missing: other increments, where it is false
    (below). *)
Theorem C25_right_partial : forall (F : fieldType) bk thr M N (A : grid F) x, (0 < bk)%N ->
  let y g := RandomNullSpaceVector bk thr SRight M N A g 1 x in
  (forall g, mx M N A *m cv N (vec 1 (y g)) = 0 /\ vec_frame N 1 (y g) x) /\
  (forall z, mx M N A *m cv N z = 0 -> exists g, forall i, (i < N)%N -> vec 1 (y g) i = z i).
Proof. exact RNSV_right. Qed.
Print Assumptions C25_right_partial.

Theorem C25_left_partial : forall (F : fieldType) bk thr M N (A : grid F) x, (0 < bk)%N ->
  let y g := RandomNullSpaceVector bk thr SLeft M N A g 1 x in
  (forall g, rv M (vec 1 (y g)) *m mx M N A = 0 /\ vec_frame M 1 (y g) x) /\
  (forall z, rv M z *m mx M N A = 0 -> exists g, forall i, (i < M)%N -> vec 1 (y g) i = z i).
Proof. exact RNSV_left. Qed.
Print Assumptions C25_left_partial.

(** C25, false for incX = 2: the last permutation is applied to a contiguous
    vector.  On the matrix (0 1) the vector left in X is not in the kernel. *)
Definition E12 : grid 'F_7 := gl 7 [:: [:: 0; 1]]%N.
Theorem C25_stride_refuted : exists (g x : nat -> 'F_7),
  let y := RandomNullSpaceVector 1 1 SRight 1 2 E12 g 2 x in
  mx 1 2 E12 *m cv 2 (vec 2 y) <> 0 /\ ~ vec_frame 2 2 y x.
Proof.
exists (fun _ => 3%:R), (fun _ => 5%:R); split.
- by move/matrixP/(_ ord0 ord0); rewrite !mxE big_ord_recl big_ord1 !mxE; vm_compute.
- by move/(_ 1%N isT); vm_compute.
Qed.
Print Assumptions C25_stride_refuted.

Theorem C25_stride_left_refuted : exists (g x : nat -> 'F_7),
  let y := RandomNullSpaceVector 1 1 SLeft 2 1 (tr E12) g 2 x in
  rv 2 (vec 2 y) *m mx 2 1 (tr E12) <> 0 /\ ~ vec_frame 2 2 y x.
Proof.
exists (fun _ => 3%:R), (fun _ => 5%:R); split.
- by move/matrixP/(_ ord0 ord0); rewrite !mxE big_ord_recl big_ord1 !mxE; vm_compute.
- by move/(_ 1%N isT); vm_compute.
Qed.
Print Assumptions C25_stride_left_refuted.

Example C25_case :
  out1 6 (fun i => nat_of_ord (RandomNullSpaceVector 1 1 SRight 4 5 E4 (fun i => (i + 1)%:R : 'F_7) 1 (fun _ => 6%:R) i)) =
  [:: 0; 6; 4; 1; 5; 6]%N.
Proof. by vm_compute. Qed.

(** C26. fgetrs, in place (square A) and out of place, from any valid
    factorisation: info is zero exactly when the system is solvable, and then
    the result solves it; only the solution window is written. *)
Theorem C26_fgetrs_inplace : forall (F : fieldType) bk s M N (A X : grid F) P Q R B
    (Na := if s is SLeft then M else N), (0 < bk)%N ->
  is_lapack Na P -> is_lapack Na Q ->
  factors NonUnit Na Na A X (sigma P 0 Na) (sigma Q 0 Na) R ->
  let: (Z, info) := fgetrs_inplace bk s M N R X P Q B in
  frame M N Z B /\
  answers (if s is SLeft then true else false) Na Na (if s is SLeft then N else M) A Z B info.
Proof. exact fgetrs_inplace_ok. Qed.
Print Assumptions C26_fgetrs_inplace.

Theorem C26_fgetrs : forall (F : fieldType) bk s M N k (A X : grid F) P Q R Z0 B junk, (0 < bk)%N ->
  is_lapack M P -> is_lapack N Q ->
  factors NonUnit M N A X (sigma P 0 M) (sigma Q 0 N) R ->
  let: (Z, info) := fgetrs bk s M N k R X P Q Z0 B junk in
  frame (if s is SLeft then N else k) (if s is SLeft then k else M) Z Z0 /\
  answers (if s is SLeft then true else false) M N k A Z B info.
Proof. exact fgetrs_ok. Qed.
Print Assumptions C26_fgetrs.

(** C26. fgesv: the same without assumption, and the rank. *)
Theorem C26_fgesv : forall (F : fieldType) bk thr s M N k (A Z0 B junk : grid F), (0 < bk)%N ->
  let: (Z, info, R) := fgesv bk thr s M N k A Z0 B junk in
  R = \rank (mx M N A) /\
  frame (if s is SLeft then N else k) (if s is SLeft then k else M) Z Z0 /\
  answers (if s is SLeft then true else false) M N k A Z B info.
Proof. exact fgesv_ok. Qed.
Print Assumptions C26_fgesv.

Theorem C26_fgesv_inplace : forall (F : fieldType) bk thr s M N (A B : grid F)
    (Na := if s is SLeft then M else N), (0 < bk)%N ->
  let: (Z, info, R) := fgesv_inplace bk thr s M N A B in
  R = \rank (mx Na Na A) /\ frame M N Z B /\
  answers (if s is SLeft then true else false) Na Na (if s is SLeft then N else M) A Z B info.
Proof. exact fgesv_inplace_ok. Qed.
Print Assumptions C26_fgesv_inplace.

(** A consistent and an inconsistent system with the 4 x 5 matrix. *)
Definition shows (m n : nat) (r : grid 'F_7 * bool * nat) := (out m n r.1.1, r.1.2, r.2).
Example C26_case :
  shows 5 1 (fgesv 1 1 SLeft 4 5 1 E4 (fun _ _ => 6%:R) (gl 7 [:: [:: 1]; [:: 2]; [:: 5]; [:: 3]]%N) (fun _ _ => 2%:R)) =
    ([:: [:: 3]; [:: 3]; [:: 0]; [:: 4]; [:: 0]]%N, false, 3%N) /\
  (shows 5 1 (fgesv 1 1 SLeft 4 5 1 E4 (fun _ _ => 6%:R) (gl 7 [:: [:: 1]; [:: 2]; [:: 4]; [:: 3]]%N) (fun _ _ => 2%:R))).1.2 = true.
Proof. by vm_compute. Qed.
