(** * C13, C15, C16, C44, C45: triangular kernels *)
From mathcomp Require Import all_ssreflect all_algebra.
From Verif Require Import Grid Lit Perm_model Perm_spec Tri_model Tri_spec Tri_proofs Trmm_proofs Trtri_proofs.
Set Implicit Arguments.
Unset Strict Implicit.
Unset Printing Implicit Defensive.
Local Open Scope ring_scope.
Import GRing.Theory.

(** C13. Generic fields: the 16 variants solve op(A)X = alpha B or
    X op(A) = alpha B, and write only the M x N window of B. *)
Theorem C13_ftrsm : forall (F : fieldType) s u t d M N alpha (A B : grid F),
  inv_diag d (if s is SLeft then M else N) A ->
  let X := ftrsm s u t d M N alpha A B in
  frame M N X B /\
  match s with
  | SLeft => opmx t (trimx u d M A) *m mx M N X = alpha *: mx M N B
  | SRight => mx M N X *m opmx t (trimx u d N A) = alpha *: mx M N B
  end.
Proof. exact ftrsm_mx. Qed.
Print Assumptions C13_ftrsm.

(** The equation has one solution. *)
Theorem C13_invertible : forall (F : fieldType) u t d n (A : grid F),
  inv_diag d n A -> opmx t (trimx u d n A) \in unitmx.
Proof. exact opT_unit. Qed.
Print Assumptions C13_invertible.

(** C13. The float/double path with delayed reductions and the normalised copy
    of the diagonal block gives the same matrix, for any split sizes and
    whatever the uninitialised buffer contains, in unit mode, without
    transposition, or with diagonal blocks of size 1.  Missing: transposed
    non-unit systems, for which it is false (next theorem). *)
Theorem C13_ftrsm_delayed_partial : forall (F : fieldType) s u t d nblas nsplit M N alpha junk (A B : grid F),
  [\/ d = Unit, t = NoTrans | (nblas <= 1)%N] -> (0 < nblas)%N -> (0 < nsplit)%N ->
  inv_diag d (if s is SLeft then M else N) A ->
  ftrsm_fp s u t d nblas nsplit M N alpha junk A B =2 ftrsm s u t d M N alpha A B.
Proof. exact ftrsm_fp_ftrsm. Qed.
Print Assumptions C13_ftrsm_delayed_partial.

(** C13. Transposed non-unit systems on the float/double path: the base case
    chooses which triangle to normalise and copy from the declared triangle
    instead of the effective one; the answer depends on uninitialised memory
    and, even when that memory is zero, is wrong. *)
Theorem C13_ftrsm_delayed_trans_refuted : exists s u M N nblas nsplit (junk A B : grid 'F_7),
  inv_diag NonUnit (if s is SLeft then M else N) A /\ (0 < nblas)%N /\ (0 < nsplit)%N /\
  out M N (ftrsm_fp s u Trans NonUnit nblas nsplit M N 1 junk A B)
  <> out M N (ftrsm s u Trans NonUnit M N 1 A B).
Proof.
exists SLeft, Lower, 2%N, 1%N, 2%N, 2%N, (fun _ _ => 0), (gl 7 [:: [:: 2; 0]; [:: 3; 5]]%N), (gl 7 [:: [:: 1]; [:: 1]]%N).
by split; [move=> _ [|[|]]|].
Qed.
Print Assumptions C13_ftrsm_delayed_trans_refuted.

Definition A3 : grid 'F_7 := gl 7 [:: [:: 2; 6; 6]; [:: 3; 5; 6]; [:: 1; 4; 3]]%N.
Definition B3 : grid 'F_7 := gl 7 [:: [:: 1; 2]; [:: 3; 4]; [:: 5; 6]]%N.
Example C13_case : inv_diag NonUnit 3 A3 /\
  out 3 2 (ftrsm SLeft Lower NoTrans NonUnit 3 2 2 A3 B3) = [:: [:: 1; 2]; [:: 2; 6]; [:: 5; 0]]%N /\
  out 3 2 (ftrsm_fp SLeft Lower NoTrans NonUnit 2 2 3 2 2 (fun _ _ => 6%:R) A3 B3) = [:: [:: 1; 2]; [:: 2; 6]; [:: 5; 0]]%N /\
  out 3 2 (ftrmm SLeft Lower NoTrans NonUnit 3 2 1 A3 (ftrsm SLeft Lower NoTrans NonUnit 3 2 2 A3 B3)) =
  out 3 2 (fscalin 3 2 2 B3).
Proof. by split; [move=> _ [|[|[|]]]|]; vm_compute. Qed.

(** C15. In-place product, generic fields. *)
Theorem C15_ftrmm : forall (F : fieldType) s u t d M N alpha (A B : grid F),
  let X := ftrmm s u t d M N alpha A B in
  frame M N X B /\
  mx M N X = alpha *: match s with
    | SLeft => opmx t (trimx u d M A) *m mx M N B
    | SRight => mx M N B *m opmx t (trimx u d N A) end.
Proof. exact ftrmm_mx. Qed.
Print Assumptions C15_ftrmm.

(** C15. In-place product, float/double blocking, any block size. *)
Theorem C15_ftrmm_blocked : forall (F : fieldType) s u t d nsplit M N alpha (A B : grid F), (0 < nsplit)%N ->
  let X := ftrmm_fp s u t d nsplit M N alpha A B in
  frame M N X B /\
  mx M N X = alpha *: match s with
    | SLeft => opmx t (trimx u d M A) *m mx M N B
    | SRight => mx M N B *m opmx t (trimx u d N A) end.
Proof. exact ftrmm_fp_mx. Qed.
Print Assumptions C15_ftrmm_blocked.

(** C15. Three operands, generic fields.  Missing: alpha = 0 and beta = 0,
    false (below). *)
Theorem C15_ftrmm3_partial : forall (F : fieldType) s u t d M N alpha (A B : grid F) beta (C : grid F),
  alpha != 0 -> beta != 0 ->
  let X := ftrmm3 s u t d M N alpha A B beta C in
  frame M N X C /\
  mx M N X = alpha *: match s with
    | SLeft => opmx t (trimx u d M A) *m mx M N B
    | SRight => mx M N B *m opmx t (trimx u d N A) end + beta *: mx M N C.
Proof. exact ftrmm3_mx. Qed.
Print Assumptions C15_ftrmm3_partial.

(** C15. Three operands, float/double blocking: beta = 0 is correct there.
    Missing: alpha = 0 (false, below). *)
Theorem C15_ftrmm3_blocked_partial : forall (F : fieldType) s u t d nsplit M N alpha (A B : grid F) beta (C : grid F),
  (0 < nsplit)%N -> alpha != 0 ->
  let X := ftrmm3_fp s u t d nsplit M N alpha A B beta C in
  frame M N X C /\
  mx M N X = alpha *: match s with
    | SLeft => opmx t (trimx u d M A) *m mx M N B
    | SRight => mx M N B *m opmx t (trimx u d N A) end + beta *: mx M N C.
Proof. exact ftrmm3_fp_mx. Qed.
Print Assumptions C15_ftrmm3_blocked_partial.

(** C15. beta = 0 on generic fields: the previous contents of C are added. *)
Theorem C15_beta0_refuted : exists (s : side) (A B C : grid 'F_7),
  out 1 1 (ftrmm3 s Lower NoTrans NonUnit 1 1 1 A B 0 C) <> out 1 1 (ftrmm s Lower NoTrans NonUnit 1 1 1 A B).
Proof. by exists SLeft, (gl 7 [:: [:: 2]]%N), (gl 7 [:: [:: 3]]%N), (gl 7 [:: [:: 5]]%N). Qed.
Print Assumptions C15_beta0_refuted.

(** C15. alpha = 0: C is cleared instead of being multiplied by beta. *)
Theorem C15_alpha0_refuted : exists (A B C : grid 'F_7) (beta : 'F_7), beta != 0 /\
  out 1 1 (ftrmm3 SLeft Lower NoTrans NonUnit 1 1 0 A B beta C) <> out 1 1 (fscalin 1 1 beta C) /\
  out 1 1 (ftrmm3_fp SLeft Lower NoTrans NonUnit 1 1 1 0 A B beta C) <> out 1 1 (fscalin 1 1 beta C).
Proof. by exists (gl 7 [:: [:: 2]]%N), (gl 7 [:: [:: 3]]%N), (gl 7 [:: [:: 5]]%N), 2%:R. Qed.
Print Assumptions C15_alpha0_refuted.

Example C15_case :
  out 3 2 (ftrmm SLeft Upper Trans Unit 3 2 3 A3 B3) = [:: [:: 3; 6]; [:: 6; 6]; [:: 3; 0]]%N /\
  out 3 2 (ftrmm_fp SLeft Upper Trans Unit 2 3 2 3 A3 B3) = [:: [:: 3; 6]; [:: 6; 6]; [:: 3; 0]]%N /\
  out 3 2 (ftrmm3 SLeft Upper Trans Unit 3 2 3 A3 B3 2 B3) = out 3 2 (ftrmm3_fp SLeft Upper Trans Unit 2 3 2 3 A3 B3 2 B3).
Proof. by vm_compute. Qed.

(** C16. The designated triangle receives the triangle of the inverse; the
    other triangle (and the diagonal in unit mode) keeps its contents. *)
Theorem C16_ftrtri : forall (F : fieldType) u d threshold N (A : grid F),
  inv_diag d N A -> (0 < threshold)%N ->
  let X := ftrtri N u d threshold N A in
  tri_frame u d N X A /\ trimx u d N A *m trimx u d N X = 1%:M.
Proof. by move=> F u d th N A dA t0; exact (ftrtri_ok u dA t0 (leqnn N)). Qed.
Print Assumptions C16_ftrtri.

(** Product of the two triangles stored in one matrix (used to rebuild an
    inverse from a factorisation). *)
Theorem C16_ftrtrm : forall (F : fieldType) s d N (A : grid F),
  let X := ftrtrm N s d N A in
  frame N N X A /\
  mx N N X = match s with
    | SLeft => trimx Upper d N A *m trimx Lower (odiag d) N A
    | SRight => trimx Lower (odiag d) N A *m trimx Upper d N A end.
Proof. by move=> F s d N A; exact (ftrtrm_ok s d A (leqnn N)). Qed.
Print Assumptions C16_ftrtrm.

Example C16_case :
  out 3 3 (ftrtri 3 Lower NonUnit 1 3 A3) = [:: [:: 4; 6; 6]; [:: 6; 3; 6]; [:: 0; 3; 5]]%N /\
  out 3 3 (ftrtri 3 Lower NonUnit 8 3 A3) = [:: [:: 4; 6; 6]; [:: 6; 3; 6]; [:: 0; 3; 5]]%N /\
  out 3 3 (ftrtri 3 Upper Unit 1 3 A3) = [:: [:: 2; 1; 2]; [:: 3; 5; 1]; [:: 1; 4; 3]]%N /\
  out 3 3 (ftrtrm 3 SRight NonUnit 3 A3) = [:: [:: 2; 6; 6]; [:: 6; 2; 3]; [:: 2; 5; 5]]%N.
Proof. by vm_compute. Qed.

(** C44. ftrsv solves op(A)x = b; entries beyond N are untouched. *)
Theorem C44_ftrsv : forall (F : fieldType) u t d N (A : grid F) (b : nat -> F), inv_diag d N A ->
  let x := ftrsv u t d N A b in
  opmx t (trimx u d N A) *m mx N 1 (fun i _ => x i) = mx N 1 (fun i _ => b i) /\
  (forall i, (N <= i)%N -> x i = b i).
Proof. exact ftrsv_mx. Qed.
Print Assumptions C44_ftrsv.

Example C44_case : inv_diag NonUnit 3 A3 /\
  [seq nat_of_ord (ftrsv Upper NoTrans NonUnit 3 A3 (fun i => i.+1%:R) i) | i <- iota 0 4] = [:: 2; 2; 1; 4]%N.
Proof. by split; [move=> _ [|[|[|]]]|vm_compute]. Qed.

(** C45. fger adds alpha x y^T on the M x N window and nothing else. *)
Theorem C45_fger : forall (F : fieldType) M N alpha (x y : nat -> F) (A : grid F),
  let X := fger M N alpha x y A in
  frame M N X A /\
  mx M N X = mx M N A + alpha *: (mx M 1 (fun i _ => x i) *m mx 1 N (fun _ j => y j)).
Proof. exact fger_mx. Qed.
Print Assumptions C45_fger.

Example C45_case : out 3 3 (fger 2 2 2 (fun i => i.+1%:R) (fun j => (j + 3)%:R) A3) = [:: [:: 1; 0; 6]; [:: 1; 0; 6]; [:: 1; 4; 3]]%N.
Proof. by vm_compute. Qed.
