(** * Parallel PLUQ: ffpack/ffpack_ppluq.inl *)
From mathcomp Require Import all_ssreflect all_algebra.
From Verif Require Import Grid Perm_model Tri_model Pluq_model Api_model.
Set Implicit Arguments.
Unset Strict Implicit.
Unset Printing Implicit Defensive.
Import GRing.Theory.
Local Open Scope ring_scope.

Section Ppluq.
Variable F : fieldType.
Implicit Types A X : grid F.
Notation pluq_res := (pluq_res F).

(** ffpack_ppluq.inl:92-110: one row.  The pivot is exchanged with the first
    column (the sequential code rotates the columns up to the pivot). *)
Definition row_leaf (d : diag) (N : nat) A : pluq_res :=
  let piv := find (fun j => A 0%N j != 0) (iota 0 N) in
  if piv == N then Pluq A id id 0%N
  else
    let: (A1, Q) := if (0 < piv)%N then (upd (upd A 0%N 0%N (A 0%N piv)) 0%N piv 0, upd1 id 0%N piv) else (A, id) in
    let A2 := if d is Unit then at_ 0 piv.+1 (fscalin 1 (N - piv - 1) (A1 0%N 0%N)^-1) A1 else A1 in
    Pluq A2 id Q 1%N.

(** ffpack_ppluq.inl:111-129: one column. *)
Definition col_leaf (d : diag) (M : nat) A : pluq_res :=
  let piv := find (fun i => A i 0%N != 0) (iota 0 M) in
  if piv == M then Pluq A id id 0%N
  else
    let: (A1, P) := if (0 < piv)%N then (upd (upd A 0%N 0%N (A piv 0%N)) piv 0%N 0, upd1 id 0%N piv) else (A, id) in
    let A2 := if d is NonUnit then at_ piv.+1 0 (fscalin (M - piv - 1) 1 (A1 0%N 0%N)^-1) A1 else A1 in
    Pluq A2 P id 1%N.

(** ffpack_ppluq.inl:176-206: B, C, D, E, F and G. *)
Definition pphA (d : diag) (bk : nat) (M N M2 N2 R1 : nat) (P1 Q1 : nat -> nat) (X1 : grid F) : grid F :=
    let M3 := (M - M2)%N in let N3 := (N - N2)%N in
    let X2 := at_ 0 N2 (applyP bk SLeft NoTrans N3 0 M2 P1) X1 in
    let X3 := at_ M2 0 (applyP bk SRight Trans M3 0 N2 Q1) X2 in
    let X3 := memo M N X3 in
    let X4 := at_ 0 N2 (ftrsm SLeft Lower NoTrans (odiag d) R1 N3 1 X3) X3 in
    let X5 := at_ M2 0 (ftrsm SRight Upper NoTrans d M3 R1 1 X4) X4 in
    let X5 := memo M N X5 in
    let X6 := at_ R1 N2 (fgemm NoTrans NoTrans (M2 - R1) N3 R1 (-1) (sub R1 0 X5) (sub 0 N2 X5) 1) X5 in
    let X7 := at_ M2 R1 (fgemm NoTrans NoTrans M3 (N2 - R1) R1 (-1) (sub M2 0 X6) (sub 0 R1 X6) 1) X6 in
    memo M N X7.

(** ffpack_ppluq.inl:226-228: H, after the factorisations of F and G. *)
Definition pphH (M N M2 N2 R1 : nat) (X9 : grid F) : grid F :=
    memo M N (at_ M2 N2 (fgemm NoTrans NoTrans (M - M2) (N - N2) R1 (-1) (sub M2 0 X9) (sub 0 N2 X9) 1) X9).

(** ffpack_ppluq.inl:80-412 [PLUQ] with a parallel helper, the tasks run in
    the order of the text ([Ppluq_spec.groups] lists the regions they use); the
    parallel applyP, ftrsm and fgemm are the sequential ones (C42, C60; parallel applyP
    is not modelled).  From l.230 on the operations are those of _PLUQ, [pluq_end].
    [thr] is __FFLASFFPACK_PLUQ_THRESHOLD, 0 when it is undefined; [n] is fuel
    and [bk] the block size of applyP. *)
Fixpoint ppluq (n bk : nat) (d : diag) (thr : nat) (M N : nat) A : pluq_res :=
  let stop := Pluq A id id in
  if n is n'.+1 then
    if minn M N == 0%N then stop 0%N
    else if maxn M N == 1%N then stop (if A 0%N 0%N == 0 then 0%N else 1%N)
    else if M == 1%N then row_leaf d N A
    else if N == 1%N then col_leaf d M A
    else if (minn M N < thr)%N then crout d M N A id id
    else
    let M2 := M./2 in let N2 := N./2 in
    let M3 := (M - M2)%N in let N3 := (N - N2)%N in
    let: Pluq X1 P1 Q1 R1 := ppluq n' bk d thr M2 N2 A in
    let X7 := pphA d bk M N M2 N2 R1 P1 Q1 X1 in
    let: Pluq F2 P2 Q2 R2 := ppluq n' bk d thr (M2 - R1) N3 (sub R1 N2 X7) in
    let X8 := at_ R1 N2 (fun=> F2) X7 in
    let: Pluq G3 P3 Q3 R3 := ppluq n' bk d thr M3 (N2 - R1) (sub M2 R1 X8) in
    let X9 := at_ M2 R1 (fun=> G3) X8 in
    let X10 := pphH M N M2 N2 R1 X9 in
    pluq_end (ppluq n' bk d thr) bk d M N M2 N2 P1 Q1 R1 P2 Q2 R2 P3 Q3 R3 X10
  else stop 0%N.

(** ffpack_ppluq.inl:414-428 [pPLUQ]. *)
Definition pPLUQ (bk : nat) (d : diag) (thr M N : nat) A : pluq_res :=
  ppluq (M + N).+1 bk d thr M N A.

(** ffpack_rankprofiles.inl:38-70 [pRowRankProfile] and 84-115
    [pColumnRankProfile], FfpackTileRecursive. *)
Definition pRowRankProfile_tile (bk thr M N : nat) A : seq nat * nat :=
  let: Pluq X P Q R := pPLUQ bk NonUnit thr M N A in (RankProfileFromLU P M R, R).
Definition pColumnRankProfile_tile (bk thr M N : nat) A : seq nat * nat :=
  let: Pluq X P Q R := pPLUQ bk NonUnit thr M N A in (RankProfileFromLU Q N R, R).

End Ppluq.
