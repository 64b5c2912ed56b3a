(** * PLUQ factorisation: ffpack/ffpack_pluq.inl *)
From mathcomp Require Import all_ssreflect all_algebra.
From Verif Require Import Grid Perm_model Tri_model.
Set Implicit Arguments.
Unset Strict Implicit.
Unset Printing Implicit Defensive.
Import GRing.Theory.
Local Open Scope ring_scope.

Section Pluq.
Variable F : fieldType.
Implicit Types A X : grid F.

(** Matrix, permutations and rank handed back by a call. *)
Record pluq_res := Pluq { resA : grid F; resP : nat -> nat; resQ : nat -> nat; resR : nat }.

(** [i = rank; while (isZero(row[i++]) && i<N); i--;] *)
Fixpoint search (fuel : nat) (z : nat -> bool) (N i : nat) : nat :=
  if fuel is n.+1 then
    if z i && (i.+1 < N)%N then search n z N i.+1 else i
  else i.

(** The pointer [p + a] into an index array. *)
Definition at1 (a : nat) (f : (nat -> nat) -> nat -> nat) (p : nat -> nat) : nat -> nat :=
  let q := f (fun x => p (a + x)%N) in fun x => if (a <= x)%N then q (x - a)%N else p x.

(** [fzero] on an m x n window. *)
Definition fzero (m n : nat) A : grid F := fill m n (fun _ _ => 0) A.

(** ffpack_pluq.inl:356-400, one iteration of the loop on rows.  Both fgemv
    calls are given by their entry formula. *)
Definition crout_step (d : diag) (M N row : nat) (st : pluq_res) : pluq_res :=
  let: Pluq A mP mQ rank := st in
  if (rank < N)%N then
    let A1 := at_ row rank (fill 1 (N - rank)
      (fun _ l => A row (rank + l)%N - rsum rank (fun t => A t (rank + l)%N * A row t))) A in
    let i := search N (fun l => A1 row l == 0) N rank in
    if A1 row i != 0 then
      let A2 := at_ row.+1 i (fill (M - row - 1) 1
        (fun k _ => A1 (row.+1 + k)%N i - rsum rank (fun t => A1 (row.+1 + k)%N t * A1 t i))) A1 in
      let invpiv := (A2 row i)^-1 in
      let A3 := match d with
        | Unit => at_ row i.+1 (fscalin 1 (N - i - 1) invpiv) A2
        | NonUnit => at_ row.+1 i (fscalin (M - row - 1) 1 invpiv) A2
        end in
      let: (A7, mQ) := if (rank < i)%N then
          let A4 := at_ 0 rank (cyclic_shift_col rank (i - rank + 1)) A3 in
          let A5 := at_ row.+1 rank (cyclic_shift_col (M - row - 1) (i - rank + 1)) A4 in
          let A6 := upd A5 rank rank (A5 row i) in
          (at_ rank rank.+1 (fzero 1 (i - rank)) A6,
           at1 rank (fun p => cyclic_shift_mathPerm p (i - rank + 1)) mQ)
        else (A3, mQ) in
      let: (A12, mP) := if (rank < row)%N then
          let A8 := at_ rank 0 (cyclic_shift_row (row - rank + 1) rank) A7 in
          let A9 := at_ rank i.+1 (fassign 1 (N - i - 1) (sub row i.+1 A8)) A8 in
          let A10 := upd A9 rank rank (A9 row i) in
          let A11 := at_ rank.+1 rank (fzero (row - rank) 1) A10 in
          (upd A11 row i 0,
           at1 rank (fun p => cyclic_shift_mathPerm p (row - rank + 1)) mP)
        else (A7, mP) in
      Pluq (memo M N A12) (memo1 M mP) (memo1 N mQ) rank.+1
    else Pluq (memo M N A1) mP mQ rank
  else st.

(** ffpack_pluq.inl:338-425 [PLUQ_basecaseCrout] (CROUT is defined at line 31);
    the loop stops at rank = N, after which rows are left alone. *)
Definition crout (d : diag) (M N : nat) A (P Q : nat -> nat) : pluq_res :=
  let: Pluq A mP mQ rank := iteri M (crout_step d M N) (Pluq A id id 0%N) in
  Pluq (at_ rank rank (fzero (M - rank) (N - rank)) A)
    (memo1 M (math2lapack P mP M)) (memo1 N (math2lapack Q mQ N)) rank.

(** ffpack_pluq.inl:503-527: D, E, F, G, H, from the factorisation of the first
    quadrant. *)
Definition phA (d : diag) (bk : nat) (M N M2 N2 R1 : nat) (P1 Q1 : nat -> nat) (X1 : grid F) : grid F :=
    let M3 := (M - M2)%N in let N3 := (N - N2)%N in
    let X2 := at_ 0 N2 (applyP bk SLeft NoTrans N3 0 M2 P1) X1 in
    let X3 := at_ M2 0 (applyP bk SRight Trans M3 0 N2 Q1) X2 in
    let X3 := memo M N X3 in
    let X4 := at_ 0 N2 (ftrsm SLeft Lower NoTrans (odiag d) R1 N3 1 X3) X3 in
    let X5 := at_ M2 0 (ftrsm SRight Upper NoTrans d M3 R1 1 X4) X4 in
    let X5 := memo M N X5 in
    let X6 := at_ R1 N2 (fgemm NoTrans NoTrans (M2 - R1) N3 R1 (-1) (sub R1 0 X5) (sub 0 N2 X5) 1) X5 in
    let X7 := at_ M2 R1 (fgemm NoTrans NoTrans M3 (N2 - R1) R1 (-1) (sub M2 0 X6) (sub 0 R1 X6) 1) X6 in
    let X8 := at_ M2 N2 (fgemm NoTrans NoTrans M3 N3 R1 (-1) (sub M2 0 X7) (sub 0 N2 X7) 1) X7 in
    memo M N X8.

(** ffpack_pluq.inl:538-568: H, E, M1, D, V1 permuted after the factorisations of
    F and G. *)
Definition phC (bk : nat) (M N M2 N2 R1 : nat) (P2 Q2 P3 Q3 : nat -> nat) (X10 : grid F) : grid F :=
    let M3 := (M - M2)%N in let N3 := (N - N2)%N in
    let X11 := at_ M2 N2 (applyP bk SRight Trans M3 0 N3 Q2) X10 in
    let X12 := at_ M2 N2 (applyP bk SLeft NoTrans N3 0 M3 P3) X11 in
    let X13 := at_ M2 0 (applyP bk SLeft NoTrans R1 0 M3 P3) X12 in
    let X14 := at_ R1 0 (applyP bk SLeft NoTrans R1 0 (M2 - R1) P2) X13 in
    let X15 := at_ 0 N2 (applyP bk SRight Trans R1 0 N3 Q2) X14 in
    let X16 := at_ 0 R1 (applyP bk SRight Trans R1 0 (N2 - R1) Q3) X15 in
    memo M N X16.

(** ffpack_pluq.inl:569-584: I, J (temporary), O and the last Schur complement R. *)
Definition phD (d : diag) (M N M2 N2 R1 R2 R3 : nat) (X16 : grid F) : grid F :=
    let M3 := (M - M2)%N in let N3 := (N - N2)%N in
    let X17 := at_ M2 N2 (ftrsm SRight Upper NoTrans d M3 R2 1 (sub R1 N2 X16)) X16 in
    let temp := ftrsm SLeft Lower NoTrans (odiag d) R3 R2 1 (sub M2 R1 X17) (sub M2 N2 X17) in
    let X18 := at_ M2 (N2 + R2) (ftrsm SLeft Lower NoTrans (odiag d) R3 (N3 - R2) 1 (sub M2 R1 X17)) X17 in
    let X18 := memo M N X18 in
    let X19 := at_ M2 (N2 + R2) (fgemm NoTrans NoTrans R3 (N3 - R2) R2 (-1) temp (sub R1 (N2 + R2) X18) 1) X18 in
    let X20 := at_ (M2 + R3) (N2 + R2) (fgemm NoTrans NoTrans (M3 - R3) (N3 - R2) R2 (-1) (sub (M2 + R3) N2 X19) (sub R1 (N2 + R2) X19) 1) X19 in
    let X21 := at_ (M2 + R3) (N2 + R2) (fgemm NoTrans NoTrans (M3 - R3) (N3 - R2) R3 (-1) (sub (M2 + R3) R1 X20) (sub M2 (N2 + R2) X20) 1) X20 in
    memo M N X21.

(** ffpack_pluq.inl:590-606: write back the factorisation of R and permute. *)
Definition phE (bk : nat) (M N M2 N2 R2 R3 : nat) (P4 Q4 : nat -> nat) (W4 X21 : grid F) : grid F :=
    let M3 := (M - M2)%N in let N3 := (N - N2)%N in
    let X22 := at_ (M2 + R3) (N2 + R2) (fun=> W4) X21 in
    let X23 := at_ (M2 + R3) 0 (applyP bk SLeft NoTrans (N2 + R2) 0 (M3 - R3) P4) X22 in
    let X24 := at_ 0 (N2 + R2) (applyP bk SRight Trans (M2 + R3) 0 (N3 - R2) Q4) X23 in
    memo M N X24.

(** ffpack_pluq.inl:607-617 (and 627-637 for Q): the composed permutation before
    the block exchange, in mathematical form. *)
Definition mperm (M M2 Ra Rb : nat) (P1 P2 P3 P4 : nat -> nat) : nat -> nat :=
    let mP0 := composeLLM id P1 P2 Ra M2 in
    let mP1 := at1 M2 (fun p => composeLLM p P3 P4 Rb (M - M2)) mP0 in
    iteri (M - M2) (fun k p => upd1 p (M2 + k)%N (p (M2 + k) + M2)%N) mP1.

(** ffpack_pluq.inl:538-650: from the factorisations of A1, F and G to the end;
    [rec] is the recursive call, on R. *)
Definition pluq_end (rec : nat -> nat -> grid F -> pluq_res) (bk : nat) (d : diag) (M N M2 N2 : nat)
    (P1 Q1 : nat -> nat) (R1 : nat) (P2 Q2 : nat -> nat) (R2 : nat) (P3 Q3 : nat -> nat) (R3 : nat) (X10 : grid F) : pluq_res :=
    let M3 := (M - M2)%N in let N3 := (N - N2)%N in
    let X16 := phC bk M N M2 N2 R1 P2 Q2 P3 Q3 X10 in
    let X21 := phD d M N M2 N2 R1 R2 R3 X16 in
    (* R = P4 [L4;M4] [U4 V4] Q4 *)
    let: Pluq W4 P4 Q4 R4 := rec (M3 - R3)%N (N3 - R2)%N (sub (M2 + R3) (N2 + R2) X21) in
    let X24 := phE bk M N M2 N2 R2 R3 P4 Q4 W4 X21 in
    let mP2 := mperm M M2 R1 R3 P1 P2 P3 P4 in
    let: (X25, mP3) := if (R1 + R2 < M2)%N then
        (doApplyS N M2 R1 R2 R3 R4 X24, PermApplyS mP2 M2 R1 R2 R3 R4)
      else (X24, mP2) in
    let mQ2 := mperm N N2 R1 R2 Q1 Q3 Q2 Q4 in
    let: (X26, mQ3) := if (R1 < N2)%N then
        (doApplyT M N2 R1 R2 R3 R4 X25, PermApplyT mQ2 N2 R1 R2 R3 R4)
      else (X25, mQ2) in
    Pluq (memo M N X26) (memo1 M (math2lapack id (memo1 M mP3) M)) (memo1 N (math2lapack id (memo1 N mQ3) N))
      (R1 + R2 + R3 + R4)%N.

(** ffpack_pluq.inl:428-650 [_PLUQ], NOBASECASE and MONOTONIC_APPLYP
    undefined (the defaults).  ftrsm is the generic solver (the float path
    equals it without transposition, C13), fgemm its entry formula.  [n] is
    fuel, [bk] the block size of applyP; buffers of permutations start with
    arbitrary contents, here the identity. *)
Fixpoint pluq (n bk : nat) (d : diag) (thr : nat) (M N : nat) A : pluq_res :=
  let stop := Pluq A id id in
  if n is n'.+1 then
    if minn M N == 0%N then stop 0%N
    else if maxn M N == 1%N then stop (if A 0%N 0%N == 0 then 0%N else 1%N)
    else if (minn M N < thr)%N then crout d M N A id id
    else
    let M2 := M./2 in let N2 := N./2 in
    let M3 := (M - M2)%N in let N3 := (N - N2)%N in
    (* A1 = P1 [L1;M1] [U1 V1] Q1 *)
    let: Pluq X1 P1 Q1 R1 := pluq n' bk d thr M2 N2 A in
    let X8 := phA d bk M N M2 N2 R1 P1 Q1 X1 in
    (* F = P2 [L2;M2] [U2 V2] Q2,  G = P3 [L3;M3] [U3 V3] Q3 *)
    let: Pluq F2 P2 Q2 R2 := pluq n' bk d thr (M2 - R1) N3 (sub R1 N2 X8) in
    let X9 := at_ R1 N2 (fun=> F2) X8 in
    let: Pluq G3 P3 Q3 R3 := pluq n' bk d thr M3 (N2 - R1) (sub M2 R1 X9) in
    let X10 := memo M N (at_ M2 R1 (fun=> G3) X9) in
    pluq_end (pluq n' bk d thr) bk d M N M2 N2 P1 Q1 R1 P2 Q2 R2 P3 Q3 R3 X10
  else stop 0%N.

(** ffpack_pluq.inl:652-670 [PLUQ] (sequential; the checker only observes). *)
Definition PLUQ (bk : nat) (d : diag) (thr M N : nat) A : pluq_res :=
  pluq (M + N).+1 bk d thr M N A.

End Pluq.
