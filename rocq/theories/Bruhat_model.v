(** * Quasi-separable matrices: ffpack/ffpack_bruhatgen.inl *)
From mathcomp Require Import all_ssreflect all_algebra.
From Verif Require Import Grid Perm_model Tri_model Pluq_model.
Set Implicit Arguments.
Unset Strict Implicit.
Unset Printing Implicit Defensive.
Import GRing.Theory.
Local Open Scope ring_scope.

Section Bruhat.
Variable F : fieldType.
Implicit Types A X : grid F.

(** Matrix, pivot rows, pivot columns and number of pivots handed back. *)
Record bruhat_res := Bruhat { brA : grid F; brP : nat -> nat; brQ : nat -> nat; brR : nat }.

(** ffpack_bruhatgen.inl:50-65: D, E, F, G from the factorisation of the first
    quadrant (N1 x N2, N = N1 + N2); A2 = A + N2 is N1 x N1 and A3 = A + N1*lda
    is N2 x N2. *)
Definition br_schur (d : diag) (bk N1 N2 r1 : nat) (P1 Q1 : nat -> nat) X1 : grid F :=
  let N := (N1 + N2)%N in
  let X2 := at_ 0 N2 (applyP bk SLeft NoTrans N1 0 N1 P1) X1 in
  let X3 := memo N N (at_ N1 0 (applyP bk SRight Trans N2 0 N2 Q1) X2) in
  let X4 := at_ 0 N2 (ftrsm SLeft Lower NoTrans (odiag d) r1 N1 1 X3) X3 in
  let X5 := memo N N (at_ N1 0 (ftrsm SRight Upper NoTrans d N2 r1 1 X4) X4) in
  let X6 := at_ r1 N2 (fgemm NoTrans NoTrans (N1 - r1) N1 r1 (-1) (sub r1 0 X5) (sub 0 N2 X5) 1) X5 in
  let X7 := at_ N1 r1 (fgemm NoTrans NoTrans N2 (N2 - r1) r1 (-1) (sub N1 0 X6) (sub 0 r1 X6) 1) X6 in
  memo N N X7.

(** ffpack_bruhatgen.inl:67-68 and 76-83: the factors put back in place in the first
    quadrant, the rows of D and columns of E cleared, F and G put back in
    place. *)
Definition br_expand (bk N1 N2 r1 : nat) (P1 Q1 : nat -> nat) X7 : grid F :=
  let N := (N1 + N2)%N in
  let X8 := applyP bk SLeft Trans N2 0 N1 P1 X7 in
  let X9 := memo N N (applyP bk SRight NoTrans N1 0 N2 Q1 X8) in
  let X10 := at_ 0 N2 (fzero r1 N1) X9 in
  let X11 := at_ N1 0 (fzero N2 r1) X10 in
  let X12 := at_ 0 N2 (applyP bk SLeft Trans N1 0 N1 P1) X11 in
  memo N N (at_ N1 0 (applyP bk SRight NoTrans N2 0 N2 Q1) X12).

(** ffpack_bruhatgen.inl:88-92: row i of D to row P[i] of A2, N1-1-P[i] entries. *)
Definition br_restoreD (N1 N2 r1 : nat) (P : nat -> nat) (D : grid F) X : grid F :=
  iteri r1 (fun i X => at_ (P i) N2 (fill 1 (N1 - 1 - P i) (fun _ j => D i j)) X) X.

(** ffpack_bruhatgen.inl:97-100: column i of E to column Q[i] of A3, N2-1-Q[i]
    entries. *)
Definition br_restoreE (N1 N2 r1 : nat) (Q : nat -> nat) (E : grid F) X : grid F :=
  iteri r1 (fun i X => at_ N1 (Q i) (fill (N2 - 1 - Q i) 1 (fun j _ => E j i)) X) X.

(** [for (i = a; i < a + r; i++) Q[i] += b] *)
Definition br_shift (a r b : nat) (Q : nat -> nat) : nat -> nat :=
  iteri r (fun i q => upd1 q (a + i) (q (a + i) + b)%N) Q.

(** ffpack_bruhatgen.inl:33-104 [LTBruhatGen]; None when the fuel is exhausted (N = 0
    calls itself with N = 0 for ever).  D and E are saved before the in-place
    expansion of the factors instead of after it; the expansion only touches the
    first quadrant. *)
Fixpoint ltbruhat (fuel bk : nat) (d : diag) (thr N : nat) A (P Q : nat -> nat) : option bruhat_res :=
  if fuel is n.+1 then
    if N == 1%N then Some (Bruhat (upd A 0 0 0) P Q 0)
    else
      let N2 := N./2 in
      let N1 := (N - N2)%N in
      (* A1 = P1 [L1;M1] [U1 V1] Q1 *)
      let: Pluq X1 P1 Q1 r1 := PLUQ bk d thr N1 N2 A in
      let P := lapack2math P P1 N1 in
      let Q := lapack2math Q Q1 N2 in
      let X7 := br_schur d bk N1 N2 r1 P1 Q1 X1 in
      let D := memo r1 N1 (sub 0 N2 X7) in
      let E := memo N2 r1 (sub N1 0 X7) in
      let X := br_expand bk N1 N2 r1 P1 Q1 X7 in
      (* A2 <- LT-Bruhat(H) *)
      if ltbruhat n bk d thr N1 (sub 0 N2 X) (fun i => P (r1 + i)%N) (fun i => Q (r1 + i)%N)
        is Some (Bruhat X2 P2 Q2 r2) then
        let X := at_ 0 N2 (fun=> X2) X in
        let P := at1 r1 (fun=> P2) P in
        let Q := br_shift r1 r2 N2 (at1 r1 (fun=> Q2) Q) in
        let X := memo N N (br_restoreD N1 N2 r1 P D X) in
        (* A3 <- LT-Bruhat(I) *)
        if ltbruhat n bk d thr N2 (sub N1 0 X) (fun i => P (r1 + r2 + i)%N) (fun i => Q (r1 + r2 + i)%N)
          is Some (Bruhat X3 P3 Q3 r3) then
          let X := at_ N1 0 (fun=> X3) X in
          let P := memo1 (r1 + r2 + r3) (br_shift (r1 + r2) r3 N1 (at1 (r1 + r2) (fun=> P3) P)) in
          let Q := memo1 (r1 + r2 + r3) (at1 (r1 + r2) (fun=> Q3) Q) in
          Some (Bruhat (memo N N (br_restoreE N1 N2 r1 Q E X)) P Q (r1 + r2 + r3))
        else None
      else None
  else None.

Definition LTBruhatGen (bk : nat) (d : diag) (thr N : nat) A (P Q : nat -> nat) : option bruhat_res :=
  ltbruhat N.+1 bk d thr N A P Q.

(** ffpack_bruhatgen.inl:106-112: the pivot matrix R. *)
Definition getLTBruhatGenR (N r : nat) (P Q : nat -> nat) (R : grid F) : grid F :=
  iteri r (fun i R => upd R (P i) (Q i) 1) (fzero N N R).

(** ffpack_bruhatgen.inl:114-165: the factors L and U.  T is the array itself,
    indexed by machine offset, as the first line clears it with leading dimension
    N rather than [ldt].  The lengths N-1-row-col and N-2-row-col are natural
    subtractions: for pivots left of the antidiagonal they do not wrap. *)
Definition getLT_clear (N : nat) (T : nat -> F) : nat -> F := fun x => if (x < N * N)%N then 0 else T x.

Definition getLT_U (d : diag) (N r : nat) (P Q : nat -> nat) A (ldt : nat) (T : nat -> F) : nat -> F :=
  iteri r (fun i T =>
    let row := P i in let col := Q i in
    let T := if d is Unit then
        upd1 (iteri (N - 2 - row - col) (fun t T => upd1 T (row * ldt + col + 1 + t)%N (A row (col + 1 + t)%N)) T)
          (row * ldt + col)%N 1
      else iteri (N - 1 - row - col) (fun t T => upd1 T (row * ldt + col + t)%N (A row (col + t)%N)) T in
    iteri i (fun j T => upd1 T (row * ldt + Q j)%N 0) T) (getLT_clear N T).

Definition getLT_L (d : diag) (N r : nat) (P Q : nat -> nat) A (ldt : nat) (T : nat -> F) : nat -> F :=
  iteri r (fun i T =>
    let row := P i in let col := Q i in
    let T := if d is Unit then
        upd1 (iteri (N - 2 - row - col) (fun t T => upd1 T ((row + 1 + t) * ldt + col)%N (A (row + 1 + t)%N col)) T)
          (row * ldt + col)%N 1
      else iteri (N - 1 - row - col) (fun t T => upd1 T ((row + t) * ldt + col)%N (A (row + t)%N col)) T in
    iteri i (fun j T => upd1 T (P j * ldt + col)%N 0) T) (getLT_clear N T).

(** ffpack_bruhatgen.inl:168-193 [LTQSorder].  None when it reads outside of the
    vectors (N = 0) or when the unsigned counter t wraps. *)
Definition ltqs_step (N : nat) (rows cols : nat -> bool) (i : nat) (st : option (nat * nat)) : option (nat * nat) :=
  if st is Some (s, t) then
    let t := if rows i then t.+1 else t in
    if cols (N - 1 - i)%N then
      if t is t'.+1 then Some (maxn s t', t') else None
    else Some (maxn s t, t)
  else None.

Definition LTQSorder (N r : nat) (P Q : nat -> nat) : option nat :=
  if N == 0%N then None
  else
    let rows := iteri r (fun i a => upd1 a (P i) true) (fun=> false) in
    let cols := iteri r (fun i a => upd1 a (Q i) true) (fun=> false) in
    let st := if rows 0%N then (1%N, 1%N) else (0%N, 0%N) in
    omap fst (iteri (N - 1) (fun k => ltqs_step N rows cols k.+1) (Some st)).

End Bruhat.
