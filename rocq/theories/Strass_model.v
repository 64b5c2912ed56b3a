(** * The symmetric product with five recursive half-size products:
    fflas/fflas_fsyrk_strassen.inl

    Level of the mathematical field, conventions of Sym_model: the intervals
    (Amin, Amax, ...) only decide where [freduce] is called, and [freduce] does
    not change the element represented (it is also applied to A, through a
    const_cast).  C is one grid, whose quadrants serve as temporaries; the
    allocated temporaries are grids whose initial contents [junk] are
    arbitrary.  The rows of computeS1S2 being independent, its row loop is
    interchanged with the sequence of calls it contains. *)
From mathcomp Require Import all_ssreflect all_algebra.
From Verif Require Import Grid Perm_model Tri_model Sym_model.
Set Implicit Arguments.
Unset Strict Implicit.
Unset Printing Implicit Defensive.
Import GRing.Theory.
Local Open Scope ring_scope.

Section Strassen.
Variable F : fieldType.
Implicit Types A B C S T X : grid F.

(** fflas_fsyrk_strassen.inl:133-334, trans and not.  K4 = K/4 columns of
    op(S) are on the left.  Returns S and T. *)
Definition computeS1S2 (t : transp) (N K : nat) (x y : F) A S T : grid F * grid F :=
  let N2 := N./2 in let K2 := K./2 in let K4 := K2./2 in
  let A11 := optr t A in
  let A21 := optr t (subop t N2 0 A) in
  let A22 := optr t (subop t N2 K2 A) in
  (* fscal x A21 -> S *)
  let Sa := fillop t N2 K2 (fun i l => x * A21 i l) S in
  (* faxpy -y A21r -> S, faxpy y A21 -> Sr *)
  let Sb := if y == 0 then Sa else
    let S' := fillop t N2 K4 (fun i l => optr t Sa i l + - y * A21 i (K4 + l)%N) Sa in
    atop t 0 K4 (fun Sr => fillop t N2 K4 (fun i l => optr t Sr i l + y * A21 i l) Sr) S' in
  (* fsub A22 S -> T *)
  let T' := fillop t N2 K2 (fun i l => A22 i l - optr t Sb i l) T in
  (* faxpy -x A11 -> S *)
  let Sc := fillop t N2 K2 (fun i l => optr t Sb i l + - x * A11 i l) Sb in
  let Sd := if y == 0 then Sc else
    let S' := fillop t N2 K4 (fun i l => optr t Sc i l + y * A11 i (K4 + l)%N) Sc in
    atop t 0 K4 (fun Sr => fillop t N2 K4 (fun i l => optr t Sr i l + - y * A11 i l) Sr) S' in
  (Sd, T').

(** The quadrants, fflas_fsyrk_strassen.inl:479-484: for Upper, C12 and C21
    exchange their places. *)
Inductive quad := Q11 | Q12 | Q21 | Q22.
Definition pos (u : uplo) (n : nat) (q : quad) : nat * nat :=
  match q, u with
  | Q11, _ => (0, 0) | Q22, _ => (n, n)
  | Q12, Lower | Q21, Upper => (0, n)
  | Q21, Lower | Q12, Upper => (n, 0)
  end%N.
Definition atq u n q (f : grid F -> grid F) C : grid F := at_ (pos u n q).1 (pos u n q).2 f C.
Definition subq u n q C : grid F := sub (pos u n q).1 (pos u n q).2 C.

(** faddin (DF, uplo, n, B, ldb, C, ldc): C += B on a triangle. *)
Definition tri_addin (u : uplo) (n : nat) B C : grid F :=
  memo n n (fun i j => if [&& i < n, j < n & in_tri u i j]%N then C i j + B i j else C i j).

(** 565-571: the other triangle becomes the transpose of this one. *)
Definition explicit (u : uplo) (n : nat) C : grid F :=
  memo n n (iteri n (fun i C => iteri i (fun j C =>
    if u is Lower then upd C j i (C i j) else upd C i j (C j i)) C) C).

(** 573-575: row i of B is added to column i of C. *)
Definition add_tr (n : nat) B C : grid F :=
  memo n n (iteri n (fun i C => iteri n (fun j C => upd C j i (C j i + B i j)) C) C).

(** 630-636: the strict triangle of C22 into the other triangle of C11. *)
Definition save (u : uplo) (n : nat) C22 C11 : grid F :=
  memo n n (iteri n.-1 (fun i' C => let i := i'.+1 in iteri (n - i) (fun s C =>
    if u is Lower then upd C i' (i + s)%N (C22 (n - i)%N s)
    else upd C (n - i)%N s (C22 i' (i + s)%N)) C) C11).

(** 720-733: C22 += beta times what has been saved; n > 0. *)
Definition restore (u : uplo) (n : nat) (be : F) C11 (D : nat -> F) C22 : grid F :=
  let C' := iteri n.-1 (fun i' C => let i := i'.+1 in
    let C1 := iteri (n - i) (fun s C =>
      if u is Lower then upd C (n - i)%N s (C (n - i)%N s + be * C11 i' (i + s)%N)
      else upd C i' (i + s)%N (C i' (i + s)%N + be * C11 (n - i)%N s)) C in
    upd C1 i' i' (C1 i' i' + be * D i')) C22 in
  memo n n (upd C' n.-1 n.-1 (C' n.-1 n.-1 + be * D n.-1)).

(** The classical routine called when the recursion stops, and fsyrk without a
    helper. *)
Definition syrk := uplo -> transp -> nat -> nat -> F -> grid F -> F -> grid F -> grid F.
Variables (base : syrk) (junk : grid F).

(** 439-757.  [None]: C22[(N2-1)*(ldc+1)] and DC22[N2-1] accessed with N2 = 0
    (733), outside of the arrays. *)
Fixpoint fsyrk_strassen (r : nat) (u : uplo) (t : transp) (N K : nat) (x y al : F) A (be : F) C : option (grid F) :=
  if r is r'.+1 then
    let N2 := N./2 in let K2 := K./2 in
    let A12 := subop t 0 K2 A in
    let A22 := subop t N2 K2 A in
    let wr q f C := atq u N2 q f C in
    let rd q C := subq u N2 q C in
    let big := (N < K)%N in
    let gemm B1 B2 be' := if u is Lower then fgemm t (flip t) N2 N2 K2 al B1 B2 be'
                          else fgemm t (flip t) N2 N2 K2 al B2 B1 be' in
    if be == 0 then
      let S1S2 S T := computeS1S2 t N K x y A S T in
      (* S1, S2 are allocated if K > N, and C21, C12 otherwise *)
      let X1 := (S1S2 junk junk).1 in
      let X2 := (S1S2 junk junk).2 in
      let Ca := if big then C else wr Q21 (fun S => (S1S2 S junk).1) C in
      let Cb := if big then C else wr Q12 (fun T => (S1S2 (rd Q21 C) T).2) Ca in
      let S1 C := if big then X1 else rd Q21 C in
      let S2 C := if big then X2 else rd Q12 C in
      (* P4^T = S2 S1^T in C22 *)
      let C1 := wr Q22 (gemm (S2 Cb) (S1 Cb) 0) Cb in
      (* S3 = S1 - A22 in S1 *)
      let sub3 S := fillop t N2 K2 (fun i l => optr t S i l - optr t A22 i l) S in
      let C2 := if big then C1 else wr Q21 sub3 C1 in
      let S3 C := if big then sub3 X1 else rd Q21 C in
      (* P5 = S3 S3^T in C12 *)
      if fsyrk_strassen r' u t N2 K2 x y al (S3 C2) 0 (rd Q12 C2) is Some P5 then
      let C3 := wr Q12 (fun _ => P5) C2 in
      (* S4 = S3 + A12 in S1 if K > N, in C11 otherwise *)
      let add4 D := fillop t N2 K2 (fun i l => optr t (S3 C3) i l + optr t A12 i l) D in
      let C4 := if big then C3 else wr Q11 add4 C3 in
      let S4 C := if big then add4 (sub3 X1) else rd Q11 C in
      (* P3 = A22 S4^T in C21 *)
      let C5 := wr Q21 (gemm A22 (S4 C4) 0) C4 in
      (* P1 = A11 A11^T in C11 *)
      if fsyrk_strassen r' u t N2 K2 x y al A 0 (rd Q11 C5) is Some P1 then
      let C6 := wr Q11 (fun _ => P1) C5 in
      (* U1 = P1 + P5 in C12, made explicit, U2 = U1 + P4 *)
      let C7 := wr Q12 (tri_addin u N2 (rd Q11 C6)) C6 in
      let C8 := wr Q12 (explicit u N2) C7 in
      let C9 := wr Q12 (add_tr N2 (rd Q22 C8)) C8 in
      (* U4 = U2 + P3 in C21, U5 = U2 + P4^T in C22 *)
      let C10 := wr Q21 (fun X => fill N2 N2 (fun i j => X i j + rd Q12 C9 i j) X) C9 in
      let C11 := wr Q22 (tri_addin u N2 (rd Q12 C10)) C10 in
      (* P2 = A12 A12^T in C12 *)
      if fsyrk_strassen r' u t N2 K2 x y al A12 0 (rd Q12 C11) is Some P2 then
      let C12 := wr Q12 (fun _ => P2) C11 in
      (* U3 = P1 + P2 in C11 *)
      Some (memo N N (wr Q11 (tri_addin u N2 (rd Q12 C12)) C12))
      else None else None else None
    else
      let S1S2 S := computeS1S2 t N K x y A junk S in
      (* S1 in T; S2 is allocated if K > N, and C12 otherwise *)
      let X2 := (S1S2 junk).2 in
      let T1 := (S1S2 junk).1 in
      let Ca := if big then C else wr Q12 (fun S => (S1S2 S).2) C in
      let S2 C := if big then X2 else rd Q12 C in
      (* saving C22 *)
      let Cb := wr Q11 (save u N2 (rd Q22 Ca)) Ca in
      let D := memo1 N2 (fun i => rd Q22 Cb i i) in
      (* P4^T = S2 S1^T in C22 *)
      let C1 := wr Q22 (gemm (S2 Cb) T1 0) Cb in
      (* S3 = S1 - A22 in T *)
      let T2 := fillop t N2 K2 (fun i l => optr t T1 i l - optr t A22 i l) T1 in
      (* P5 = S3 S3^T in C12 *)
      if fsyrk_strassen r' u t N2 K2 x y al T2 0 (rd Q12 C1) is Some P5 then
      let C2 := wr Q12 (fun _ => P5) C1 in
      (* S4 = S3 + A12 in T *)
      let T3 := fillop t N2 K2 (fun i l => optr t T2 i l + optr t A12 i l) T2 in
      (* P3 = A22 S4^T + beta C21 in C21 *)
      let C3 := wr Q21 (gemm A22 T3 be) C2 in
      (* P1 = A11 A11^T in T *)
      if fsyrk_strassen r' u t N2 K2 x y al A 0 T3 is Some T4 then
      (* U1 = P5 + P1 in C12, made explicit, U2 = U1 + P4 *)
      let C4 := wr Q12 (tri_addin u N2 T4) C3 in
      let C5 := wr Q12 (explicit u N2) C4 in
      let C6 := wr Q12 (add_tr N2 (rd Q22 C5)) C5 in
      (* U4 = U2 + P3 in C21, U5 = U2 + P4^T in C22 *)
      let C7 := wr Q21 (fun X => fill N2 N2 (fun i j => X i j + rd Q12 C6 i j) X) C6 in
      let C8 := wr Q22 (tri_addin u N2 (rd Q12 C7)) C7 in
      if (N2 == 0)%N then None else
      let C9 := wr Q22 (restore u N2 be (rd Q11 C8) D) C8 in
      (* P2 = A12 A12^T + beta C11 in C11 *)
      if fsyrk_strassen r' u t N2 K2 x y al A12 be (rd Q11 C9) is Some P2 then
      let C10 := wr Q11 (fun _ => P2) C9 in
      (* U3 = P1 + P2 in C11 *)
      Some (memo N N (wr Q11 (tri_addin u N2 T4) C10))
      else None else None else None
  else Some (base u t N K al A be C).

(** 374-436: r = recLevel; (x,y) is what sumofsquaresmodprime returns. *)
Definition fsyrk_winograd (r : nat) (u : uplo) (t : transp) (N K : nat) (x y al : F) A (be : F) C : option (grid F) :=
  if (r == 0)%N then Some (base u t N K al A be C) else
  let q := (2 ^ r.+1)%N in
  let Ns := (N %/ q * q)%N in
  let Ks := (K %/ q * q)%N in
  let A12 := subop t 0 Ks A in
  let A21 := subop t Ns 0 A in
  if fsyrk_strassen r u t Ns Ks x y al A be C is Some C1 then
    let C2 := base u t Ns (K - Ks)%N al A12 1 C1 in
    let C3 := at_ Ns Ns (base u t (N - Ns)%N K al A21 be) C2 in
    Some (if u is Lower then at_ Ns 0 (fgemm t (flip t) (N - Ns)%N Ns K al A21 A be) C3
          else at_ 0 Ns (fgemm t (flip t) Ns (N - Ns)%N K al A A21 be) C3)
  else None.

(** 337-373, with ScalAndReduce (fflas_fgemm.inl:214-235: the whole
    N x N block is scaled). *)
Definition fsyrk_winograd_delayed (r : nat) (u : uplo) (t : transp) (N K : nat) (x y al : F) A (be : F) C : option (grid F) :=
  if (N == 0)%N then Some C
  else if (K == 0)%N || (al == 0) then Some (fscalin N N be C)
  else
    let general := (al != 1) && (al != -1) in
    let al' := if general then 1 else al in
    let be' := if general then be / al else be in
    if fsyrk_winograd r u t N K x y al' A be' C is Some C1 then
      Some (if general then fscalin N N al C1 else C1)
    else None.

End Strassen.
