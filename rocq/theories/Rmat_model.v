(** * Random matrices with prescribed properties: utils/fflas_randommatrix.h

    What the random iterator returns is a parameter: G i j is the draw that goes
    into cell (i, j), z the draws of GeneralRingNonZeroRandIter (which draws again
    as long as it gets zero: z k != 0 is its contract, a hypothesis of the
    theorems), x k the k-th value of rand().  Every theorem holds for all draws,
    so the order in which they are made is not recorded.  Fresh arrays hold
    anything (L0, U0). *)
From mathcomp Require Import all_ssreflect all_algebra.
From Verif Require Import Grid Perm_model Tri_model Pluq_model.
Set Implicit Arguments.
Unset Strict Implicit.
Unset Printing Implicit Defensive.
Import GRing.Theory.
Local Open Scope ring_scope.

(** l.183-189 [RandInt]; b > a, otherwise it divides by zero. *)
Definition RandInt (a b x : nat) : nat := (a + x %% (b - a))%N.

(** l.301-313 [RandomIndexSubset]; None if N < R (division by zero). *)
Definition RandomIndexSubset (N R : nat) (x P : nat -> nat) : option (nat -> nat) :=
  if (N < R)%N then None else
  Some (iteri R (fun i st => let j := RandInt i N (x i) in (upd1 st.1 i (st.2 j), upd1 st.2 j (st.2 i))) (P, id)).1.

(** l.318-322 [RandomPermutation]. *)
Definition RandomPermutation (N : nat) (x P : nat -> nat) : nat -> nat :=
  iteri N (fun i P => upd1 P i (i + RandInt 0 (N - i) (x i))%N) P.

(** l.330-333 [RandomRankProfileMatrix]. *)
Definition RandomRankProfileMatrix (M N R : nat) (x y rows cols : nat -> nat) : option ((nat -> nat) * (nat -> nat)) :=
  if RandomIndexSubset M R x rows is Some rows then
    if RandomIndexSubset N R y cols is Some cols then Some (rows, cols) else None
  else None.

(** State of RandomSymmetricRankProfileMatrix: rows, cols, rr, cc and the number of draws. *)
Record srp := Srp { sr_rows : nat -> nat; sr_cols : nat -> nat; sr_rr : nat -> nat; sr_cc : nat -> nat; sr_n : nat }.

(** l.335-344 [swapval]: found is the first i >= k with P[i] = val; None if there is
    none below N (the search leaves the array). *)
Definition swapval (k N : nat) (P : nat -> nat) (val : nat) : option (nat -> nat) :=
  let i := find (fun i => P i == val) (iota k (N - k)) in
  if (i < N - k)%N then Some (upd1 P (k + i)%N (P k)) else None.

(** l.377-385, the loop; None when the fuel runs out. *)
Fixpoint srp_diag (fuel k N : nat) (x rr cc : nat -> nat) (n : nat) : option (nat * nat * nat) :=
  if fuel is f.+1 then
    let l := RandInt k N (x n) in
    let hits := [seq m <- iota k (N - k) | rr m == cc l] in
    if hits is _ :: _ then Some (l, last 0%N hits, n.+1) else srp_diag f k N x rr cc n.+1
  else None.

(** l.356-392, one turn; k++ and k-- inside of the turn cancel, or end the loop
    one step earlier. *)
Definition srp_step (fuel N R : nat) (x : nat -> nat) (h : nat) (st : srp) : option srp :=
  let k := h.*2 in
  let: Srp rows cols rr cc n := st in
  let i := RandInt k N (x n) in let j := RandInt k N (x n.+1) in
  let cols := upd1 cols k (cc j) in let cc := upd1 cc j (cc k) in
  let rows := upd1 rows k (rr i) in let rr := upd1 rr i (rr k) in
  if (rows k != cols k) && (k.+1 < R)%N then
    let rows := upd1 rows k.+1 (cols k) in let cols := upd1 cols k.+1 (rows k) in
    if swapval k.+1 N rr (cols k) is Some rr then
      if swapval k.+1 N cc (rows k) is Some cc then Some (Srp rows cols rr cc n.+2) else None
    else None
  else
    let k := if (k.+1 < R)%N then k.+1 else k in
    if srp_diag fuel k N x rr cc n.+2 is Some (l, found, n) then
      let co := cc l in
      Some (Srp (upd1 rows k co) (upd1 cols k co) (upd1 rr found (rr k)) (upd1 cc l (cc k)) n)
    else None.

(** l.350-394 [RandomSymmetricRankProfileMatrix]; None also if N < R. *)
Definition RandomSymmetricRankProfileMatrix (fuel N R : nat) (x rows cols : nat -> nat) : option ((nat -> nat) * (nat -> nat)) :=
  if (N < R)%N then None else
  omap (fun st => (sr_rows st, sr_cols st))
    (iteri (uphalf R) (fun h o => obind (srp_step fuel N R x h) o) (Some (Srp rows cols id id 0))).

Section Rand.
Variable F : fieldType.
Variable bk : nat.
Implicit Types A L U G : grid F.

(** l.131-159 [RandomTriangularMatrix].  With Lower the draws of row i go to
    columns 0..i also when there are fewer columns. *)
Definition RandomTriangular (m n : nat) (u : uplo) (d : diag) (ns : bool) G (z : nat -> F) A : grid F :=
  let A := match u with
    | Upper => fill m n (fun i j => if (j < i)%N then 0 else G i j) A
    | Lower => fun i j => if (i < m)%N then if (j <= i)%N then G i j else if (j < n)%N then 0 else A i j else A i j
    end in
  if d is Unit then iteri (minn m n) (fun i A => upd A i i 1) A
  else if ns then iteri (minn m n) (fun i A => upd A i i (z i)) A else A.

(** l.201-215 [RandomSymmetricMatrix]. *)
Definition RandomSymmetric (n : nat) (ns : bool) G z A : grid F :=
  let A := RandomTriangular n n Upper NonUnit ns G z A in
  let A := iteri n (fun i A =>
    if A i i != 0 then fun a b => if (b == i) && (i < a < n)%N then (A i i)^-1 * A i a else A a b else A) A in
  ftrtrm n SRight NonUnit n A.

(** l.234-276 [RandomMatrixWithRank]; r is never read. *)
Definition RandomMatrixWithRank (m n r : nat) (GL GU : grid F) (zL zU : nat -> F) (x y P0 Q0 : nat -> nat) (L0 U0 A : grid F) : grid F :=
  let L := RandomTriangular m m Lower NonUnit true GL zL L0 in
  let U := RandomTriangular m n Upper NonUnit true GU zU U0 in
  let P := RandomPermutation n x P0 in
  let Q := RandomPermutation m y Q0 in
  let U := applyP bk SRight NoTrans m 0 n P U in
  let L := applyP bk SLeft NoTrans m 0 m Q L in
  fgemm NoTrans NoTrans m n m 1 L U 0 A.

(** l.743-775 [RandomMatrixWithRankandRPM]; G k l is the draw for row l of the
    k-th column. *)
Definition RandomMatrixWithRankandRPM (M N R : nat) (rrp crp : nat -> nat) (G : nat -> nat -> F) (z : nat -> F) GU zU L0 U0 A : grid F :=
  let L := iteri R (fun k L => let i := rrp k in let j := crp k in
    fun a b => if (b == j) && (a == i) then z k
               else if (b == j) && (i < a < M)%N then G k a else L a b) (fzero M N L0) in
  let U := RandomTriangular N N Upper NonUnit true GU zU U0 in
  fgemm NoTrans NoTrans M N N 1 L U 0 A.

(** l.812-834 [RandomSymmetricMatrixWithRankandRPM]. *)
Definition RandomSymmetricMatrixWithRankandRPM (N R : nat) (rrp crp : nat -> nat) GU zU L0 U0 A : grid F :=
  let U := RandomTriangular N N Upper NonUnit true GU zU U0 in
  let L := iteri R (fun k L => let i := rrp k in let j := crp k in
    fun a b => if (b == j) && (i <= a < N)%N then U i a else L a b) (fzero N N L0) in
  fgemm NoTrans NoTrans N N N 1 L U 0 A.

(** l.970-1026 [RandomMatrixWithDet]; None for n = 0, where the loop runs to 2^64 - 1. *)
Definition RandomMatrixWithDet (n : nat) (d : F) (GL GU : grid F) (zL zU : nat -> F) (x y P0 Q0 : nat -> nat) (L0 U0 A : grid F) : option (grid F) :=
  if n == 0%N then None else
  let P := RandomPermutation n x P0 in
  let Q := RandomPermutation n y Q0 in
  let d1 := iteri n (fun i s => if P i != i then ~~ s else s) false in
  let d1 := iteri n (fun i s => if Q i != i then ~~ s else s) d1 in
  let L := RandomTriangular n n Lower NonUnit true GL zL L0 in
  let dd := iteri n.-1 (fun i dd => dd * L i i) 1 in
  let dd := d / dd in
  let dd := if d1 then - dd else dd in
  let L := upd L n.-1 n.-1 dd in
  let U := RandomTriangular n n Upper Unit true GU zU U0 in
  let U := applyP bk SRight NoTrans n 0 n P U in
  let L := applyP bk SLeft NoTrans n 0 n Q L in
  Some (fgemm NoTrans NoTrans n n n 1 L U 0 A).

(** l.1030-1049 [RandomLTQSMatrixWithRankandQSorder], after the draw of the
    pivots: A is cleared on and after the antidiagonal. *)
Definition RandomLTQSMatrix (n r : nat) (rows cols : nat -> nat) G z GU zU L0 U0 A : grid F :=
  let A := RandomMatrixWithRankandRPM n n r rows cols G z GU zU L0 U0 A in
  fun i j => if [&& i < n, j < n & n - 1 <= i + j]%N then 0 else A i j.

End Rand.
