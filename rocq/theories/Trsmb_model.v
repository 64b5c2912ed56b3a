(** * Model of the delayed triangular solver over floating-point storage

    ftrsm for float and double (fflas_ftrsm_src.inl:194-391 and
    fflas_bounds.inl:42-215), with rounding made explicit.  The sixteen
    side/triangle/transposition/diagonal instances generated by the
    preprocessor differ by an index map only (Tri_model.v); here: left side,
    lower, no transposition, one column of B (columns do not interact). *)
From Coq Require Import ZArith List Bool.
From Verif Require Import Delayed_model.
Import ListNotations.
Open Scope Z_scope.

(** ** Block sizes *)

(** fflas_bounds.inl:169-187, TRSMBound of Modular.  The factor 1/2 of pm1 is
    moved to the other side.  The doubles p1, p2 and the products are exact as
    long as the loop goes on; past 2^53 they only round to at least 2^53, and
    the loop ends, so that the exact integers give the same count. *)
Fixpoint trsm_loop_pos (fuel : nat) (p M p1 p2 : Z) (nmax : nat) : nat :=
  match fuel with
  | O => nmax
  | S fuel =>
    if (p1 + p2) * (p - 1) <=? 2 * M
    then trsm_loop_pos fuel p M (p1 * p) (p2 * (p - 2)) (S nmax) else nmax
  end.

(** fflas_bounds.inl:195-212, TRSMBound of ModularBalanced. *)
Fixpoint trsm_loop_bal (fuel : nat) (pp1 pm1 M p1 : Z) (nmax : nat) : nat :=
  match fuel with
  | O => nmax
  | S fuel =>
    if pm1 * p1 <=? M
    then trsm_loop_bal fuel pp1 pm1 M (p1 * pp1) (S nmax) else nmax
  end.

(** Which of the two classes the field is. *)
Inductive repr := Pos | Bal.
Definition rfld (r : repr) (p : Z) : fld :=
  match r with Pos => modular p | Bal => balanced p end.

Definition TRSMBound (r : repr) (p prec : Z) : nat :=
  let M := max_storable prec in
  let fuel := S (S (Z.to_nat prec)) in
  Nat.max 1 (match r with
             | Pos => trsm_loop_pos fuel p M 1 1 0
             | Bal => trsm_loop_bal fuel ((p + 1) / 2) ((p - 1) / 2) M 1 0
             end).

(** fflas_bounds.inl:42-72, computeFactorClassic. *)
Definition computeFactorClassic (r : repr) (p : Z) : Z :=
  match r with Pos => p - 1 | Bal => (p - 1) / 2 end.

(** fflas_bounds.inl:74-106, DotProdBoundClassic(F, F.one), for p > 0; the
    floor of the floating-point quotient is taken as the exact floor. *)
Definition DotProdBoundClassic (r : repr) (p prec : Z) : nat :=
  let c := computeFactorClassic r p in
  let kmax := (max_storable prec + 1 - c) / (c * c) in
  if kmax <=? 1 then 1%nat else Z.to_nat (Z.min kmax (2 ^ 31)).

(** fflas_ftrsm_src.inl:359-362 *)
Definition nsplit (r : repr) (p prec : Z) : nat :=
  let nblas := TRSMBound r p prec in
  (DotProdBoundClassic r p prec / nblas * nblas)%nat.

(** ** The solver *)

Section Solve.
Variables (F : fld) (prec : Z) (ord : order) (unit : bool).

(** Inverse of the diagonal entry, l.260. *)
Definition dinv (A : nat -> nat -> Z) (i : nat) : Z := canon F (zinv (fp F) (A i i)).

(** l.220-275: reduction of B, and for NonUnit division of the rows of the
    block and of B by the diagonal. *)
Definition base_rhs (A : nat -> nat -> Z) (b : nat -> Z) (i : nat) : Z :=
  if unit then canon F (b i) else canon F (dinv A i * canon F (b i)).
Definition base_mat (A : nat -> nat -> Z) (i j : nat) : Z :=
  if unit then A i j else canon F (dinv A i * A i j).

(** l.280-287, cblas_?trsm, CblasUnit, on rows o..o+k-1: entry o+k is
    b - sum of a_j x_j, summed in any order. *)
Fixpoint trsm_blas (A : nat -> nat -> Z) (b : nat -> Z) (o k : nat) : nat -> Z :=
  match k with
  | O => b
  | S k =>
    let x := trsm_blas A b o k in
    fun i => if (i =? o + k)%nat
             then eval prec (ord i (b i :: map (fun j => - (A i j * x j)) (seq o k)))
             else x i
  end.

(** l.218-314 *)
Definition base_solve (A : nat -> nat -> Z) (b : nat -> Z) (o n : nat) : nat -> Z :=
  let inb i := ((o <=? i) && (i <? o + n))%nat in
  let b1 i := if inb i then base_rhs A b i else b i in
  let x := trsm_blas (base_mat A) b1 o n in
  fun i => if inb i then canon F (x i) else x i.

(** l.198-341, delayed, on the rows o..o+n-1.  The update is one cblas_?gemm
    (fgemm over the DoubleDomain D, below the Winograd threshold).  [None]: a
    size would wrap around, or the recursion does not end. *)
Fixpoint delayed (fuel nblas nb n o : nat) (A : nat -> nat -> Z) (b : nat -> Z)
    : option (nat -> Z) :=
  match fuel with
  | O => None
  | S fuel =>
    if (n <=? nblas)%nat then Some (base_solve A b o n)
    else
      let nbup := ((nb + 1) / 2)%nat in
      let ns := (nbup * nblas)%nat in
      if (n <? ns)%nat then None else
      match delayed fuel nblas nbup ns o A b with
      | None => None
      | Some b1 =>
        let b2 i := if ((o + ns <=? i) && (i <? o + n))%nat
                    then blas_entry prec ord i (-1) (A i) b1 o ns 1 (b1 i) else b1 i in
        delayed fuel nblas (nb - nbup) (n - ns) (o + ns) A b2
      end
  end.

(** l.342-391, operator(): the loop.  The update is fgemm over the field
    (Delayed_model.gemm_entry), alpha = mOne, beta = one. *)
Fixpoint split_loop (steps i nblas ns n : nat) (A : nat -> nat -> Z) (b : nat -> Z)
    : option (nat -> Z) :=
  match steps with
  | O => Some b
  | S steps =>
    let o := (i * ns)%nat in
    match delayed (S ns) nblas (ns / nblas) ns o A b with
    | None => None
    | Some b1 =>
      let b2 r := if ((o + ns <=? r) && (r <? n))%nat
                  then gemm_entry F prec ord (canon F (-1)) (fun l => A r (o + l)%nat)
                         (fun l => b1 (o + l)%nat) ns (canon F 1) (b1 r)
                  else b1 r in
      split_loop steps (S i) nblas ns n A b2
    end
  end.
End Solve.

(** l.342-391.  [None] also for a division by zero (nsplit = 0). *)
Definition ftrsm_col (r : repr) (p prec : Z) (ord : order) (unit : bool)
    (n : nat) (A : nat -> nat -> Z) (b : nat -> Z) : option (nat -> Z) :=
  let F := rfld r p in
  if (n =? 0)%nat then Some b else
  let nblas := TRSMBound r p prec in
  let ns := nsplit r p prec in
  if (ns =? 0)%nat then None else
  let nbbloc := ((n - 1) / ns)%nat in
  let nrest := ((n - 1) mod ns + 1)%nat in
  match split_loop F prec ord unit nbbloc 0 nblas ns n A b with
  | None => None
  | Some b1 => delayed F prec ord unit (S nrest) nblas (nrest / nblas) nrest (nbbloc * ns) A b1
  end.
