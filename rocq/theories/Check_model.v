(** * Probabilistic certificates: fflas/fflas_freivalds.inl and checkers/*.inl

    Random vectors are arguments.  The working vectors are those the code
    allocates; the contents of an uninitialised buffer is an argument ([junk]),
    a buffer passed through finit holds zeros.  A thrown Failure exception is
    [false]. *)
From mathcomp Require Import all_ssreflect all_algebra.
From Verif Require Import Grid Perm_model Tri_model Pluq_model Api_model.
Set Implicit Arguments.
Unset Strict Implicit.
Unset Printing Implicit Defensive.
Import GRing.Theory.
Local Open Scope ring_scope.

Section Check.
Variable F : fieldType.
Implicit Types (A B C X : grid F) (v w x y : nat -> F).

(** fflas_fgemv.inl:338-364, the public entry: returns Y untouched when M = 0,
    even if it is the transpose that is applied.  Api_model.fgemv otherwise. *)
Definition fgemvp (t : transp) (M N : nat) (alpha : F) A x (beta : F) y : nat -> F :=
  if M == 0%N then y else fgemv t M N alpha A x beta y.

(** fiszero(F, m, w, 1), and the loop of fflas_freivalds.inl:98-99. *)
Definition iszero (m : nat) w : bool := all (fun i => w i == 0) (iota 0 m).

(** Dimensions of the stored operand whose op() is m x k. *)
Definition rows_ (t : transp) (m k : nat) : nat := if t is NoTrans then m else k.
Definition cols_ (t : transp) (m k : nat) : nat := if t is NoTrans then k else m.

(** fflas_freivalds.inl:48-118; [y] and [x] are fresh buffers. *)
Definition freivalds (ta tb : transp) (m n k : nat) (alpha : F) A B C v (junky junkx : nat -> F) : bool :=
  let y := fgemvp tb (rows_ tb k n) (cols_ tb k n) 1 B v 0 junky in
  let x := fgemvp ta (rows_ ta m k) (cols_ ta m k) alpha A y 0 junkx in
  let x := fgemvp NoTrans m n (-1) C v 1 x in
  iszero m x.

(** checkers/checker_fgemm.inl:65-106: init on the old C, check on the new C. *)
Definition check_fgemm (ta tb : transp) (m n k : nat) (alpha : F) A B (beta : F) Cold C v : bool :=
  let w1 := fgemvp NoTrans m n beta Cold v 0 (fun=> 0) in
  let w1 := fgemvp NoTrans m n 1 C v (-1) w1 in
  let w2 := fgemvp tb (rows_ tb k n) (cols_ tb k n) 1 B v 0 (fun=> 0) in
  let w1 := fgemvp ta (rows_ ta m k) (cols_ ta m k) alpha A w2 (-1) w1 in
  iszero m w1.

(** checkers/checker_ftrsm.inl:67-118.  B is the right hand side before the
    call, X the matrix after it. *)
Definition check_ftrsm (s : side) (u : uplo) (t : transp) (d : diag) (m n : nat) (alpha : F) A B X v : bool :=
  let w := fgemvp NoTrans m n alpha B v 0 (fun=> 0) in
  let w := match s with
    | SLeft =>
        let v1 := fgemvp NoTrans m n 1 X v 0 (fun=> 0) in
        let v1 := as_col (ftrmm SLeft u t d m 1 1 A) v1 in
        fun i => if (i < m)%N then w i - v1 i else w i
    | SRight =>
        let v := as_col (ftrmm SLeft u t d n 1 1 A) v in
        fgemvp NoTrans m n 1 X v (-1) w
    end in
  iszero m w.

(** checkers/checker_invert.inl:56-82. *)
Definition check_invert (m : nat) A X (nullity : nat) v : bool :=
  let w := fgemvp NoTrans m m 1 A v 0 (fun=> 0) in
  let v := fgemvp NoTrans m m 1 X w (-1) v in
  iszero m v || (nullity != 0%N).

Variable bk : nat.

(** checkers/checker_pluq.inl:81-147.  A is the matrix before the call, X, P,
    Q, r what PLUQ returned; [junk] the buffer _w of size max(m,n). *)
Definition check_PLUQ (d : diag) (m n : nat) A X (r : nat) (P Q : nat -> nat) v (junk : nat -> F) : bool :=
  let w := fgemvp NoTrans m n 1 A v 0 (fun=> 0) in
  let x := fun i => if (i < n)%N then v i else junk i in
  let x := as_col (applyP bk SLeft NoTrans 1 0 n Q) x in
  let x := as_col (ftrmm SLeft Upper NoTrans d r 1 1 X) x in
  let x := if (r < n)%N then as_col (fun W => fgemm NoTrans NoTrans r 1 (n - r) 1 (sub 0 r X) (sub r 0 W) 1 W) x else x in
  let x := if (r < m)%N then as_col (fun W => at_ r 0 (fgemm NoTrans NoTrans (m - r) 1 r 1 (sub r 0 X) W 0) W) x else x in
  let x := as_col (ftrmm SLeft Lower NoTrans (odiag d) r 1 1 X) x in
  let x := as_col (applyP bk SLeft Trans 1 0 m P) x in
  all (fun i => w i == x i) (iota 0 m).

(** fdot(F, n, x, 1, y, 1), by its value. *)
Definition dot (n : nat) x y : F := rsum n (fun i => x i * y i).

(** Product of the diagonal with the sign of the permutations. *)
Definition signed_diag (n : nat) X (P Q : nat -> nat) (d0 : F) : F :=
  let dd := iteri n (fun i d => d * X i i) d0 in
  let count := iteri n (fun i c => if P i != i then c.+1 else c) 0%N in
  let count := iteri n (fun i c => if Q i != i then c.+1 else c) count in
  if odd count then - dd else dd.

(** checkers/checker_det.inl:81-171.  The n x 2 array u holds u in column 0
    and v in column 1. *)
Definition check_Det (n : nat) A (det : F) X (P Q : nat -> nat) (uv : grid F) w : bool :=
  let t := fgemvp Trans n n 1 A w 0 (fun=> 0) in
  let du := dot n (uv^~ 0%N) t in
  let dv := dot n (uv^~ 1%N) t in
  let uv := applyP bk SLeft NoTrans 2 0 n Q uv in
  let w := as_row (applyP bk SRight Trans 1 0 n P) w in
  let uv := ftrmm SLeft Upper NoTrans NonUnit n 2 1 X uv in
  let w := as_row (ftrmm SRight Lower NoTrans Unit 1 n 1 X) w in
  let zu := dot n w (uv^~ 0%N) in
  let zv := dot n w (uv^~ 1%N) in
  [&& zu == du, zv == dv & signed_diag n X P Q 1 == det].

(** checkers/checker_charpoly.inl:58-168.  [g] lists the coefficients, [lambda]
    and [v] (for the embedded PLUQ checker) are drawn.  [*Ac] is read before
    the loop: for n = 0 this is outside the allocation, the result is None. *)
Definition check_charpoly (thr n : nat) A (g : seq F) (lambda : F) v (junk : nat -> F) : option bool :=
  let h := foldr (fun a h => h * lambda + a) 0 g in
  let Ac := fun i j => if (i == j) && (i < n)%N then A i j - lambda else A i j in
  let: Pluq X P Q R := PLUQ bk NonUnit thr n n Ac in
  if ~~ check_PLUQ NonUnit n n Ac X R P Q v junk then Some false else
  if n == 0%N then None else
  let det := iteri n.-1 (fun i d => d * X i.+1 i.+1) (X 0%N 0%N) in
  let det := if odd n then - det else det in
  let t := iteri n (fun i c => let c := if P i != i then c.+1 else c in
                               if Q i != i then c.+1 else c) 0%N in
  let det := if odd t then - det else det in
  Some (h == det).

End Check.
