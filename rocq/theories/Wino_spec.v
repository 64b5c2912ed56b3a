(** * What a matrix product must do *)
From mathcomp Require Import all_ssreflect all_algebra.
From Verif Require Import Grid Perm_model Tri_model.
Set Implicit Arguments.
Unset Strict Implicit.
Unset Printing Implicit Defensive.
Import GRing.Theory.
Local Open Scope ring_scope.

Section Spec.
Variable F : comRingType.

(** D is C after C <- alpha * op(A) * op(B) + beta * C on its m x n window;
    the rest of the memory of C is unchanged. *)
Definition is_gemm (ta tb : transp) (m n k : nat) (alpha : F) (A B : grid F) (beta : F) (C D : grid F) :=
  forall i j, D i j =
    if (i < m)%N && (j < n)%N
    then alpha * (\sum_(t < k) optr ta A i t * optr tb B t j) + beta * C i j
    else C i j.

(** A product routine which is right on blocks of size m x n x k. *)
Definition gemm_right (g : transp -> transp -> nat -> nat -> nat -> F -> grid F -> grid F -> F -> grid F -> grid F)
    (m n k : nat) :=
  forall ta tb alpha A B beta C, is_gemm ta tb m n k alpha A B beta C (g ta tb m n k alpha A B beta C).

End Spec.
