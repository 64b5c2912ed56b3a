(** * Krylov iterates, annihilating polynomials *)
From mathcomp Require Import all_ssreflect all_algebra.
From Verif Require Import Grid Tri_model.
Set Implicit Arguments.
Unset Strict Implicit.
Unset Printing Implicit Defensive.
Import GRing.Theory.
Local Open Scope ring_scope.

Section Spec.
Variable F : fieldType.
Implicit Types A X : grid F.

(** A^i v, for the N x N matrix A *)
Fixpoint kry (N : nat) A (v : nat -> F) (i : nat) : nat -> F :=
  if i is i'.+1 then fun r => rsum N (fun c => A r c * kry N A v i' c) else v.

(** p(A) v = 0 *)
Definition annuls (N : nat) A (v : nat -> F) (p : seq F) : Prop :=
  forall r, (r < N)%N -> \sum_(i < size p) nth 0 p i * kry N A v i r = 0.

(** p is the monic polynomial of least degree with p(A) v = 0 *)
Definition vec_minpoly (N : nat) A (v : nat -> F) (p : seq F) : Prop :=
  [/\ last 0 p = 1, annuls N A v p &
      forall q, (size q < size p)%N -> annuls N A v q -> forall i, nth 0 q i = 0].

End Spec.
