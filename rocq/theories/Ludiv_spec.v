(** * The CUP factorisation: echelon L, rows kept in place *)
From mathcomp Require Import all_ssreflect all_algebra.
From Verif Require Import Grid Perm_spec Tri_model Pluq_spec.
Set Implicit Arguments.
Unset Strict Implicit.
Unset Printing Implicit Defensive.
Import GRing.Theory.
Local Open Scope ring_scope.

Section Spec.
Variable F : fieldType.
Implicit Types A X : grid F.

(** The column echelon factor held in X: column t has its leading entry in row
    Q t, the stored one in unit mode (U has the unit diagonal), 1 otherwise. *)
Definition CL (d : diag) X (Q : nat -> nat) (i t : nat) : F :=
  if (Q t < i)%N then X i t
  else if i == Q t then (if d is Unit then X i t else 1) else 0.

(** A (M x N) = C U P where C is in column echelon form with pivot rows
    Q 0 < Q 1 < ..., U is upper triangular R x N held in the first R rows of X,
    and P is the product of the exchanges (t, P t), t < R. *)
Definition cup (d : diag) (M N : nat) A X (P Q : nat -> nat) (R : nat) : Prop :=
  [/\ (R <= M)%N /\ (R <= N)%N,
      forall t, (t < R)%N -> (t <= P t < N)%N,
      (forall t, (t < R)%N -> (Q t < M)%N) /\
      (forall t t', (t < t' < R)%N -> (Q t < Q t')%N),
      forall t, (t < R)%N -> (if d is Unit then X (Q t) t else X t t) != 0 &
      forall i l, (i < M)%N -> (l < N)%N ->
        A i (sigma P 0 R l) = \sum_(t < R) CL d X Q i t * Up d X t l].

End Spec.
