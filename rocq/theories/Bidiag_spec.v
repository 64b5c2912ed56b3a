(** * What the compact form of a Bruhat generator has to preserve *)
From mathcomp Require Import all_ssreflect all_algebra.
From Verif Require Import Grid Bruhat_spec.
Set Implicit Arguments.
Unset Strict Implicit.
Unset Printing Implicit Defensive.
Import GRing.Theory.
Local Open Scope ring_scope.

(** The pivots belong to a left triangular matrix of quasi-separability order at
    most s: at most s pivots in a leading block that reaches the antidiagonal
    without crossing it. *)
Definition qs_pivots (N s r : nat) (P Q : nat -> nat) : Prop :=
  forall i, (i < N)%N -> (nlead P Q r i.+1 (N - 1 - i) <= s)%N.

(** A has the shape of the upper (lower) factor: a row (column) for each pivot,
    from the pivot to the antidiagonal. *)
Definition bruhat_shape (F : fieldType) (up : bool) (N r : nat) (P Q : nat -> nat) (A : grid F) : Prop :=
  forall i j, (i < N)%N -> (j < N)%N -> A i j != 0 ->
    exists k, [/\ (k < r)%N, (if up then P k = i /\ (Q k <= j)%N else Q k = j /\ (P k <= i)%N) & (i + j + 1 < N)%N].
