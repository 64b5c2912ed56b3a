(** * Reading and printing small matrices over Z/pZ, for the examples *)
From mathcomp Require Import all_ssreflect all_algebra.
From Verif Require Import Grid.
Set Implicit Arguments.
Unset Strict Implicit.
Unset Printing Implicit Defensive.
Local Open Scope ring_scope.

(** A literal matrix, zero outside. *)
Definition gl (p : nat) (l : seq (seq nat)) : grid 'F_p := fun i j => (nth 0%N (nth [::] l i) j)%:R.
(** The m x n window, and the first n entries of an index array. *)
Definition out (p m n : nat) (X : grid 'F_p) : seq (seq nat) :=
  [seq [seq nat_of_ord (X i j) | j <- iota 0 n] | i <- iota 0 m].
Definition out1 (n : nat) (p : nat -> nat) : seq nat := [seq p i | i <- iota 0 n].
