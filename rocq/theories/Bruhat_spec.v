(** * What a Bruhat generator of the left triangular part of a matrix is *)
From mathcomp Require Import all_ssreflect all_algebra.
From Verif Require Import Grid Perm_spec Tri_model Tri_spec.
Set Implicit Arguments.
Unset Strict Implicit.
Unset Printing Implicit Defensive.
Import GRing.Theory.
Local Open Scope ring_scope.

Section Spec.
Variable F : fieldType.
Implicit Types A X : grid F.

(** Row k of the upper generator and column k of the lower one, read off the
    matrix X at the pivot (P k, Q k): the entries strictly left of the
    antidiagonal, from the pivot on, except those in the column (row) of an
    earlier pivot.  The pivot is 1 in one of the two. *)
Definition Ub (d : diag) (N : nat) (P Q : nat -> nat) X (k c : nat) : F :=
  if [&& (Q k <= c)%N, (c + P k + 1 < N)%N & ~~ has (fun j => Q j == c) (iota 0 k)] then
    if (c == Q k) && (if d is Unit then true else false) then 1 else X (P k) c
  else 0.
Definition Lb (d : diag) (N : nat) (P Q : nat -> nat) X (i k : nat) : F :=
  if [&& (P k <= i)%N, (i + Q k + 1 < N)%N & ~~ has (fun j => P j == i) (iota 0 k)] then
    if (i == P k) && (if d is Unit then true else false) then 1 else X i (Q k)
  else 0.

(** The factors as N x N matrices: row P k of U is the k-th upper generator,
    column Q k of L the k-th lower one, the others are zero. *)
Definition Umat (d : diag) (N r : nat) (P Q : nat -> nat) X (i j : nat) : F :=
  \sum_(k < r) (if P k == i then Ub d N P Q X k j else 0).
Definition Lmat (d : diag) (N r : nat) (P Q : nat -> nat) X (i j : nat) : F :=
  \sum_(k < r) (if Q k == j then Lb d N P Q X i k else 0).
(** The pivot matrix. *)
Definition Rmat (r : nat) (P Q : nat -> nat) (i j : nat) : F :=
  \sum_(k < r) ((P k == i) && (Q k == j))%:R.

(** Number of pivots in the leading i x j part. *)
Definition nlead (P Q : nat -> nat) (r i j : nat) : nat :=
  count (fun k => (P k < i) && (Q k < j))%N (iota 0 r).

(** The pivots are strictly left of the antidiagonal, at most one per row and
    column. *)
Definition lt_pivots (N r : nat) (P Q : nat -> nat) : Prop :=
  [/\ forall k, (k < r)%N -> (P k + Q k + 1 < N)%N,
      forall j k, (j < r)%N -> (k < r)%N -> P j = P k -> j = k &
      forall j k, (j < r)%N -> (k < r)%N -> Q j = Q k -> j = k].

(** The quasi-separability order of the left triangular part: the largest rank
    of a leading block that reaches the antidiagonal without crossing it. *)
Definition qs_order (N : nat) A : nat := \max_(i < N) \rank (mx i.+1 (N - 1 - i) A).

End Spec.
