(** * What a PLUQ factorisation is *)
From mathcomp Require Import all_ssreflect all_algebra.
From Verif Require Import Grid Perm_model Perm_spec Tri_model Tri_spec.
Set Implicit Arguments.
Unset Strict Implicit.
Unset Printing Implicit Defensive.
Import GRing.Theory.
Local Open Scope ring_scope.

Section Spec.
Variable F : fieldType.
Implicit Types A X : grid F.

(** L and U packed in one matrix: U has unit diagonal when d = Unit and L has
    otherwise; the other factor's diagonal is the stored one. *)
Definition Lo (d : diag) X (k t : nat) : F :=
  if (t < k)%N then X k t else if t == k then (if d is Unit then X k k else 1) else 0.
Definition Up (d : diag) X (t l : nat) : F :=
  if (t < l)%N then X t l else if t == l then (if d is Unit then 1 else X t t) else 0.

(** A = P^T L U Q with L of R columns and U of R rows: entry (s k, u l) of A
    is entry (k, l) of LU, the permutations being given as functions.  The
    pivots are nonzero and nothing else is stored. *)
Definition factors (d : diag) (M N : nat) A X (s u : nat -> nat) (R : nat) : Prop :=
  [/\ is_perm M s /\ is_perm N u, (R <= M)%N /\ (R <= N)%N,
      forall t, (t < R)%N -> X t t != 0,
      forall k l, (R <= k < M)%N -> (R <= l < N)%N -> X k l = 0 &
      forall k l, (k < M)%N -> (l < N)%N ->
        A (s k) (u l) = \sum_(t < R) Lo d X k t * Up d X t l].

(** Row (column) t of the pivots only influences later rows (columns) of A,
    and the rows (columns) without pivot stay in order. *)
Definition ordered (d : diag) (M N : nat) X (s u : nat -> nat) (R : nat) : Prop :=
  [/\ forall k t, (k < M)%N -> (t < R)%N -> Lo d X k t != 0 -> (s t <= s k)%N,
      forall t l, (t < R)%N -> (l < N)%N -> Up d X t l != 0 -> (u t <= u l)%N,
      forall i j, (R <= i < j)%N -> (j < M)%N -> (s i < s j)%N &
      forall i j, (R <= i < j)%N -> (j < N)%N -> (u i < u j)%N].

(** Matrix forms of the factors. *)
Definition Lmx (d : diag) (M R : nat) X : 'M[F]_(M, R) := mx M R (Lo d X).
Definition Umx (d : diag) (R N : nat) X : 'M[F]_(R, N) := mx R N (Up d X).

(** Number of pivots in the leading i x j part of A. *)
Definition npiv (s u : nat -> nat) (R i j : nat) : nat :=
  count (fun t => (s t < i) && (u t < j))%N (iota 0 R).

End Spec.
