(** * Textbook notions about permutations and matrices *)
From mathcomp Require Import all_ssreflect all_algebra.
From Verif Require Import Grid.
Set Implicit Arguments.
Unset Strict Implicit.
Unset Printing Implicit Defensive.

(** The exchange of i and j. *)
Definition transpose_ij (i j x : nat) : nat :=
  if x == i then j else if x == j then i else x.

(** The map obtained from the transposition list p[b..e-1]: the product, in
    this order, of the exchanges (b p[b]), (b+1 p[b+1]), ...; as a function,
    the last exchange acts first. *)
Definition sigma (p : nat -> nat) (b e : nat) (x : nat) : nat :=
  foldr (fun i y => transpose_ij i (p i) y) x (iota b (e - b)).

(** Its inverse. *)
Definition sigmaV (p : nat -> nat) (b e : nat) (x : nat) : nat :=
  foldl (fun y i => transpose_ij i (p i) y) x (iota b (e - b)).

(** A permutation of {0..n-1} given by its values. *)
Definition is_perm (n : nat) (s : nat -> nat) : Prop :=
  (forall i, i < n -> s i < n) /\ (forall i j, i < n -> j < n -> s i = s j -> i = j).

(** A valid transposition list of length n. *)
Definition is_lapack (n : nat) (p : nat -> nat) : Prop :=
  forall i, i < n -> i <= p i < n.

(** The matrix held in the m x n window. *)
Definition mx (F : Type) (m n : nat) (A : grid F) : 'M[F]_(m, n) := \matrix_(i < m, j < n) A i j.

(** Identity on the first R indices, then s on the rest: Id_R (+) s. *)
Definition dsum (R : nat) (s : nat -> nat) (x : nat) : nat :=
  if x < R then x else R + s (x - R).

(** Rotation right by one of the first m indices: index 0 receives index
    m-1, index x receives index x-1. *)
Definition rot (m x : nat) : nat :=
  if x < m then (if x == 0 then m.-1 else x.-1) else x.

(** The block exchange [X0 X1 X2] -> [X0 X2 X1] with sizes a, b, c: source
    index of destination x. *)
Definition exch (a b c x : nat) : nat :=
  if x < a then x else if x < a + c then x + b else if x < a + c + b then x - c else x.

Import GRing.Theory.
Local Open Scope ring_scope.

(** The n x n matrix of the exchange of i and j, and the matrix of a
    transposition list: T_{e-1} * ... * T_{b+1} * T_b. *)
Definition Tmx (F : ringType) (n i j : nat) : 'M[F]_n :=
  \matrix_(a < n, b < n) ((b : nat) == transpose_ij i j a)%:R.
Definition Pmx (F : ringType) (n : nat) (p : nat -> nat) (b e : nat) : 'M[F]_n :=
  foldl (fun X i => Tmx F n i (p i) *m X) 1%:M (iota b (e - b)).
