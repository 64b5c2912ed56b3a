(** * Kernels and rank profiles *)
From mathcomp Require Import all_ssreflect all_algebra.
From Verif Require Import Grid Perm_spec.
Set Implicit Arguments.
Unset Strict Implicit.
Unset Printing Implicit Defensive.
Import GRing.Theory.
Local Open Scope ring_scope.

Section Spec.
Variable F : fieldType.
Implicit Type A : grid F.

(** Row i of A (n columns) is not a combination of the rows before it; same
    for columns. *)
Definition new_row (n : nat) A (i : nat) : bool := ~~ (mx 1 n (fun _ j => A i j) <= mx i n A)%MS.
Definition new_col (m : nat) A (j : nat) : bool := new_row m (tr A) j.

(** The row (column) rank profile of the m x n window. *)
Definition row_profile (m n : nat) A : seq nat := [seq i <- iota 0 m | new_row n A i].
Definition col_profile (m n : nat) A : seq nat := [seq j <- iota 0 n | new_col m A j].

(** The columns of X are a basis of the right kernel of the matrix A. *)
Definition right_basis m n k (A : 'M[F]_(m, n)) (X : 'M[F]_(n, k)) : Prop :=
  A *m X = 0 /\ \rank X = k /\ forall y : 'M[F]_(n, 1), A *m y = 0 -> exists c, y = X *m c.
Definition left_basis m n k (A : 'M[F]_(m, n)) (X : 'M[F]_(k, m)) : Prop :=
  X *m A = 0 /\ \rank X = k /\ forall y : 'M[F]_(1, m), y *m A = 0 -> exists c, y = c *m X.

(** [info] is false exactly when the system A S = B (left) or S A = B (right)
    with k right-hand sides has a solution, and then Z is one. *)
Definition answers (s : bool) (M N k : nat) A (Z B : grid F) (info : bool) : Prop :=
  if s then
    (~~ info <-> exists S : 'M[F]_(N, k), mx M N A *m S = mx M k B) /\
    (~~ info -> mx M N A *m mx N k Z = mx M k B)
  else
    (~~ info <-> exists S : 'M[F]_(k, M), S *m mx M N A = mx k N B) /\
    (~~ info -> mx k M Z *m mx M N A = mx k N B).

(** Contents of a strided vector, and of the cells it does not use. *)
Definition vec (inc : nat) (x : nat -> F) (i : nat) : F := x (i * inc)%N.
Definition vec_frame (n inc : nat) (x y : nat -> F) : Prop :=
  forall c, ~~ ((inc %| c) && (c %/ inc < n))%N -> x c = y c.

(** A vector as a column (row) matrix. *)
Definition cv n (v : nat -> F) : 'M[F]_(n, 1) := mx n 1 (fun i _ => v i).
Definition rv n (v : nat -> F) : 'M[F]_(1, n) := mx 1 n (fun _ j => v j).

End Spec.
