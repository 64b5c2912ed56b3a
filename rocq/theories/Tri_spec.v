(** * What a triangular argument means *)
From mathcomp Require Import all_ssreflect all_algebra.
From Verif Require Import Grid Perm_model Perm_spec Tri_model.
Set Implicit Arguments.
Unset Strict Implicit.
Unset Printing Implicit Defensive.
Import GRing.Theory.
Local Open Scope ring_scope.

Section Spec.
Variable F : fieldType.
Implicit Type A : grid F.

(** The triangular matrix designated by (uplo, diag, A): entries of the other
    strict triangle are zero whatever A contains, and so is the diagonal one in
    unit mode. *)
Definition tri (u : uplo) (d : diag) A : grid F := fun i j =>
  if i == j then (if d is Unit then 1 else A i i)
  else if (if u is Lower then j < i else i < j)%N then A i j else 0.

Definition trimx (u : uplo) (d : diag) (n : nat) A : 'M[F]_n := mx n n (tri u d A).

(** op(T) for a square matrix. *)
Definition opmx (t : transp) (n : nat) (T : 'M[F]_n) : 'M[F]_n := if t is Trans then T^T else T.

(** The diagonal is invertible: nothing to ask in unit mode. *)
Definition inv_diag (d : diag) (n : nat) A : Prop :=
  d = NonUnit -> forall i, (i < n)%N -> A i i != 0.

(** Equal outside the m x n window. *)
Definition frame (m n : nat) (X B : grid F) : Prop :=
  forall i j, ~~ ((i < m) && (j < n))%N -> X i j = B i j.

(** Equal outside the cells of the triangle (diagonal excluded in unit mode). *)
Definition tri_frame (u : uplo) (d : diag) (n : nat) (X A : grid F) : Prop :=
  forall i j, ~~ ((i < n) && (j < n) && ((if u is Lower then j < i else i < j) || (if d is NonUnit then i == j else false)))%N ->
  X i j = A i j.

End Spec.
