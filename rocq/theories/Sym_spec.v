(** * What the symmetric routines are for *)
From mathcomp Require Import all_ssreflect all_algebra.
From Verif Require Import Grid Perm_model Perm_spec Tri_model Tri_spec Sym_model.
Set Implicit Arguments.
Unset Strict Implicit.
Unset Printing Implicit Defensive.
Import GRing.Theory.
Local Open Scope ring_scope.

Section Spec.
Variable F : fieldType.
Implicit Types A B C D S X : grid F.

(** The designated triangle of X holds beta C + alpha M. *)
Definition tri_update (u : uplo) (N : nat) (alpha : F) (M : grid F) (beta : F) (C X : grid F) : Prop :=
  forall i j, (i < N)%N -> (j < N)%N -> in_tri u i j -> X i j = alpha * M i j + beta * C i j.

(** Every cell outside the designated triangle is unchanged. *)
Definition tri_only (u : uplo) (N : nat) (C X : grid F) : Prop :=
  forall i j, ~~ [&& i < N, j < N & in_tri u i j]%N -> X i j = C i j.

(** op(A) op(A)^T, op(A) E op(A)^T, op(A) op(B)^T: entries. *)
Definition gram (t : transp) (K : nat) A : grid F := fun i j => \sum_(l < K) optr t A i l * optr t A j l.
Definition gramE (t : transp) (K : nat) A (E : grid F) : grid F :=
  fun i j => \sum_(l < K) \sum_(m < K) optr t A i l * E l m * optr t A j m.
Definition cross (t : transp) (K : nat) A B : grid F := fun i j => \sum_(l < K) optr t A i l * optr t B j l.

(** The diagonal matrix of D. *)
Definition dmx (D : nat -> F) : grid F := fun l m => if l == m then D l else 0.

(** Block diagonal: tb marks the first column of every 2x2 block, which is
    antidiagonal with D at its first index. *)
Definition blocks_ok (K : nat) (tb : seq bool) : Prop :=
  size tb = K /\ forall l, nth false tb l -> (l.+1 < K)%N /\ nth false tb l.+1 = false.
Definition bmx (tb : seq bool) (D : nat -> F) : grid F := fun l m =>
  if nth false tb l then (if m == l.+1 then D l else 0)
  else if (0 < l)%N && nth false tb l.-1 then (if m == l.-1 then D l.-1 else 0)
  else if m == l then D l else 0.

(** X = op(A) E on N x K, the rest as in A. *)
Definition scaled_by (t : transp) (N K : nat) (E A X : grid F) : Prop :=
  forall i l, optr t X i l =
    if ((i < N) && (l < K))%N then \sum_(m < K) optr t A i m * E m l else optr t A i l.

(** The symmetric matrix of which the designated triangle is stored. *)
Definition symm (u : uplo) A : grid F := fun i j => if in_tri u i j then A i j else A j i.

(** Its leading k x k block. *)
Definition lead (u : uplo) (k : nat) A : 'M[F]_k := mx k k (symm u A).
(** ftrstr: the unknown is unit triangular exactly when both A and B are. *)
Definition diagX (dA dB : diag) : diag := match dA, dB with Unit, Unit => Unit | _, _ => NonUnit end.

(** The left-hand side of the equation ftrssyr2k solves for the triangle X. *)
Definition ssyr2k u dA N A X : 'M[F]_N :=
  let TA := trimx u dA N A in let TX := trimx u NonUnit N X in
  if u is Upper then TA^T *m TX + TX^T *m TA else TA *m TX^T + TX *m TA^T.

(** The product of the factors an LDL^T factorisation stores in one array. *)
Definition dg n (E : nat -> F) : 'M[F]_n := diag_mx (\row_(i < n) E i).
Definition unitLDL u N A : 'M[F]_N :=
  let T := trimx u Unit N A in let D := dg N (fun i => A i i) in
  if u is Upper then T^T *m D *m T else T *m D *m T^T.
End Spec.
