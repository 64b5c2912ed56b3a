(** * Strided vectors: what faxpy and fscal are to compute *)
From Coq Require Import ZArith.
From Verif Require Import Red_model.
Open Scope Z_scope.

(** Entry i of y is related by [R] to the former entries i of x and y; every
    cell outside y and the temporaries [tmp] is unchanged. *)
Definition updated (R : Z -> Z -> Z -> Prop) (tmp : nat -> Prop) (n x incx y incy : nat) (m m' : mem) : Prop :=
  (forall i, (i < n)%nat -> R (m (x + i * incx)%nat) (m (y + i * incy)%nat) (m' (y + i * incy)%nat)) /\
  (forall z, (forall i, (i < n)%nat -> z <> (y + i * incy)%nat) -> ~ tmp z -> m' z = m z).

(** x and y have positive increments and share no entry. *)
Definition apart (n x incx y incy : nat) : Prop :=
  (0 < incx)%nat /\ (0 < incy)%nat /\
  forall i j, (i < n)%nat -> (j < n)%nat -> (x + i * incx)%nat <> (y + j * incy)%nat.

(** The two buffers of n cells the allocator returns: apart from each other, from
    x and from y. *)
Definition buffers (n xc yc z : nat) : Prop := (xc <= z < xc + n)%nat \/ (yc <= z < yc + n)%nat.
Definition fresh (n x incx y incy xc yc : nat) : Prop :=
  ((xc + n <= yc)%nat \/ (yc + n <= xc)%nat) /\
  forall i, (i < n)%nat -> ~ buffers n xc yc (x + i * incx)%nat /\ ~ buffers n xc yc (y + i * incy)%nat.

(** The same for M x n matrices with leading dimensions. *)
Definition updated2 (R : Z -> Z -> Z -> Prop) (M n x ldx y ldy : nat) (m m' : mem) : Prop :=
  (forall i j, (i < M)%nat -> (j < n)%nat ->
     R (m (x + i * ldx + j)%nat) (m (y + i * ldy + j)%nat) (m' (y + i * ldy + j)%nat)) /\
  (forall z, (forall i j, (i < M)%nat -> (j < n)%nat -> z <> (y + i * ldy + j)%nat) -> m' z = m z).
Definition apart2 (M n x ldx y ldy : nat) : Prop :=
  (n <= ldx)%nat /\ (n <= ldy)%nat /\
  forall i j i' j', (i < M)%nat -> (j < n)%nat -> (i' < M)%nat -> (j' < n)%nat ->
    (x + i * ldx + j)%nat <> (y + i' * ldy + j')%nat.
