(** * Specification of transposition in a flat memory *)
From Coq Require Import Arith.

(** Cells of an m x n matrix stored at a with leading dimension lda. *)
Definition cell (m n a lda x : nat) : Prop := exists i j, i < m /\ j < n /\ x = a + i * lda + j.

(** The memory after the call holds at b (n x m, leading dimension ldb) the
    transpose of what was at a (m x n, leading dimension lda), and cells
    outside b which are not in the temporaries are unchanged. *)
Definition transposed {T} (m n a lda b ldb : nat) (tmp : nat -> Prop) (M M' : nat -> T) : Prop :=
  (forall i j, i < m -> j < n -> M' (b + j * ldb + i) = M (a + i * lda + j)) /\
  (forall x, ~ cell n m b ldb x -> ~ tmp x -> M' x = M x).

Definition block (t n x : nat) : Prop := t <= x < t + n.
