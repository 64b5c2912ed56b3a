(** * Specification vocabulary for vector operations *)
From Coq Require Import ZArith List.
From Verif Require Import Delayed_spec Red_model.
Open Scope Z_scope.

(** Two vectors of n elements are the same or do not overlap. *)
Definition same_or_disjoint (t a n : nat) : Prop := t = a \/ (t + n <= a)%nat \/ (a + n <= t)%nat.

(** After the call, cell t+i holds a value related by [R] to the inputs a[i],
    b[i] for every i < n, and every other cell is unchanged. *)
Definition elementwise (R : Z -> Z -> Z -> Prop) (t a b n : nat) (m m' : nat -> Z) : Prop :=
  (forall i, (i < n)%nat -> R (m (a + i)%nat) (m (b + i)%nat) (m' (t + i)%nat)) /\
  (forall x, ~ (t <= x < t + n)%nat -> m' x = m x).

(** Storage holding every integer of absolute value at most M exactly. *)
Definition holds (s : storage) (M : Z) : Prop :=
  match s with
  | Flt prec => 1 <= prec /\ M <= 2 ^ prec
  | SInt bits => 1 <= bits /\ M < 2 ^ (bits - 1)
  end.

(** Strided vectors: when writing c[i], no operand element still to be read
    lives in the same cell. *)
Definition strided_safe (n c incc a inca b incb : nat) : Prop :=
  (0 < incc)%nat /\
  forall i j, (i < j < n)%nat ->
    (c + i * incc)%nat <> (a + j * inca)%nat /\ (c + i * incc)%nat <> (b + j * incb)%nat.

Definition strided_result (f : Z -> Z -> Z) (n c incc a inca b incb : nat) (m m' : nat -> Z) : Prop :=
  (forall i, (i < n)%nat ->
     m' (c + i * incc)%nat = f (m (a + i * inca)%nat) (m (b + i * incb)%nat)) /\
  (forall x, (forall i, (i < n)%nat -> x <> (c + i * incc)%nat) -> m' x = m x).
