(** * Specification of triangular systems modulo p *)
From Coq Require Import ZArith List.
From Verif Require Import Delayed_spec Trsmb_model.
Open Scope Z_scope.

(** [x] is made of elements of the interval [lo, lo+p-1] and solves, modulo p,
    the lower triangular n x n system A x = b, whose diagonal is read from A or
    taken equal to 1. *)
Definition solves (p lo : Z) (unit : bool) (n : nat) (A : nat -> nat -> Z) (b x : nat -> Z) : Prop :=
  forall i, (i < n)%nat ->
    reduced p lo (x i) /\
    exists q, Zsum (fun j => A i j * x j) i + (if unit then 1 else A i i) * x i - b i = q * p.

(** Moduli p for which two products of worst-case elements do not fit, although
    one product, plus what TRSMBound adds to it, does: [c] is the largest
    absolute value of an element, [M] the largest exactly stored integer. *)
Definition band_pos (c M : Z) : Prop := c * c <= M /\ M + 1 < 2 * (c * c) + c.
Definition band_bal (c M : Z) : Prop := c * c + c <= M /\ M + 1 < 2 * (c * c) + c.

(** A modulus that the class accepts: elements are stored exactly;
    a balanced representation needs an odd modulus. *)
Definition okmod (r : repr) (p prec : Z) :=
  2 <= p /\ p <= 2 ^ prec /\ (r = Bal -> Z.odd p = true).
