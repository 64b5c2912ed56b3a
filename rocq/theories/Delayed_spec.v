(** * Specification vocabulary for exact arithmetic modulo p *)
From Coq Require Import ZArith List Permutation.
From Verif Require Import Delayed_model.
Open Scope Z_scope.

Fixpoint Zsum (f : nat -> Z) (n : nat) : Z :=
  match n with O => 0 | S n => Zsum f n + f n end.

(** [r] is the representative, in the interval [lo, lo+p-1], of [z] mod p. *)
Definition is_repr (p lo z r : Z) : Prop :=
  lo <= r <= lo + p - 1 /\ exists q, r - z = q * p.

(** Elements of Z/p stored as integers of [lo, lo+p-1]. *)
Definition reduced (p lo x : Z) : Prop := lo <= x <= lo + p - 1.

(** A field representation: at least two elements, interval containing 0. *)
Definition wf (F : fld) := 2 <= fp F /\ flo F <= 0 <= fhi F.

(** A summation order uses every term exactly once. *)
Definition fair (ord : order) := forall call l, Permutation (leaves (ord call l)) l.

(** The first [n] entries of a vector are reduced. *)
Definition vin (F : fld) (n : nat) (x : nat -> Z) :=
  forall i, (i < n)%nat -> flo F <= x i <= fhi F.

(** Head-room condition the delayed products need when beta = 0: either one
    block suffices for the whole inner dimension, or a maximal block of
    products plus one reduced element is still exactly representable. *)
Definition headroom (F : fld) (prec : Z) (k : nat) (beta : Z) : Prop :=
  let m := Z.max (- flo F) (flo F + fp F - 1) in let M := 2 ^ prec - 1 in
  beta = 0 -> Z.of_nat k * (m * m) <= M \/ M / (m * m) * (m * m) + m <= M.
