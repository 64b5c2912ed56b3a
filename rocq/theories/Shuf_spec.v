(** * Specification of the register shuffles *)
From Coq Require Import Arith NArith List.

Section Spec.
Context {T : Type}.
Implicit Types a b r : nat -> T.

(** [n] elements, each made of [g] consecutive lanes. *)

(** [a0, b0, a1, b1, ...] on the first half of the elements of a and b. *)
Definition interleave_low (g n : nat) (f : (nat -> T) -> (nat -> T) -> nat -> T) : Prop :=
  forall a b j k, j < n / 2 -> k < g ->
  f a b ((2 * j) * g + k) = a (j * g + k) /\ f a b ((2 * j + 1) * g + k) = b (j * g + k).

(** the same on the second half *)
Definition interleave_high (g n : nat) (f : (nat -> T) -> (nat -> T) -> nat -> T) : Prop :=
  forall a b j k, j < n / 2 -> k < g ->
  f a b ((2 * j) * g + k) = a ((n / 2 + j) * g + k) /\
  f a b ((2 * j + 1) * g + k) = b ((n / 2 + j) * g + k).

(** [a0, a2, ..., b0, b2, ...] ([o] = 0) and [a1, a3, ..., b1, b3, ...] ([o] = 1) *)
Definition compress (o g n : nat) (f : (nat -> T) -> (nat -> T) -> nat -> T) : Prop :=
  forall a b j k, j < n / 2 -> k < g ->
  f a b (j * g + k) = a ((2 * j + o) * g + k) /\
  f a b ((n / 2 + j) * g + k) = b ((2 * j + o) * g + k).

(** n registers of n elements, transposed *)
Definition transposes (n : nat) (f : (nat -> nat -> T) -> list (nat -> T)) : Prop :=
  forall R i j, i < n -> j < n -> length (f R) = n /\ forall d, nth i (f R) d j = R j i.

(** The element [i] comes from b when the bit [i] of [s] is set, from a otherwise. *)
Definition blends (g n : nat) (s : N) (f : (nat -> T) -> (nat -> T) -> nat -> T) : Prop :=
  forall a b i k, i < n -> k < g ->
  f a b (i * g + k) = (if N.testbit s (N.of_nat i) then b else a) (i * g + k).

(** The fields of 4 bits of a shuffle mask. *)
Definition nibble (s : N) (k : nat) : N := N.modulo (N.div s (16 ^ N.of_nat k)) 16.
End Spec.
