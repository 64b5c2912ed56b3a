(** * What the packed int64 product has to compute (independent of the code) *)
From Coq Require Import ZArith.
From mathcomp Require Import all_ssreflect.
Set Implicit Arguments.
Unset Strict Implicit.
Unset Printing Implicit Defensive.

Fixpoint zsum (n : nat) (f : nat -> Z) : Z := if n is k.+1 then (zsum k f + f k)%Z else 0%Z.

(** Entry (i, j) of op(X), X stored by columns with leading dimension ld. *)
Definition cment (tr : bool) (X : nat -> Z) (ld i j : nat) : Z := if tr then X (i * ld + j) else X (i + j * ld).
(** The same by rows. *)
Definition rment (tr : bool) (X : nat -> Z) (ld i j : nat) : Z := if tr then X (i + j * ld) else X (i * ld + j).

(** Entry (i, j) of the product over the inner indices k0 .. k0 + d - 1. *)
Definition dot (a b : nat -> nat -> Z) (k0 d i j : nat) : Z := zsum d (fun k => (a i (k0 + k)%N * b (k0 + k)%N j)%Z).
Definition adot (a b : nat -> nat -> Z) (d i j : nat) : Z := zsum d (fun k => (Z.abs (a i k) * Z.abs (b k j))%Z).

Definition fits (n z : Z) : Prop := (- 2 ^ (n - 1) <= z < 2 ^ (n - 1))%Z.

(** C is the window of an M x N matrix stored by rows: nothing else changes. *)
Definition only_window (M N ldc : nat) (C C' : nat -> Z) : Prop :=
  forall q, (forall i j, i < M -> j < N -> q <> i * ldc + j) -> C' q = C q.
