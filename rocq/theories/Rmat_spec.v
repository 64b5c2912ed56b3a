(** * What the random generators promise *)
From mathcomp Require Import all_ssreflect.
Set Implicit Arguments.
Unset Strict Implicit.
Unset Printing Implicit Defensive.

(** The first R entries are different and below N. *)
Definition distinct_below (N R : nat) (P : nat -> nat) : Prop :=
  (forall k, k < R -> P k < N) /\ forall k l, k < R -> l < R -> P k = P l -> k = l.

(** With every pivot (i, j) comes the pivot (j, i). *)
Definition pairs (k : nat) (rows cols : nat -> nat) : Prop :=
  forall b, b < k -> exists2 l, l < k & rows l = cols b /\ cols l = rows b.

(** A symmetric N x N rank profile matrix with R pivots. *)
Definition sym_pivots (N R : nat) (rows cols : nat -> nat) : Prop :=
  [/\ distinct_below N R rows, distinct_below N R cols & pairs R rows cols].
