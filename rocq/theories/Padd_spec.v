(** * What the parallel additions are to compute *)
From mathcomp Require Import all_ssreflect ssralg.
From Verif Require Import Par_model Par_spec.
Set Implicit Arguments.
Unset Strict Implicit.
Unset Printing Implicit Defensive.

(** C = f A B entry by entry on the old contents; nothing else has changed. *)
Definition combined (V : Type) (f : V -> V -> V) (m n : nat) (A B C : view) (mu mu' : mem V) : Prop :=
  (forall i j, i < m -> j < n -> mu' (cell C i j) = f (mu (cell A i j)) (mu (cell B i j))) /\
  (forall x, ~ in_win C m n x -> mu' x = mu x).

(** An operand is C itself or stored apart. *)
Definition same_or_apart (X C : view) : Prop := X = C \/ vreg X <> vreg C.
