(** * Monotonic permutations *)
From mathcomp Require Import all_ssreflect.
From Verif Require Import Grid Perm_model Perm_spec.
Set Implicit Arguments.
Unset Strict Implicit.
Unset Printing Implicit Defensive.

(** s is a permutation of {0..n-1} with the R first values of q; the other
    values increase. *)
Definition monotonic (n R : nat) (q s : nat -> nat) : Prop :=
  [/\ is_perm n s, forall i, i < R -> s i = q i & forall i j, R <= i -> i < j -> j < n -> s i < s j].

(** B is A with its n first rows permuted, in the M first columns: row i of B is
    row s i of A (or the converse with [inv]). *)
Definition rows_moved (T : Type) (inv : bool) (n M : nat) (s : nat -> nat) (A B : grid T) : Prop :=
  (forall i j, i < n -> j < M -> if inv then B (s i) j = A i j else B i j = A (s i) j) /\
  (forall i j, (n <= i) || (M <= j) -> B i j = A i j).
