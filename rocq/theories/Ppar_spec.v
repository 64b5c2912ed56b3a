(** * What the parallel tile forms keep of an echelon form *)
From mathcomp Require Import all_ssreflect all_algebra.
From Verif Require Import Grid Perm_spec.
Set Implicit Arguments.
Unset Strict Implicit.
Unset Printing Implicit Defensive.
Import GRing.Theory.
Local Open Scope ring_scope.

Section Spec.
Variable F : fieldType.
Implicit Types A E T : grid F.

(** The first R rows of E have nonzero entries in columns further and further
    right, the other rows are zero; nothing is said of the entries to the left. *)
Definition staircase (m n R : nat) (piv : nat -> nat) E : Prop :=
  [/\ (R <= m)%N, forall t, (t < R)%N -> (piv t < n)%N,
      forall t t', (t < t' < R)%N -> (piv t < piv t')%N,
      forall t, (t < R)%N -> E t (piv t) != 0 &
      forall i j, (R <= i < m)%N -> (j < n)%N -> E i j = 0].

(** Reduced: the columns piv 0, piv 1, ... are those of the identity. *)
Definition unit_cols (R : nat) (piv : nat -> nat) E : Prop :=
  forall s t, (s < R)%N -> (t < R)%N -> E s (piv t) = (s == t)%:R.

(** R is the rank of A and T is invertible with T A = E (A T = E for columns). *)
Definition row_reached (M N : nat) A (R : nat) E T :=
  [/\ \rank (mx M N A) = R, exists piv, staircase M N R piv E, mx M M T \in unitmx & mx M M T *m mx M N A = mx M N E].
Definition rrow_reached (M N : nat) A (R : nat) E T :=
  [/\ \rank (mx M N A) = R, exists2 piv, staircase M N R piv E & unit_cols R piv E,
      mx M M T \in unitmx & mx M M T *m mx M N A = mx M N E].
Definition col_reached (M N : nat) A (R : nat) E T :=
  [/\ \rank (mx M N A) = R, exists piv, staircase N M R piv (tr E), mx N N T \in unitmx & mx M N A *m mx N N T = mx M N E].
Definition rcol_reached (M N : nat) A (R : nat) E T :=
  [/\ \rank (mx M N A) = R, exists2 piv, staircase N M R piv (tr E) & unit_cols R piv (tr E),
      mx N N T \in unitmx & mx M N A *m mx N N T = mx M N E].

End Spec.
