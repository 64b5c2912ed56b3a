(** * Echelon forms *)
From mathcomp Require Import all_ssreflect all_algebra.
From Verif Require Import Grid Perm_spec.
Set Implicit Arguments.
Unset Strict Implicit.
Unset Printing Implicit Defensive.
Import GRing.Theory.
Local Open Scope ring_scope.

Section Spec.
Variable F : fieldType.
Implicit Types A E T : grid F.

(** The m x n matrix E has R nonzero rows, the first ones; the leading entry of
    row t is in column piv t, further right than that of the rows above. *)
Definition echelon_at (m n R : nat) (piv : nat -> nat) E : Prop :=
  [/\ (R <= m)%N, forall t, (t < R)%N -> (piv t < n)%N,
      forall t t', (t < t' < R)%N -> (piv t < piv t')%N,
      forall t, (t < R)%N -> E t (piv t) != 0 /\ (forall j, (j < piv t)%N -> E t j = 0) &
      forall i j, (R <= i < m)%N -> (j < n)%N -> E i j = 0].
Definition row_echelon (m n R : nat) E : Prop := exists piv, echelon_at m n R piv E.

(** Reduced: the leading entries are 1, and alone in their columns. *)
Definition reduced_row_echelon (m n R : nat) E : Prop := exists piv, echelon_at m n R piv E /\
  forall s t, (s < R)%N -> (t < R)%N -> E s (piv t) = (s == t)%:R.

(** Column versions. *)
Definition col_echelon (m n R : nat) E := row_echelon n m R (tr E).
Definition reduced_col_echelon (m n R : nat) E := reduced_row_echelon n m R (tr E).

(** R is the rank of A, E is in echelon form, and T is invertible with T A = E
    (A T = E for columns). *)
Definition row_answer (M N : nat) A (R : nat) E T :=
  [/\ \rank (mx M N A) = R, row_echelon M N R E, mx M M T \in unitmx & mx M M T *m mx M N A = mx M N E].
Definition rrow_answer (M N : nat) A (R : nat) E T :=
  [/\ \rank (mx M N A) = R, reduced_row_echelon M N R E, mx M M T \in unitmx & mx M M T *m mx M N A = mx M N E].
Definition col_answer (M N : nat) A (R : nat) E T :=
  [/\ \rank (mx M N A) = R, col_echelon M N R E, mx N N T \in unitmx & mx M N A *m mx N N T = mx M N E].
Definition rcol_answer (M N : nat) A (R : nat) E T :=
  [/\ \rank (mx M N A) = R, reduced_col_echelon M N R E, mx N N T \in unitmx & mx M N A *m mx N N T = mx M N E].

End Spec.
