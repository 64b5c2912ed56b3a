(** * The matrix a sequentially semi-separable generator stands for

    With blocks numbered from 0, D_b, P_{b+1}, Q_b, U_b, V_{b+1}, R_{b+1} and
    W_{b+1} are the s x s blocks whose first line is b s in the arrays (the
    drawing of ffpack_sss.inl:47-57). *)
From mathcomp Require Import all_ssreflect all_algebra.
From Verif Require Import Grid Perm_spec.
Set Implicit Arguments.
Unset Strict Implicit.
Unset Printing Implicit Defensive.
Import GRing.Theory.
Local Open Scope ring_scope.

Section Spec.
Variable F : fieldType.
Variable s : nat.
Implicit Types P Q R U V W D : grid F.

Definition blk (X : grid F) (b : nat) : 'M[F]_s := \matrix_(i, j) X (b * s + i)%N j.

(** R_{b+d} ... R_{b+1} *)
Fixpoint Rprod R (b d : nat) : 'M[F]_s := if d is d'.+1 then blk R (b + d') *m Rprod R b d' else 1%:M.

(** W_{b+1} ... W_{b+d} *)
Fixpoint Wprod W (b d : nat) : 'M[F]_s := if d is d'.+1 then Wprod W b d' *m blk W (b + d') else 1%:M.

Definition rowv (X : grid F) (i : nat) : 'rV[F]_s := \row_l X i l.
Definition colv (X : grid F) (b j : nat) : 'cV[F]_s := \col_l X (b * s + l)%N j.

(** Entry (i, j): block (a, b) is D_a, P_a R_{a-1} ... R_{b+1} Q_b below the
    diagonal and U_a W_{a+1} ... W_{b-1} V_b above. *)
Definition sss_entry P Q R U V W D (i j : nat) : F :=
  let a := (i %/ s)%N in let b := (j %/ s)%N in
  if a == b then D i (j %% s)%N
  else if (b < a)%N then (rowv P (i - s) *m Rprod R b (a - b).-1 *m colv Q b (j %% s)) 0 0
  else (rowv U i *m Wprod W a (b - a).-1 *m colv V b.-1 (j %% s)) 0 0.

(** Every block above and right of, or below and left of, a cut at a multiple of
    s has rank at most s. *)
Definition hankel_le (N : nat) (A : grid F) := forall b, (0 < b)%N -> (b * s < N)%N ->
  (\rank (mx (b * s) (N - b * s) (sub 0 (b * s) A)) <= s)%N /\ (\rank (mx (N - b * s) (b * s) (sub (b * s) 0 A)) <= s)%N.

End Spec.
