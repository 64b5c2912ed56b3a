(** * What the triangular systems, side right, are to compute *)
From mathcomp Require Import all_ssreflect ssralg.
From Verif Require Import Par_model Par_spec.
Set Implicit Arguments.
Unset Strict Implicit.
Unset Printing Implicit Defensive.
Import GRing.Theory.
Local Open Scope ring_scope.

(** B holds the solution of X (unit upper triangle of A) = al B; nothing else
    has changed. *)
Definition solved_right (V : ringType) (m n : nat) (al : V) (A B : view) (mu mu' : mem V) : Prop :=
  (forall i j, (i < m)%N -> (j < n)%N ->
     mu' (cell B i j) + (\sum_(l < j) mu' (cell B i l) * mu (cell A l j)) = al * mu (cell B i j)) /\
  (forall x, ~ in_win B m n x -> mu' x = mu x).

(** [p] has no parallel part, stores in [W] and loads from [R] only. *)
Fixpoint confined (V : Type) (W R : addr -> Prop) (p : cmd V) : Prop :=
  match p with
  | Done => True
  | Upd a _ _ todo => W a /\ (forall x, x \in todo -> R x)
  | Seq p q => confined W R p /\ confined W R q
  | Par _ _ => False
  end.

(** The cells of column j and of row i of B; [tmp] names private temporaries. *)
Definition own_col (B : view) (M : nat) (tmp : nat -> seq nat) (j : nat) (x : addr) : Prop :=
  (exists2 i, (i < M)%N & x = cell B i j) \/ x.1 = tmp j.
Definition own_row (B : view) (N : nat) (tmp : nat -> seq nat) (i : nat) (x : addr) : Prop :=
  (exists2 j, (j < N)%N & x = cell B i j) \/ x.1 = tmp i.
