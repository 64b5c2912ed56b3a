(** * Specification of iteration splitting (independent of the model) *)
From Coq Require Import Arith List.
Import ListNotations.

(** How many of the half-open intervals contain [i]. *)
Fixpoint visits1 (i : nat) (l : list (nat * nat)) : nat :=
  match l with
  | [] => 0
  | (b, e) :: l => (if andb (b <=? i) (i <? e) then 1 else 0) + visits1 i l
  end.

(** Every index of [0,n) is visited once, and nothing else is visited. *)
Definition covers_once1 (n : nat) (l : list (nat * nat)) : Prop :=
  forall i, visits1 i l = if i <? n then 1 else 0.

(** How many of the rectangles (ibeg,iend,jbeg,jend) contain the cell (i,j). *)
Fixpoint visits2 (i j : nat) (l : list (nat * nat * nat * nat)) : nat :=
  match l with
  | [] => 0
  | (ib, ie, jb, je) :: l =>
    (if andb (andb (ib <=? i) (i <? ie)) (andb (jb <=? j) (j <? je)) then 1 else 0)
    + visits2 i j l
  end.

Definition covers_once2 (m n : nat) (l : list (nat * nat * nat * nat)) : Prop :=
  forall i j, visits2 i j l = if andb (i <? m) (j <? n) then 1 else 0.

(** Cells are visited at most once, and only cells of the m x n rectangle. *)
Definition inside_disjoint2 (m n : nat) (l : list (nat * nat * nat * nat)) : Prop :=
  forall i j, visits2 i j l <= if andb (i <? m) (j <? n) then 1 else 0.
