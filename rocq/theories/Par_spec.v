(** * Specification vocabulary for parallel programs *)
From mathcomp Require Import all_ssreflect ssralg.
From Verif Require Import Par_model.
Set Implicit Arguments.
Unset Strict Implicit.
Unset Printing Implicit Defensive.

Section Spec.
Variable V : Type.

(** However the steps of [p] are interleaved: no execution is infinite, none
    is stuck before the end, and all end in a memory satisfying [Q]. *)
Definition every_schedule (p : cmd V) (mu : mem V) (Q : mem V -> Prop) : Prop :=
  [/\ Acc (fun y x : cmd V * mem V => step x.1 x.2 y.1 y.2) (p, mu),
      forall p' mu', steps p mu p' mu' -> p' = Done \/ exists p'' mu'', step p' mu' p'' mu'' &
      forall mu', steps p mu Done mu' -> Q mu'].
End Spec.

(** Cells of an m x n matrix. *)
Definition in_win (C : view) (m n : nat) (x : addr) : Prop :=
  exists i j, [/\ i < m, j < n & x = cell C i j].

(** Temporaries: allocations whose name begins with [pth]. *)
Definition owned (pth : seq nat) (x : addr) : bool := take (size pth) x.1 == pth.

(** The calls of the adaptive variant that split k have m = n. *)
Fixpoint square_k (T fuel nt m n k : nat) : bool :=
  if (m == 0) || (n == 0) then true
  else if k == 0 then true
  else if small3 T nt m n k then true
  else if fuel isn't f.+1 then true
  else if (k < m) && (n <= m) then square_k T f nt./2 m./2 n k && square_k T f (nt - nt./2) (m - m./2) n k
  else if k < n then square_k T f nt./2 m n./2 k && square_k T f (nt - nt./2) m (n - n./2) k
  else [&& m == n, square_k T f nt./2 m n k./2 & square_k T f (nt - nt./2) m n (k - k./2)].

Import GRing.Theory.
Local Open Scope ring_scope.

(** alpha op(A) op(B) + beta C in the memory [mu]. *)
Definition product (V : ringType) (ta tb : bool) (k : nat) (alpha : V) (A B : view) (beta : V) (C : view)
  (mu : mem V) (i j : nat) : V :=
  alpha * (\sum_(l < k) mu (op ta A i l) * mu (op tb B l j)) + beta * mu (cell C i j).

(** C holds the product and nothing else has changed. *)
Definition is_product (V : ringType) (ta tb : bool) (m n k : nat) (alpha : V) (A B : view) (beta : V) (C : view)
  (pth : seq nat) (mu mu' : mem V) : Prop :=
  (forall i j, (i < m)%N -> (j < n)%N -> mu' (cell C i j) = product ta tb k alpha A B beta C mu i j) /\
  (forall x, ~ in_win C m n x -> ~~ owned pth x -> mu' x = mu x).

(** The m x n matrix C is zero and nothing else has changed. *)
Definition zeroed (V : ringType) (m n : nat) (C : view) (mu mu' : mem V) : Prop :=
  (forall i j, (i < m)%N -> (j < n)%N -> mu' (cell C i j) = 0) /\
  (forall x, ~ in_win C m n x -> mu' x = mu x).

(** B holds the solution of (unit lower triangle of A) X = B. *)
Definition solved (V : ringType) (m n : nat) (A B : view) (mu mu' : mem V) : Prop :=
  (forall i j, (i < m)%N -> (j < n)%N ->
     mu' (cell B i j) + (\sum_(l < i) mu (cell A i l) * mu' (cell B l j)) = mu (cell B i j)) /\
  (forall x, ~ in_win B m n x -> mu' x = mu x).

(** d has increased by the dot product of x and y; the only other cells
    changed are the first rs cells of z. *)
Definition dotted (V : ringType) (rs N : nat) (x y z : view) (d : addr) (mu mu' : mem V) : Prop :=
  mu' d = mu d + (\sum_(i < N) mu (cell x i 0) * mu (cell y i 0)) /\
  (forall a, a <> d -> ~ in_win z 1 rs a -> mu' a = mu a).

(** C is stored apart from A and B, its rows do not overlap, and none of the
    three is inside the temporaries named by [pth]. *)
Definition separate (pth : seq nat) (n : nat) (A B C : view) : Prop :=
  [/\ vreg C <> vreg A, vreg C <> vreg B, (n <= vld C)%N &
      forall x, owned pth x -> [/\ x.1 <> vreg A, x.1 <> vreg B & x.1 <> vreg C]].
