(** * Memory of the dense model

    A matrix stored with a leading dimension is a total function from (row,
    column) to elements.  Row [i], column [j] of a matrix at pointer [A] is
    [*(A + i*lda + j)].  Simplification, valid for every routine using this
    file: columns are assumed to fit in the leading dimension, so that
    distinct (row, column) pairs are distinct cells.  A pointer shifted by
    [i0*lda + j0] is the operation [at i0 j0]; nothing restricts a routine to
    its own m x n window, so frame conditions remain to be proved. *)
From mathcomp Require Import all_ssreflect zify.
Set Implicit Arguments.
Unset Strict Implicit.
Unset Printing Implicit Defensive.

Definition grid (T : Type) := nat -> nat -> T.

Section Grid.
Variable T : Type.
Implicit Type A : grid T.

(** One-dimensional arrays: [a[i] = v]. *)
Definition upd1 (a : nat -> T) (i : nat) (v : T) : nat -> T :=
  fun x => if x == i then v else a x.

(** [A[i*lda+j] = v]. *)
Definition upd A (i j : nat) (v : T) : grid T :=
  fun x y => if (x == i) && (y == j) then v else A x y.

(** The matrix seen through the pointer [A + i0*lda + j0]. *)
Definition sub (i0 j0 : nat) A : grid T := fun i j => A (i0 + i) (j0 + j).

(** Run [f] on the pointer [A + i0*lda + j0]. *)
Definition at_ (i0 j0 : nat) (f : grid T -> grid T) A : grid T :=
  let B := f (sub i0 j0 A) in
  fun i j => if (i0 <= i) && (j0 <= j) then B (i - i0) (j - j0) else A i j.

(** Same contents, tabulated on m x n (only to make [vm_compute] share work;
    the identity, see [memoE]). *)
Definition memo (m n : nat) A : grid T :=
  let d := A 0 0 in
  let l := [seq [seq A i j | j <- iota 0 n] | i <- iota 0 m] in
  fun i j => if (i < m) && (j < n) then nth d (nth [::] l i) j else A i j.

(** Fill the m x n window with [f]. *)
Definition fill (m n : nat) (f : grid T) A : grid T :=
  fun i j => if (i < m) && (j < n) then f i j else A i j.

Definition tr A : grid T := fun i j => A j i.

End Grid.

Definition memo1 (T : Type) (n : nat) (a : nat -> T) : nat -> T :=
  let d := a 0 in let l := [seq a i | i <- iota 0 n] in
  fun i => if i < n then nth d l i else a i.

(** [for (i = n; i-- > 0; ) f(i)]. *)
Fixpoint iterd (S : Type) (n : nat) (f : nat -> S -> S) (x : S) : S :=
  if n is n'.+1 then iterd n' f (f n' x) else x.

Section GridLemmas.
Variable T : Type.
Implicit Type A : grid T.

Lemma memoE m n A i j : memo m n A i j = A i j.
Proof.
rewrite /memo; case: ifP => // /andP[im jn].
by rewrite (nth_map 0) ?size_iota // nth_iota // add0n (nth_map 0) ?size_iota // nth_iota.
Qed.

Lemma memo1E n (a : nat -> T) i : memo1 n a i = a i.
Proof.
rewrite /memo1; case: ifP => // im.
by rewrite (nth_map 0) ?size_iota // nth_iota // add0n.
Qed.

Lemma at_in i0 j0 f A i j : at_ i0 j0 f A (i0 + i) (j0 + j) = f (sub i0 j0 A) i j.
Proof. by rewrite /at_ !leq_addr !addKn. Qed.

Lemma at_out i0 j0 f A i j : (i < i0) || (j < j0) -> at_ i0 j0 f A i j = A i j.
Proof. by rewrite /at_ !ltnNge -negb_and => /negbTE->. Qed.

End GridLemmas.

(** Case analysis on every conditional of the goal, then arithmetic. *)
Ltac bcase := repeat match goal with
  | |- context [if ?b then _ else _] =>
    lazymatch b with
    | context [if _ then _ else _] => fail
    | _ => let E := fresh "E" in case E : b => //=
    end
  end.
Ltac same_cell := match goal with
  | |- ?f ?x ?y = ?f ?z ?t =>
     let H1 := fresh in let H2 := fresh in
     assert (H1 : x = z) by lia; assert (H2 : y = t) by lia; exact (f_equal2 f H1 H2)
  | |- ?f ?x = ?f ?z => let H1 := fresh in assert (H1 : x = z) by lia; exact (f_equal f H1)
  end.
Ltac bsolve := bcase; try lia; try same_cell.
(** Same, discarding impossible branches as soon as they appear. *)
Ltac bprune := try lia; try same_cell; match goal with
  | |- context [if ?b then _ else _] =>
    lazymatch b with
    | context [if _ then _ else _] => fail
    | _ => let E := fresh "E" in case E : b => //=; bprune
    end
  | _ => idtac
  end.
