(** * Positions of rows and columns in the recursion of _PLUQ *)
From mathcomp Require Import all_ssreflect zify.
From Verif Require Import Grid Perm_spec.
Set Implicit Arguments.
Unset Strict Implicit.
Unset Printing Implicit Defensive.

(** Positions after the final block exchanges. *)
Lemma exch_perm a b c n : (a + b + c <= n)%N -> is_perm n (exch a b c).
Proof.
by move=> H'; split=> [i iN|i j iN jN]; rewrite /exch; repeat case: ifP => ?; lia.
Qed.

Section Idx.
Variables (M N M2 N2 R1 R2 R3 R4 : nat).
Local Notation rk := (R1 + R2 + R3 + R4)%N.
Definition Sx k := exch (R1 + R2) (M2 - R1 - R2) (R3 + R4) k.
Definition Tx l := exch R1 (N2 - R1) R2 (exch (R1 + R2 + R3) (N2 - R1 - R3) R4 l).

Hypotheses (a1 : (R1 + R2 <= M2)%N) (a2 : (M2 + R3 + R4 <= M)%N).
Hypotheses (b1 : (R1 + R3 <= N2)%N) (b2 : (N2 + R2 + R4 <= N)%N).

Lemma Sx1 k : (k < R1 + R2)%N -> Sx k = k.
Proof. by rewrite /Sx /exch => ->. Qed.
Lemma Sx2 k : (R1 + R2 <= k < rk)%N -> Sx k = (M2 + (k - (R1 + R2)))%N.
Proof. by rewrite /Sx /exch => H'; repeat case: ifP; lia. Qed.
Lemma Sx3 k : (rk <= k < M2 + R3 + R4)%N -> Sx k = (k - (R3 + R4))%N.
Proof. by rewrite /Sx /exch => H'; repeat case: ifP; lia. Qed.
Lemma Sx4 k : (M2 + R3 + R4 <= k)%N -> Sx k = k.
Proof. by rewrite /Sx /exch => H'; repeat case: ifP; lia. Qed.
Lemma Tx1 k : (k < R1)%N -> Tx k = k.
Proof. by rewrite /Tx {2}/exch => H'; repeat case: ifP => ?; rewrite /exch; repeat case: ifP; lia. Qed.
Lemma Tx2 k : (R1 <= k < R1 + R2)%N -> Tx k = (N2 + (k - R1))%N.
Proof. by rewrite /Tx {2}/exch => H'; repeat case: ifP => ?; rewrite /exch; repeat case: ifP; lia. Qed.
Lemma Tx3 k : (R1 + R2 <= k < R1 + R2 + R3)%N -> Tx k = (R1 + (k - (R1 + R2)))%N.
Proof. by rewrite /Tx {2}/exch => H'; repeat case: ifP => ?; rewrite /exch; repeat case: ifP; lia. Qed.
Lemma Tx4 k : (R1 + R2 + R3 <= k < rk)%N -> Tx k = (N2 + R2 + (k - (R1 + R2 + R3)))%N.
Proof. by rewrite /Tx {2}/exch => H'; repeat case: ifP => ?; rewrite /exch; repeat case: ifP; lia. Qed.
Lemma Tx5 k : (rk <= k < N2 + R2 + R4)%N -> Tx k = (k - (R2 + R4))%N.
Proof. by rewrite /Tx {2}/exch => H'; repeat case: ifP => ?; rewrite /exch; repeat case: ifP; lia. Qed.
Lemma Tx6 k : (N2 + R2 + R4 <= k)%N -> Tx k = k.
Proof. by rewrite /Tx {2}/exch => H'; repeat case: ifP => ?; rewrite /exch; repeat case: ifP; lia. Qed.


Lemma Sx_lt k : (k < M)%N -> (Sx k < M)%N.
Proof. by rewrite /Sx /exch; repeat case: ifP; lia. Qed.
Lemma Tx_lt k : (k < N)%N -> (Tx k < N)%N.
Proof.
by rewrite /Tx {2}/exch; repeat case: ifP => ?; rewrite /exch; repeat case: ifP; lia.
Qed.

Lemma Sx_cases k : (k < M)%N -> [\/ (k < R1)%N /\ Sx k = k, (R1 <= k < R1 + R2)%N /\ Sx k = k,
   (R1 + R2 <= k < rk)%N /\ Sx k = (M2 + (k - (R1 + R2)))%N |
   (rk <= k)%N /\ (((R1 + R2 <= Sx k < M2)%N) || ((M2 + R3 + R4 <= Sx k < M)%N))].
Proof.
move=> kM; have H' := Sx_lt kM.
case: (ltnP k R1) => h1'; first by apply: Or41; rewrite Sx1 //; lia.
case: (ltnP k (R1 + R2)) => h2'; first by apply: Or42; rewrite Sx1 //; lia.
case: (ltnP k rk) => h3'; first by apply: Or43; rewrite Sx2 //; lia.
apply: Or44; split=> //.
case: (ltnP k (M2 + R3 + R4)) => h4'; first by rewrite Sx3 //; lia.
by rewrite Sx4 //; lia.
Qed.

Lemma Tx_cases k : (k < N)%N -> [\/ (k < R1)%N /\ Tx k = k, (R1 <= k < R1 + R2)%N /\ Tx k = (N2 + (k - R1))%N,
   (R1 + R2 <= k < R1 + R2 + R3)%N /\ Tx k = (R1 + (k - (R1 + R2)))%N |
   ((R1 + R2 + R3 <= k < rk)%N /\ Tx k = (N2 + R2 + (k - (R1 + R2 + R3)))%N) \/
   (rk <= k)%N /\ (((R1 + R3 <= Tx k < N2)%N) || ((N2 + R2 + R4 <= Tx k < N)%N))].
Proof.
move=> kN; have H' := Tx_lt kN.
case: (ltnP k R1) => h1'; first by apply: Or41; rewrite Tx1 //; lia.
case: (ltnP k (R1 + R2)) => h2'; first by apply: Or42; rewrite Tx2 //; lia.
case: (ltnP k (R1 + R2 + R3)) => h3'; first by apply: Or43; rewrite Tx3 //; lia.
apply: Or44; case: (ltnP k rk) => h4'; first by left; rewrite Tx4 //; lia.
right; split=> //.
case: (ltnP k (N2 + R2 + R4)) => h5'; first by rewrite Tx5 //; lia.
by rewrite Tx6 //; lia.
Qed.

End Idx.

