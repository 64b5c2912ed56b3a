(** * Solving with a block factorisation A = P^T [L1; L2] [U1 U2] Q *)
From mathcomp Require Import all_ssreflect all_algebra.
Set Implicit Arguments.
Unset Strict Implicit.
Unset Printing Implicit Defensive.
Import GRing.Theory.
Local Open Scope ring_scope.

Section Blocks.
Variable F : fieldType.
Variables (R m2 n2 : nat).
Variables (L1 U1 : 'M[F]_R) (L2 : 'M[F]_(m2, R)) (U2 : 'M[F]_(R, n2)).
Variables (P : 'M[F]_(R + m2)) (Q : 'M[F]_(R + n2)) (A : 'M[F]_(R + m2, R + n2)).
Hypothesis (uL : L1 \in unitmx) (uU : U1 \in unitmx).
Hypothesis (oP : P *m P^T = 1%:M) (oP' : P^T *m P = 1%:M) (oQ : Q *m Q^T = 1%:M) (oQ' : Q^T *m Q = 1%:M).
Hypothesis EA : A = P^T *m col_mx L1 L2 *m row_mx U1 U2 *m Q.

Lemma PA : P *m A = col_mx L1 L2 *m row_mx U1 U2 *m Q.
Proof. by rewrite EA !mulmxA oP mul1mx. Qed.
Lemma AQ : A *m Q^T = P^T *m col_mx L1 L2 *m row_mx U1 U2.
Proof. by rewrite EA -!mulmxA oQ mulmx1 !mulmxA. Qed.

Lemma Pcancel k (X Y : 'M[F]_(R + m2, k)) : P *m X = P *m Y -> X = Y.
Proof. by move=> E; rewrite -[X]mul1mx -[Y]mul1mx -oP' -!mulmxA E. Qed.
Lemma Qcancel k (X Y : 'M[F]_(k, R + n2)) : X *m Q^T = Y *m Q^T -> X = Y.
Proof. by move=> E; rewrite -[X]mulmx1 -[Y]mulmx1 -oQ' !mulmxA E. Qed.

Lemma Lcancel k (X Y : 'M[F]_(R, k)) : L1 *m X = L1 *m Y -> X = Y.
Proof. by move=> E; rewrite -(mulKmx uL X) -(mulKmx uL Y) E. Qed.
Lemma Ucancel k (X Y : 'M[F]_(k, R)) : X *m U1 = Y *m U1 -> X = Y.
Proof. by move=> E; rewrite -(mulmxK uU X) -(mulmxK uU Y) E. Qed.

(** A X = B. *)
Lemma solve_left k (B : 'M[F]_(R + m2, k)) C1 C2 Y E Z :
  P *m B = col_mx C1 C2 -> L1 *m Y = C1 -> E = C2 - L2 *m Y -> U1 *m Z = Y ->
  (E = 0 -> A *m (Q^T *m col_mx Z 0) = B) /\ ((exists X, A *m X = B) -> E = 0).
Proof.
move=> EB EY -> EZ; split=> [/eqP|[X EX]].
  rewrite subr_eq0 => /eqP E2; apply: Pcancel; rewrite EB mulmxA PA.
  rewrite -(mulmxA _ Q) (mulmxA Q) oQ mul1mx -mulmxA mul_row_col mulmx0 addr0 EZ.
  by rewrite mul_col_mx EY -E2.
move: EB; rewrite -EX mulmxA PA -!mulmxA; set W := row_mx _ _ *m _.
rewrite mul_col_mx => /eq_col_mx[E1 E2]; rewrite -E2.
by rewrite (Lcancel (etrans EY (esym E1))) subrr.
Qed.

(** X A = B. *)
Lemma solve_right k (B : 'M[F]_(k, R + n2)) C1 C2 Y E Z :
  B *m Q^T = row_mx C1 C2 -> Y *m U1 = C1 -> E = C2 - Y *m U2 -> Z *m L1 = Y ->
  (E = 0 -> (row_mx Z 0 *m P) *m A = B) /\ ((exists X, X *m A = B) -> E = 0).
Proof.
move=> EB EY -> EZ; split=> [/eqP|[X EX]].
  rewrite subr_eq0 => /eqP E2; apply: Qcancel; rewrite EB -mulmxA AQ.
  rewrite -!mulmxA (mulmxA P) oP mul1mx mulmxA mul_row_col mul0mx addr0 EZ.
  by rewrite mul_mx_row EY -E2.
move: EB; rewrite -EX -mulmxA AQ !mulmxA; set W := X *m _ *m _.
rewrite mul_mx_row => /eq_row_mx[E1 E2]; rewrite -E2.
by rewrite (Ucancel (etrans EY (esym E1))) subrr.
Qed.

Lemma rank1mul k l (X : 'M[F]_(k, l)) (S : 'M[F]_(l, k)) : S *m X = 1%:M -> \rank X = l.
Proof.
move=> E; apply/eqP; rewrite eqn_leq rank_leq_col /=.
by have := mxrankM_maxr S X; rewrite E mxrank1.
Qed.

Lemma null_right Z : U1 *m Z = - U2 ->
  let X := Q^T *m col_mx Z 1%:M in
  A *m X = 0 /\ \rank X = n2 /\ forall y : 'M[F]_(R + n2, 1), A *m y = 0 -> exists c, y = X *m c.
Proof.
move=> EZ X; split; [|split].
- rewrite /X mulmxA AQ -mulmxA mul_row_col EZ mulmx1 addNr mulmx0 //.
- apply: (rank1mul (S := row_mx 0 1%:M *m Q)).
  by rewrite /X -mulmxA (mulmxA Q) oQ mul1mx mul_row_col mul0mx add0r mulmx1.
move=> y Ay; have := congr1 (mulmx P) Ay; rewrite mulmx0.
rewrite mulmxA PA -!mulmxA -[in X in X -> _](vsubmxK (Q *m y)) mul_row_col mul_col_mx -[X in _ = X -> _]col_mx0.
move=> /eq_col_mx[E1 _].
have : L1 *m (U1 *m usubmx (Q *m y) + U2 *m dsubmx (Q *m y)) = L1 *m 0 by rewrite mulmx0.
move/Lcancel => /eqP; rewrite addr_eq0 => /eqP E2.
have E3 : usubmx (Q *m y) = Z *m dsubmx (Q *m y).
  by rewrite -(mulKmx uU (usubmx _)) E2 -mulNmx -EZ -!mulmxA mulKmx.
exists (dsubmx (Q *m y)); rewrite /X -mulmxA mul_col_mx -E3 mul1mx vsubmxK mulmxA oQ' mul1mx //.
Qed.

Lemma null_left Z : Z *m L1 = - L2 ->
  let X := row_mx Z 1%:M *m P in
  X *m A = 0 /\ \rank X = m2 /\ forall y : 'M[F]_(1, R + m2), y *m A = 0 -> exists c, y = c *m X.
Proof.
move=> EZ X; split; [|split].
- by rewrite /X -mulmxA PA !mulmxA mul_row_col EZ mul1mx addNr !mul0mx.
- rewrite -mxrank_tr; apply: (rank1mul (S := (P^T *m col_mx 0 1%:M)^T)).
  by rewrite -trmx_mul /X mulmxA -(mulmxA _ P) oP mulmx1 mul_row_col mulmx0 add0r mulmx1 trmx1.
move=> y Ay; have := congr1 (mulmx^~ Q^T) Ay; rewrite mul0mx.
rewrite -mulmxA AQ !mulmxA -[in X in X -> _](hsubmxK (y *m P^T)) mul_row_col mul_mx_row -[X in _ = X -> _]row_mx0.
move=> /eq_row_mx[E1 _].
have : (lsubmx (y *m P^T) *m L1 + rsubmx (y *m P^T) *m L2) *m U1 = 0 *m U1 by rewrite mul0mx.
move/Ucancel => /eqP; rewrite addr_eq0 => /eqP E2.
have E3 : lsubmx (y *m P^T) = rsubmx (y *m P^T) *m Z.
  by rewrite -(mulmxK uL (lsubmx _)) E2 -mulmxN -EZ !mulmxA mulmxK.
exists (rsubmx (y *m P^T)); rewrite /X mulmxA mul_mx_row -E3 mulmx1 hsubmxK -mulmxA oP' mulmx1 //.
Qed.

(** One kernel vector from its free coordinates, and every kernel vector. *)
Lemma vec_right w c : U1 *m w = - (U2 *m c) -> A *m (Q^T *m col_mx w c : 'M_(_, 1)) = 0.
Proof. by move=> E; rewrite mulmxA AQ -mulmxA mul_row_col E addNr mulmx0. Qed.

Lemma vec_right_all (y w : 'M[F]_(_, 1)) : A *m y = 0 -> U1 *m w = - (U2 *m dsubmx (Q *m y)) ->
  y = Q^T *m col_mx w (dsubmx (Q *m y)).
Proof.
move=> Ay Ew; have := congr1 (mulmx P) Ay; rewrite mulmx0.
rewrite mulmxA PA -!mulmxA -[in X in X -> _](vsubmxK (Q *m y)) mul_row_col mul_col_mx -[X in _ = X -> _]col_mx0.
move=> /eq_col_mx[E1 _].
have : L1 *m (U1 *m usubmx (Q *m y) + U2 *m dsubmx (Q *m y)) = L1 *m 0 by rewrite mulmx0.
move/Lcancel => /eqP; rewrite addr_eq0 => /eqP E2.
have -> : w = usubmx (Q *m y) by rewrite -(mulKmx uU w) Ew -E2 mulKmx.
by rewrite vsubmxK mulmxA oQ' mul1mx.
Qed.

Lemma vec_left w c : w *m L1 = - (c *m L2) -> (row_mx w c *m P : 'M_(1, _)) *m A = 0.
Proof. by move=> E; rewrite -mulmxA PA !mulmxA mul_row_col E addNr !mul0mx. Qed.

Lemma vec_left_all (y w : 'M[F]_(1, _)) : y *m A = 0 -> w *m L1 = - (rsubmx (y *m P^T) *m L2) ->
  y = row_mx w (rsubmx (y *m P^T)) *m P.
Proof.
move=> Ay Ew; have := congr1 (mulmx^~ Q^T) Ay; rewrite mul0mx.
rewrite -mulmxA AQ !mulmxA -[in X in X -> _](hsubmxK (y *m P^T)) mul_row_col mul_mx_row -[X in _ = X -> _]row_mx0.
move=> /eq_row_mx[E1 _].
have : (lsubmx (y *m P^T) *m L1 + rsubmx (y *m P^T) *m L2) *m U1 = 0 *m U1 by rewrite mul0mx.
move/Ucancel => /eqP; rewrite addr_eq0 => /eqP E2.
have -> : w = lsubmx (y *m P^T) by rewrite -(mulmxK uL w) Ew -E2 mulmxK.
by rewrite hsubmxK -mulmxA oP' mulmx1.
Qed.

End Blocks.
