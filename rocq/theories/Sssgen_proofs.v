(** * DenseToSSS: factorisation steps *)
From mathcomp Require Import all_ssreflect all_algebra zify.
From Verif Require Import Grid Perm_model Perm_spec Perm_proofs Perm_mx_proofs Tri_model Tri_spec Tri_proofs Pluq_model Pluq_spec Pluq_proofs Pluq_rank Pluq_api_proofs.
From Verif Require Import Api_model Ludiv_model Ech_model Ech_spec Ech_acc Sss_model Sss_spec Bidiag_fold Sss_proofs Sss_prod Sss_dense Sssgen_model.
Set Implicit Arguments.
Unset Strict Implicit.
Unset Printing Implicit Defensive.
Import GRing.Theory.
Local Open Scope ring_scope.

Section Frames.
Variable F : fieldType.
Implicit Types A T : grid F.

Lemma iteri_same n (body : nat -> grid F -> grid F) T x y :
  (forall i T', (i < n)%N -> body i T' x y = T' x y) -> iteri n body T x y = T x y.
Proof. by elim: n => // n IH h; rewrite iteriS h // IH // => i T' ii; apply: h; lia. Qed.

Lemma getTriangular_out u d M N R A T only x y : (R <= M)%N -> (R <= N)%N -> (M <= x)%N || (N <= y)%N ->
  getTriangular u d M N R A T only x y = T x y.
Proof.
move=> RM RN h; rewrite /getTriangular; case: u.
- rewrite (fun_if (fun T' : grid F => T' x y)) at_zE [X in if only then _ else X]ifF; last by apply/negP; lia.
  rewrite if_same iteri_same // => i T' iR; case: (d).
  + by rewrite at_cE ifF /upd ?ifF ?at_zE ?ifF //; apply/negP; lia.
  + by rewrite at_cE ifF ?at_zE ?ifF //; apply/negP; lia.
- set mc := if only then R else N; have mN : (mc <= N)%N by rewrite /mc; case: (only).
  rewrite (fun_if (fun T' : grid F => T' x y)) at_zE [X in if only then _ else X]ifF; last by apply/negP; lia.
  rewrite if_same at_cE ifF; last by apply/negP; lia.
  rewrite iteri_same // => i T' iR; rewrite at_zE ifF; last by apply/negP; lia.
  case: (d).
  + by rewrite /upd ifF ?at_cE ?ifF //; apply/negP; lia.
  + by rewrite at_cE ifF //; apply/negP; lia.
Qed.

Lemma getTriangularL_only d M N R A T x y : (R <= y)%N -> getTriangular Lower d M N R A T true x y = T x y.
Proof.
move=> Ry; rewrite /getTriangular at_cE ifF; last by apply/negP; lia.
rewrite iteri_same // => i T' iR; rewrite at_zE ifF; last by apply/negP; lia.
case: (d).
- by rewrite /upd ifF ?at_cE ?ifF //; apply/negP; lia.
- by rewrite at_cE ifF //; apply/negP; lia.
Qed.

Lemma getTriangularU_only d M N R A T x y : (R <= x)%N -> getTriangular Upper d M N R A T true x y = T x y.
Proof.
move=> Rx; rewrite /getTriangular iteri_same // => i T' iR; case: (d).
- by rewrite at_cE ifF /upd ?ifF ?at_zE ?ifF //; apply/negP; lia.
- by rewrite at_cE ifF ?at_zE ?ifF //; apply/negP; lia.
Qed.

Lemma getTriangular_in_out u d M N R A x y : (R <= M)%N -> (R <= N)%N -> (M <= x)%N || (N <= y)%N ->
  getTriangular_in u d M N R A x y = A x y.
Proof.
move=> RM RN h; rewrite /getTriangular_in; case: u; rewrite at_zE ifF; try by apply/negP; lia.
- rewrite iteri_same // => i T' iR; case: (d) => /=; rewrite ?/upd ?ifF ?at_zE ?ifF //; apply/negP; lia.
- rewrite iteri_same // => i T' iR; rewrite at_zE ifF; last by apply/negP; lia.
  by case: (d) => //=; rewrite /upd ifF //; apply/negP; lia.
Qed.

(** Combinations of the first m lines. *)
Definition rowsp m n (B : grid F) (f : nat -> F) := exists z : nat -> F, forall j, (j < n)%N -> f j = rsum m (fun x => z x * B x j).

Lemma rowspP m n (B : grid F) (f : nat -> F) : ((\row_(j < n) f j : 'rV_n) <= mx m n B)%MS <-> rowsp m n B f.
Proof.
split=> [/submxP[Z hZ]|[z hz]].
- exists (fun x => if insub x is Some i then Z 0 i else 0) => j jn.
  have /matrixP/(_ 0 (Ordinal jn)) := hZ; rewrite !mxE /= => ->; rewrite rsumE; apply: eq_bigr => i _.
  by rewrite mxE valK.
- apply/submxP; exists (\row_x z x); apply/rowP => j; rewrite !mxE hz // rsumE; apply: eq_bigr => i _.
  by rewrite !mxE.
Qed.

Lemma mx_rowsp m m' n (B C : grid F) : (forall i, (i < m)%N -> rowsp m' n C (B i)) -> (mx m n B <= mx m' n C)%MS.
Proof.
move=> h; apply/row_subP => i; have /rowspP := h i (ltn_ord i); congr (_ <= _)%MS.
by apply/rowP => j; rewrite !mxE.
Qed.

Lemma rowsp_mx m m' n (B C : grid F) : (mx m n B <= mx m' n C)%MS -> forall i, (i < m)%N -> rowsp m' n C (B i).
Proof.
move=> h i im; apply/rowspP; apply: submx_trans h; have := row_sub (Ordinal im) (mx m n B); congr (_ <= _)%MS.
by apply/rowP => j; rewrite !mxE.
Qed.

End Frames.

Lemma sigmaV_lap m (P : nat -> nat) x : is_lapack m P -> (x < m)%N -> (sigmaV P 0 m x < m)%N.
Proof. by move=> h xm; rewrite (sigmaV_lt (n := m)) // => i /andP[_ im]; have := h i im; lia. Qed.

Section Split.
Variable F : fieldType.
Variables (bk thr M n s : nat) (Wd X : grid F) (p q : nat -> nat) (r : nat) (Lg Rg : grid F).
Hypothesis bk0 : (0 < bk)%N.
Hypothesis pE : PLUQ bk NonUnit thr M n Wd = Pluq X p q r.
Hypothesis rs : (r <= s)%N.
Hypothesis LgE : forall x l, (x < M)%N -> (l < s)%N -> Lg x l = if (l < r)%N then Lo NonUnit X (sigmaV p 0 M x) l else 0.
Hypothesis RgE : forall l j, (l < s)%N -> (j < n)%N -> Rg l j = if (l < r)%N then Up NonUnit X l (sigmaV q 0 n j) else 0.

Let L' : 'M[F]_(M, r) := mx M r Lg.
Let U' : 'M[F]_(r, n) := mx r n Rg.

Lemma split_lapack : [/\ is_lapack M p, is_lapack n q, frame M n X Wd & factors NonUnit M n Wd X (sigma p 0 M) (sigma q 0 n) r].
Proof. by have := PLUQ_factors NonUnit thr M n Wd bk0; rewrite pE => -[]. Qed.

Lemma split_r : mx M n Wd = L' *m U'.
Proof.
have [lp lq _ [_ [rM rn] _ _ hA]] := split_lapack.
apply/matrixP => x j; rewrite !mxE -{1}(sigmaVK p 0 M x) -{1}(sigmaVK q 0 n j) hA ?sigmaV_lap //.
by apply: eq_bigr => t _; rewrite !mxE LgE ?RgE ?ltn_ord //; apply: leq_trans rs.
Qed.

Lemma split_rank : r = \rank (mx M n Wd).
Proof. by have := PLUQ_rank NonUnit thr M n Wd bk0; rewrite pE. Qed.

Lemma split_E : forall x j, (x < M)%N -> (j < n)%N -> Wd x j = \sum_(l < s) Lg x l * Rg l j.
Proof.
move=> x j xM jn; have /matrixP/(_ (Ordinal xM) (Ordinal jn)) := split_r; rewrite !mxE /= => ->.
under eq_bigr => l _ do rewrite !mxE /=.
rewrite -(rsumE r (fun l => Lg x l * Rg l j)) -(rsumE s (fun l => Lg x l * Rg l j)) -[in RHS](subnKC rs) rsum_cat.
rewrite [X in _ + X]rsum0 ?addr0 // => i ii; rewrite LgE //; last by lia.
by rewrite ltnNge leq_addr mul0r.
Qed.

Lemma split_row : (mx s n Rg <= mx M n Wd)%MS.
Proof.
have full : row_full L'.
  rewrite -col_leq_rank; rewrite {1}split_rank split_r; exact: mxrankM_maxl.
rewrite split_r (eqmxMfull _ full); apply/row_subP => l.
case: (ltnP l r) => lr.
  have := row_sub (Ordinal lr) U'; congr (_ <= _)%MS.
  by apply/rowP => j; rewrite !mxE.
have -> : row l (mx s n Rg) = 0 by apply/rowP => j; rewrite !mxE RgE // ltnNge lr.
exact: sub0mx.
Qed.

Lemma split_col : ((mx M s Lg)^T <= (mx M n Wd)^T)%MS.
Proof.
have full : row_full U'^T.
  rewrite -col_leq_rank mxrank_tr {1}split_rank split_r; exact: mxrankM_maxr.
rewrite split_r trmx_mul (eqmxMfull _ full); apply/row_subP => l.
case: (ltnP l r) => lr.
  have := row_sub (Ordinal lr) L'^T; congr (_ <= _)%MS.
  by apply/rowP => j; rewrite !mxE.
have -> : row l (mx M s Lg)^T = 0 by apply/rowP => j; rewrite !mxE LgE // ltnNge lr.
exact: sub0mx.
Qed.

End Split.
