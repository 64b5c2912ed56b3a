(** * Proofs: parallel overloads *)
From mathcomp Require Import all_ssreflect all_algebra zify ring.
From Verif Require Import Grid Perm_model Perm_spec Perm_proofs Perm_mx_proofs.
From Verif Require Import Tri_model Tri_spec Tri_proofs Trtri_proofs.
From Verif Require Import Pluq_model Pluq_spec Pluq_rank Pluq_api_proofs Api_model Api_spec Api_blocks Api_proofs.
From Verif Require Import Prof_proofs Null_proofs Ech_model Ech_spec Ppluq_model Ppluq_ex Ppar_model.
Set Implicit Arguments.
Unset Strict Implicit.
Unset Printing Implicit Defensive.
Import GRing.Theory.
Local Open Scope ring_scope.

Section Ppar.
Variable F : fieldType.
Implicit Types A X : grid F.

Lemma pRankE bk thr M N A : (0 < bk)%N -> pRank bk thr M N A = \rank (mx M N A).
Proof.
move=> bk0; rewrite /pRank pPLUQ_rank' //; case: andP => // -[/eqP -> /eqP ->].
by rewrite [mx _ _ _]flatmx0 mxrank0.
Qed.

Lemma pDetE bk thr N A : (0 < bk)%N -> pDet bk thr N A = \det (mx N N A).
Proof.
move=> bk0; rewrite /pDet; case: eqP => [->|_]; first by rewrite det_mx00.
have := pPLUQ_factors' NonUnit thr N N A bk0.
case: pPLUQ => X P Q R [lP lQ fr fac EA]; have [_ [RN _] _ _ _] := fac.
case: ltnP => RN'.
  apply/esym/eqP; move: RN'; rewrite -(factors_rank fac) => h; apply: contraTT h => h.
  have : mx N N A \in unitmx by rewrite unitmxE unitfE.
  by rewrite -row_full_unit /row_full => /eqP ->; rewrite ltnn.
have e : R = N by lia.
subst R; rewrite EA !det_mulmx det_tr !det_Pmx //.
have -> : \det (Lmx NonUnit N N X) = 1.
  rewrite det_trig; last by apply/is_trig_mxP => i j ij; rewrite mxE /Lo; case: ltngtP ij.
  by rewrite big1 // => i _; rewrite mxE /Lo ltnn eqxx.
have -> : \det (Umx NonUnit N N X) = \prod_(i < N) X i i.
  rewrite -det_tr det_trig; last by apply/is_trig_mxP => i j ij; rewrite !mxE /Up; case: ltngtP ij.
  by apply: eq_bigr => i _; rewrite !mxE /Up ltnn eqxx.
have -> : iteri N (fun i d => d * X i i) 1 = \prod_(i < N) X i i.
  by elim: (N) => [|n IH]; rewrite ?big_ord0 // iteriS big_ord_recr /= IH.
set c := iteri N _ 0%N.
have -> : c = (count (fun i => P i != i) (iota 0 N) + count (fun i => Q i != i) (iota 0 N))%N.
  rewrite /c; elim: (N) => [|n IH] //; rewrite iteriS IH -[in RHS](addn1 n) iotaD !count_cat /= !addn0.
  by do 2 case: eqP => _ /=; lia.
rewrite mulr1 -signr_odd -[X in _ * _ * X]signr_odd oddD.
by do 2 case: odd; rewrite /= ?expr0 ?expr1 ?mulr1 ?mul1r ?mulN1r ?mulrN1 ?opprK.
Qed.

Lemma pSolve_ok bk thr M A incx x incb b : (0 < bk)%N -> (0 < incx)%N -> (0 < incb)%N ->
  let y := pSolve bk thr M A incx x incb b in
  if mx M M A \in unitmx then
    mx M M A *m cv M (vec incx y) = cv M (vec incb b) /\ vec_frame M incx y x
  else y = x.
Proof.
move=> bk0 ix ib; rewrite /pSolve.
have := pPLUQ_factors' NonUnit thr M M A bk0.
case: pPLUQ => X P Q R [lP lQ fr fac _]; have [_ [RM _] _ _ _] := fac.
rewrite -row_full_unit /row_full (factors_rank fac).
case: ltnP => cmp; first by rewrite ltn_eqF.
have {RM cmp}e : M = R by apply/eqP; rewrite eqn_leq cmp RM.
subst M; rewrite eqxx; have piv : inv_diag NonUnit R X by case: fac => _ _ h _ _; exact: inv_piv.
set x1 := lift incx (fun _ _ => _) x; set x2 := lift incx _ x1; set x3 := lift incx _ x2.
set x4 := lift incx _ x3; set x5 := lift incx _ x4.
split; last first.
  apply: vec_frame_trans (vec_frame_trans _ (vec_frame_trans _ (vec_frame_trans _ (y := x1) _))).
  - by apply: lift_frame => // v i; exact: as_col_frame.
  - apply: lift_frame => // v i Mi; apply: (proj2 (ftrsv_mx Upper NoTrans v (_ : inv_diag NonUnit R X))) => //.
  - apply: lift_frame => // v i Mi; apply: (proj2 (ftrsv_mx Lower NoTrans v (_ : inv_diag Unit R X))) => //.
  - by apply: lift_frame => // v i; exact: as_col_frame.
  by apply: lift_frame => // v i Mi; rewrite ltnNge Mi.
have v1 : cv R (vec incx x1) = cv R (vec incb b).
  by apply: eq_cv => i ii; rewrite lift_vec // ii.
have v2 : cv R (vec incx x2) = Pmx F R P 0 R *m cv R (vec incb b).
  rewrite -v1 -(as_col_mx NoTrans _ bk0 lP); apply: eq_cv => i _; exact: lift_vec.
have v3 : trimx Lower Unit R X *m cv R (vec incx x3) = cv R (vec incx x2).
  have iu : inv_diag Unit R X by [].
  apply: etrans (proj1 (ftrsv_mx Lower NoTrans (vec incx x2) iu)).
  by congr (_ *m _); apply: eq_cv => i _; exact: lift_vec.
have v4 : trimx Upper NonUnit R X *m cv R (vec incx x4) = cv R (vec incx x3).
  apply: etrans (proj1 (ftrsv_mx Upper NoTrans (vec incx x3) piv)).
  by congr (_ *m _); apply: eq_cv => i _; exact: lift_vec.
have v5 : cv R (vec incx x5) = (Pmx F R Q 0 R)^T *m cv R (vec incx x4).
  rewrite -(as_col_mx Trans _ bk0 lQ); apply: eq_cv => i _; exact: lift_vec.
have LU : Lmx NonUnit R R X *m Umx NonUnit R R X =
          trimx Lower Unit R X *m trimx Upper NonUnit R X.
  rewrite !mxM; apply: eq_mx => i j ii jj; apply: eq_rsum => t tt.
  rewrite /Lo /Up /tri; congr (_ * _).
    by case: ltngtP => // ->.
  by case: ltngtP => // ->.
rewrite (factors_mx lP lQ fac) v5 -!mulmxA (mulmxA (Pmx F _ Q 0 _)) (proj1 (Pmx_orth F (leqnn R) (is_lapack_lt lQ))) mul1mx.
by rewrite (mulmxA (Lmx _ _ _ _)) LU -mulmxA v4 v3 v2 mulmxA (proj2 (Pmx_orth F (leqnn R) (is_lapack_lt lP))) mul1mx.
Qed.

Lemma pslab bk thr tthr bc tf M N A P Q :
  [/\ pColumnEchelonForm bk thr tthr Slab tf M N A P Q = ColumnEchelonForm bk thr tthr Slab tf M N A P Q,
      pRowEchelonForm bk thr tthr Slab tf M N A P Q = RowEchelonForm bk thr tthr Slab tf M N A P Q,
      pReducedColumnEchelonForm bk thr tthr Slab tf M N A P Q = ReducedColumnEchelonForm bk thr tthr Slab tf M N A P Q &
      pReducedRowEchelonForm bk thr tthr bc Slab tf M N A P Q = ReducedRowEchelonForm bk thr tthr bc Slab tf M N A P Q].
Proof. by []. Qed.

Lemma pgj bk thr tthr bc tag M N A P Q : tag = GJSlab \/ tag = GJTile ->
  pReducedRowEchelonForm bk thr tthr bc tag true M N A P Q = ReducedRowEchelonForm bk thr tthr bc tag true M N A P Q.
Proof. by case=> ->. Qed.

Lemma ptile_rank bk thr tthr bc tag tf M N A P Q : (0 < bk)%N -> tag <> Slab ->
  [/\ resR (pColumnEchelonForm bk thr tthr tag tf M N A P Q) = \rank (mx M N A),
      resR (pRowEchelonForm bk thr tthr tag tf M N A P Q) = \rank (mx M N A),
      resR (pReducedColumnEchelonForm bk thr tthr tag tf M N A P Q) = \rank (mx M N A) &
      tag = Tile \/ ~~ tf -> resR (pReducedRowEchelonForm bk thr tthr bc tag tf M N A P Q) = \rank (mx M N A)].
Proof.
move=> bk0 ns.
have r1 := pPLUQ_rank' NonUnit thr M N A bk0; have r2 := pPLUQ_rank' Unit thr M N A bk0.
rewrite /pReducedColumnEchelonForm /pReducedRowEchelonForm /pColumnEchelonForm /pRowEchelonForm.
case: pPLUQ r1 => X1 P1 Q1 R1 /= r1; case: pPLUQ r2 => X2 P2 Q2 R2 /= r2.
by split; case: tag ns => //; case: tf => //= _ [].
Qed.

(** Row s starts after column c, and row t > s has an entry there. *)
Lemma not_echelon M N R s t c (E : grid F) : (s < t < R)%N -> E t c != 0 ->
  all (fun j => E s j == 0) (iota 0 c.+1) -> ~ row_echelon M N R E.
Proof.
move=> /andP[st tR] tc z [piv [_ b inc n _]].
have pt : (piv t <= c)%N.
  by rewrite leqNgt; apply/negP => h; move: tc; rewrite (n t tR).2 // eqxx.
have ps := inc s t; rewrite st tR in ps; have {}ps := ps isT.
have /negP[] := (n s (ltn_trans st tR)).1.
by move/allP: z => /(_ (piv s)); apply; rewrite mem_iota; lia.
Qed.

End Ppar.
