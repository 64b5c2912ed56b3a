(** * RandomNullSpaceVector *)
From mathcomp Require Import all_ssreflect all_algebra zify ring.
From Verif Require Import Grid Perm_model Perm_spec Perm_proofs Perm_mx_proofs.
From Verif Require Import Tri_model Tri_spec Tri_proofs Trtri_proofs.
From Verif Require Import Pluq_model Pluq_spec Pluq_rank Pluq_api_proofs Api_model Api_spec Api_blocks Api_proofs Null_proofs.
Set Implicit Arguments.
Unset Strict Implicit.
Unset Printing Implicit Defensive.
Import GRing.Theory.
Local Open Scope ring_scope.

Section Rand.
Variable F : fieldType.
Implicit Types (A B C X Z NS : grid F) (x y v w b g : nat -> F).

Lemma cv_col R n v : cv (R + n) v = col_mx (cv R v) (cv n (fun i => v (R + i)%N)).
Proof. by rewrite /cv mx_col. Qed.
Lemma rv_row R n v : rv (R + n) v = row_mx (rv R v) (rv n (fun i => v (R + i)%N)).
Proof. by rewrite /rv mx_row. Qed.

Lemma cv_inj n v w : cv n v = cv n w -> forall i, (i < n)%N -> v i = w i.
Proof. by move=> /matrixP H i ii; have := H (Ordinal ii) ord0; rewrite !mxE. Qed.
Lemma rv_inj n v w : rv n v = rv n w -> forall i, (i < n)%N -> v i = w i.
Proof. by move=> /matrixP H i ii; have := H ord0 (Ordinal ii); rewrite !mxE. Qed.

Lemma cv0 n v : (forall i, (i < n)%N -> v i = 0) -> cv n v = 0.
Proof. by move=> H; apply/matrixP => i j; rewrite !mxE H. Qed.
Lemma rv0 n v : (forall i, (i < n)%N -> v i = 0) -> rv n v = 0.
Proof. by move=> H; apply/matrixP => i j; rewrite !mxE H. Qed.

Lemma ftrsv_cv u t d n X v : inv_diag d n X ->
  opmx t (trimx u d n X) *m cv n (ftrsv u t d n X v) = cv n v.
Proof. by move=> h; exact: (proj1 (ftrsv_mx u t v h)). Qed.
Lemma ftrsv_rv u t d n X v : inv_diag d n X ->
  rv n (ftrsv u t d n X v) *m (opmx t (trimx u d n X))^T = rv n v.
Proof.
move=> h; apply: trmx_inj; rewrite trmx_mul trmxK.
have T (q : nat -> F) : (rv n q)^T = cv n q by apply/matrixP => i j; rewrite !mxE.
by rewrite !T ftrsv_cv.
Qed.
Lemma ftrsv_fr u t d n X v i : inv_diag d n X -> (n <= i)%N -> ftrsv u t d n X v i = v i.
Proof. by move=> h; exact: (proj2 (ftrsv_mx u t v h)). Qed.

Lemma RNSV_right bk thr M N A x : (0 < bk)%N ->
  let y g := RandomNullSpaceVector bk thr SRight M N A g 1 x in
  (forall g, mx M N A *m cv N (vec 1 (y g)) = 0 /\ vec_frame N 1 (y g) x) /\
  (forall z, mx M N A *m cv N z = 0 -> exists g, forall i, (i < N)%N -> vec 1 (y g) i = z i).
Proof.
move=> bk0; rewrite /RandomNullSpaceVector.
have := PLUQ_factors NonUnit thr M N A bk0.
case: PLUQ => X P Q R [lP lQ fr fac _]; have [_ [RM RN] _ _ _] := fac.
have [m2 e] : exists m2, M = (R + m2)%N by exists (M - R)%N; lia.
have [n2 e'] : exists n2, N = (R + n2)%N by exists (N - R)%N; lia.
subst M N; clear RM RN.
have all := vec_right_all (tl_unit R X) (b_uU fac) (b_oP F lP) (b_oQ' F lQ) (b_EA lP lQ fac).
have one := vec_right (b_oQ F lQ) (b_EA lP lQ fac).
case: eqP => [E|_].
  have n0 : n2 = 0%N by lia.
  subst n2; split=> [g|z /all E0].
    split; last by apply: lift_frame => // v i Ni; rewrite ltnNge Ni.
    by rewrite cv0 ?mulmx0 // => i ii; rewrite lift_vec // ii.
  exists (fun _ => 0) => i iN; rewrite lift_vec // iN.
  have {}E0 := E0 0; rewrite mulmx0 [dsubmx _]flatmx0 mulmx0 oppr0 col_mx0 mulmx0 in E0.
  by have := cv_inj (etrans (E0 erefl) (esym (cv0 (fun (i : nat) _ => erefl _)))) iN.
case: eqP => R0.
  subst R; split=> [g|z _]; last by exists z => i iN; rewrite lift_vec // iN.
  rewrite (rank0_mx fac) mul0mx; split=> //.
  by apply: lift_frame => // v i Ni; rewrite ifF //; apply/negbTE; rewrite -leqNgt.
rewrite addKn.
have piv : inv_diag NonUnit R X by exact: (b_piv fac).
pose st g := lift 1 (ftrsv Upper NoTrans NonUnit R X)
  (lift 1 (fun v => fgemv NoTrans R n2 (-1) (sub 0 R X) (fun k => v (R + k)%N) 0 v)
    (lift 1 (fun v i => if (R <= i < R + n2)%N then g i else v i) x)).
have frst g : vec_frame (R + n2) 1 (st g) x.
  apply: (@vec_frame_trans _ _ _ _ (lift 1 (fun v i => if (R <= i < R + n2)%N then g i else v i) x)).
    apply: (@vec_frame_trans _ _ _ _ _); apply: lift_frame => // v i Ni.
      by apply: ftrsv_fr => //; lia.
    by rewrite /fgemv ifF //; lia.
  by apply: lift_frame => // v i Ni; rewrite ifF //; lia.
have hi g i : (i < n2)%N -> vec 1 (st g) (R + i)%N = g (R + i)%N.
  move=> ii; rewrite lift_vec // ftrsv_fr ?leq_addr // lift_vec // /fgemv ifF; last lia.
  by rewrite lift_vec // ifT //; lia.
have lo g : trimx Upper NonUnit R X *m cv R (vec 1 (st g)) = - (mx R n2 (sub 0 R X) *m cv n2 (fun i => g (R + i)%N)).
  have -> : cv R (vec 1 (st g)) = cv R (ftrsv Upper NoTrans NonUnit R X (vec 1 (lift 1 (fun v => fgemv NoTrans R n2 (-1) (sub 0 R X) (fun k => v (R + k)%N) 0 v)
    (lift 1 (fun v i => if (R <= i < R + n2)%N then g i else v i) x)))).
    by apply: eq_cv => i _; rewrite lift_vec.
  rewrite (ftrsv_cv Upper NoTrans) // mxM; apply/matrixP => i j; rewrite !mxE.
  rewrite lift_vec // /fgemv ltn_ord mul0r addr0 mulN1r; congr (- _); apply: eq_rsum => k kn; congr (_ * _).
  by rewrite -/(vec 1 _ _) lift_vec // ifT //; lia.
have fin g : cv (R + n2) (vec 1 (lift 1 (as_col (applyP bk SLeft Trans 1 0 (R + n2) Q)) (st g))) =
    (Pmx F (R + n2) Q 0 (R + n2))^T *m col_mx (cv R (vec 1 (st g))) (cv n2 (fun i => g (R + i)%N)).
  have -> : cv n2 (fun i => g (R + i)%N) = cv n2 (fun i => vec 1 (st g) (R + i)%N) by apply: eq_cv => i ii; rewrite hi.
  rewrite -cv_col -(as_col_mx Trans _ bk0 lQ); apply: eq_cv => i _; exact: lift_vec.
split=> [g|z /all E].
  split; last first.
    apply: vec_frame_trans (frst g); apply: lift_frame => // v i; exact: as_col_frame.
  by rewrite fin; apply: one.
exists (as_col (applyP bk SLeft NoTrans 1 0 (R + n2) Q) z).
set g := as_col _ _; apply: cv_inj; rewrite fin.
have Eg : cv n2 (fun i => g (R + i)%N) = dsubmx (Pmx F (R + n2) Q 0 (R + n2) *m cv (R + n2) z).
  by rewrite -(as_col_mx NoTrans _ bk0 lQ) cv_col col_mxKd.
by rewrite Eg -E // -Eg lo.
Qed.

Lemma RNSV_left bk thr M N A x : (0 < bk)%N ->
  let y g := RandomNullSpaceVector bk thr SLeft M N A g 1 x in
  (forall g, rv M (vec 1 (y g)) *m mx M N A = 0 /\ vec_frame M 1 (y g) x) /\
  (forall z, rv M z *m mx M N A = 0 -> exists g, forall i, (i < M)%N -> vec 1 (y g) i = z i).
Proof.
move=> bk0; rewrite /RandomNullSpaceVector.
have := PLUQ_factors NonUnit thr M N A bk0.
case: PLUQ => X P Q R [lP lQ fr fac _]; have [_ [RM RN] _ _ _] := fac.
have [m2 e] : exists m2, M = (R + m2)%N by exists (M - R)%N; lia.
have [n2 e'] : exists n2, N = (R + n2)%N by exists (N - R)%N; lia.
subst M N; clear RM RN.
have all := vec_left_all (tl_unit R X) (b_uU fac) (b_oP' F lP) (b_oQ F lQ) (b_EA lP lQ fac).
have one := vec_left (b_oP F lP) (b_EA lP lQ fac).
case: eqP => [E|_].
  have n0 : m2 = 0%N by lia.
  subst m2; split=> [g|z /all E0].
    split; last by apply: lift_frame => // v i Ni; rewrite ltnNge Ni.
    by rewrite rv0 ?mul0mx // => i ii; rewrite lift_vec // ii.
  exists (fun _ => 0) => i iN; rewrite lift_vec // iN.
  have {}E0 := E0 0; rewrite mul0mx [rsubmx _]thinmx0 mul0mx oppr0 row_mx0 mul0mx in E0.
  by have := rv_inj (etrans (E0 erefl) (esym (rv0 (fun (i : nat) _ => erefl _)))) iN.
case: eqP => R0.
  subst R; split=> [g|z _]; last by exists z => i iN; rewrite lift_vec // iN.
  rewrite (rank0_mx fac) mulmx0; split=> //.
  by apply: lift_frame => // v i Ni; rewrite ifF //; apply/negbTE; rewrite -leqNgt.
rewrite addKn.
have piv : inv_diag Unit R X by [].
pose st g := lift 1 (ftrsv Lower Trans Unit R X)
  (lift 1 (fun v => fgemv Trans m2 R (-1) (sub R 0 X) (fun k => v (R + k)%N) 0 v)
    (lift 1 (fun v i => if (R <= i < R + m2)%N then g i else v i) x)).
have frst g : vec_frame (R + m2) 1 (st g) x.
  apply: (@vec_frame_trans _ _ _ _ (lift 1 (fun v i => if (R <= i < R + m2)%N then g i else v i) x)).
    apply: (@vec_frame_trans _ _ _ _ _); apply: lift_frame => // v i Ni.
      by apply: ftrsv_fr => //; lia.
    by rewrite /fgemv ifF //; lia.
  by apply: lift_frame => // v i Ni; rewrite ifF //; lia.
have hi g i : (i < m2)%N -> vec 1 (st g) (R + i)%N = g (R + i)%N.
  move=> ii; rewrite lift_vec // ftrsv_fr ?leq_addr // lift_vec // /fgemv ifF; last lia.
  by rewrite lift_vec // ifT //; lia.
have lo g : rv R (vec 1 (st g)) *m trimx Lower Unit R X = - (rv m2 (fun i => g (R + i)%N) *m mx m2 R (sub R 0 X)).
  have -> : rv R (vec 1 (st g)) = rv R (ftrsv Lower Trans Unit R X (vec 1 (lift 1 (fun v => fgemv Trans m2 R (-1) (sub R 0 X) (fun k => v (R + k)%N) 0 v)
    (lift 1 (fun v i => if (R <= i < R + m2)%N then g i else v i) x)))).
    by apply: eq_rv => i _; rewrite lift_vec.
  have := ftrsv_rv Lower Trans _ piv; rewrite /= trmxK => ->.
  rewrite mxM; apply/matrixP => i j; rewrite !mxE.
  rewrite lift_vec // /fgemv ltn_ord mul0r addr0 mulN1r; congr (- _); apply: eq_rsum => k kn; rewrite mulrC; congr (_ * _).
  by rewrite -/(vec 1 _ _) lift_vec // ifT //; lia.
have fin g : rv (R + m2) (vec 1 (lift 1 (as_row (applyP bk SRight NoTrans 1 0 (R + m2) P)) (st g))) =
    row_mx (rv R (vec 1 (st g))) (rv m2 (fun i => g (R + i)%N)) *m Pmx F (R + m2) P 0 (R + m2).
  have -> : rv m2 (fun i => g (R + i)%N) = rv m2 (fun i => vec 1 (st g) (R + i)%N) by apply: eq_rv => i ii; rewrite hi.
  rewrite -rv_row -(as_row_mx NoTrans _ bk0 lP); apply: eq_rv => i _; exact: lift_vec.
split=> [g|z /all E].
  split; last first.
    apply: vec_frame_trans (frst g); apply: lift_frame => // v i; exact: as_row_frame.
  by rewrite fin; apply: one.
exists (as_row (applyP bk SRight Trans 1 0 (R + m2) P) z).
set g := as_row _ _; apply: rv_inj; rewrite fin.
have Eg : rv m2 (fun i => g (R + i)%N) = rsubmx (rv (R + m2) z *m (Pmx F (R + m2) P 0 (R + m2))^T).
  by rewrite -(as_row_mx Trans _ bk0 lP) rv_row row_mxKr.
by rewrite Eg -E // -Eg lo.
Qed.

End Rand.
