(** * Solve, null spaces, determinant, rank profiles *)
From mathcomp Require Import all_ssreflect all_algebra zify ring.
From Verif Require Import Grid Perm_model Perm_spec Perm_proofs Perm_mx_proofs.
From Verif Require Import Tri_model Tri_spec Tri_proofs Trtri_proofs.
From Verif Require Import Pluq_model Pluq_spec Pluq_rank Pluq_api_proofs Api_model Api_spec Api_blocks Api_proofs.
Set Implicit Arguments.
Unset Strict Implicit.
Unset Printing Implicit Defensive.
Import GRing.Theory.
Local Open Scope ring_scope.

Section Null.
Variable F : fieldType.
Implicit Types (A B C X Z NS : grid F) (x y v w b : nat -> F).

(** ** Null space bases *)

Lemma mx_fidentity0 n A : mx n n (fidentity n n A) = 1%:M.
Proof. by apply/matrixP => i j; rewrite !mxE fidentityE !ltn_ord. Qed.

Lemma rank0_mx d M N A X s u : factors d M N A X s u 0 -> mx M N A = 0.
Proof.
by move=> h; apply/eqP; rewrite -mxrank_eq0 (factors_rank h).
Qed.

Lemma NullSpaceBasis_ok bk thr s M N A junk : (0 < bk)%N ->
  let: (res, dim) := NullSpaceBasis bk thr s M N A junk in
  dim = ((if s is SLeft then M else N) - \rank (mx M N A))%N /\
  match res with
  | None => dim = 0%N
  | Some NS =>
    match s with
    | SRight => frame N dim NS junk /\ right_basis (mx M N A) (mx N dim NS)
    | SLeft => frame dim M NS junk /\ left_basis (mx M N A) (mx dim M NS)
    end
  end.
Proof.
move=> bk0; rewrite /NullSpaceBasis.
have := PLUQ_factors NonUnit thr M N A bk0.
case: PLUQ => X P Q R [lP lQ fr fac _]; have [_ [RM RN] _ _ _] := fac.
rewrite (factors_rank fac).
have [m2 e] : exists m2, M = (R + m2)%N by exists (M - R)%N; lia.
have [n2 e'] : exists n2, N = (R + n2)%N by exists (N - R)%N; lia.
subst M N; rewrite !addKn; clear RM RN.
case: s; rewrite addKn; (case: eqP => d0; first by []); case: eqP => R0.
- subst R; split=> //; split.
    by move=> i j ij; rewrite fidentityE add0n (negbTE ij).
  rewrite (rank0_mx fac) (mx_fidentity0 m2); split; first by rewrite mulmx0.
  by split=> [|y _]; [rewrite mxrank1 | exists y; rewrite mulmx1].
- split=> //; set NS0 := fassign _ _ _ _; set NS1 := ftrsm _ _ _ _ _ _ _ _ _.
  set NS2 := at_ _ _ _ _.
  have [F1 E1] := @ftrsm_mx F SRight Lower NoTrans Unit m2 R (-1) X NS0 (b_piv fac (d := Unit)).
  rewrite -/NS1 /= in F1 E1.
  have E0 : mx m2 R NS0 = mx m2 R (sub R 0 X).
    by apply: eq_mx => i j ii jj; rewrite /NS0 /fassign /fill ii jj.
  have E2 : mx m2 (R + m2) NS2 = row_mx (mx m2 R NS1) 1%:M.
    rewrite mx_row; congr row_mx; last by rewrite /NS2 mx_sub_at mx_fidentity0.
    by apply: eq_mx => i j ii jj; rewrite /NS2 /at_ ifF //; lia.
  split.
    apply: (frame_trans (@applyP_frR _ _ _ _ _ _ _ bk0 lP)) => i j ij.
    have N1 : NS1 i j = junk i j by rewrite F1 /NS0 /fassign /fill ?ifF //; lia.
    rewrite /NS2 /at_ fidentityE subn0 /sub add0n; case: ifP => [Ri|] //.
    by rewrite ifF ?subnKC //; lia.
  have -> := applyP_mx m2 NS2 bk0 (leqnn _) (is_lapack_lt lP) SRight NoTrans.
  rewrite E2; apply: (null_left (tl_unit R X) (b_uU fac) (b_oP F lP) (b_oP' F lP) (b_oQ F lQ) (b_EA lP lQ fac)).
  by rewrite E1 E0 scaleN1r.
- subst R; split=> //; split.
    by move=> i j ij; rewrite fidentityE add0n (negbTE ij).
  rewrite (rank0_mx fac) (mx_fidentity0 n2); split; first by rewrite mul0mx.
  by split=> [|y _]; [rewrite mxrank1 | exists y; rewrite mul1mx].
split=> //; set NS0 := fassign _ _ _ _; set NS1 := ftrsm _ _ _ _ _ _ _ _ _.
set NS2 := at_ _ _ _ _.
have [F1 E1] := @ftrsm_mx F SLeft Upper NoTrans NonUnit R n2 (-1) X NS0 (b_piv fac (d := NonUnit)).
rewrite -/NS1 /= in F1 E1.
have E0 : mx R n2 NS0 = mx R n2 (sub 0 R X).
  by apply: eq_mx => i j ii jj; rewrite /NS0 /fassign /fill ii jj.
have E2 : mx (R + n2) n2 NS2 = col_mx (mx R n2 NS1) 1%:M.
  rewrite mx_col; congr col_mx; last by rewrite /NS2 mx_sub_at mx_fidentity0.
  by apply: eq_mx => i j ii jj; rewrite /NS2 /at_ ifF //; lia.
split.
  apply: (frame_trans (@applyP_frL _ _ _ _ _ _ _ bk0 lQ)) => i j ij.
  have N1 : NS1 i j = junk i j by rewrite F1 /NS0 /fassign /fill ?ifF //; lia.
  rewrite /NS2 /at_ fidentityE subn0 /sub add0n; case: ifP => [Ri|] //.
  by rewrite ifF ?subnKC //; lia.
have -> := applyP_mx n2 NS2 bk0 (leqnn _) (is_lapack_lt lQ) SLeft Trans.
rewrite E2; apply: (null_right (tl_unit R X) (b_uU fac) (b_oP F lP) (b_oQ F lQ) (b_oQ' F lQ) (b_EA lP lQ fac)).
by rewrite E1 E0 scaleN1r.
Qed.

(** ** Strided vectors *)

Lemma lift_vec inc f x i : (0 < inc)%N -> vec inc (lift inc f x) i = f (vec inc x) i.
Proof. by move=> h; rewrite /vec /lift dvdn_mull // mulnK. Qed.

Lemma lift_frame n inc f x : (0 < inc)%N -> (forall v i, (n <= i)%N -> f v i = v i) ->
  vec_frame n inc (lift inc f x) x.
Proof.
move=> i0 H c; rewrite negb_and /lift; case: ifP => [/divnK e /=|] //; rewrite -leqNgt => h.
by rewrite H // e.
Qed.

Lemma vec_frame_trans n inc x y (z : nat -> F) : vec_frame n inc x y -> vec_frame n inc y z -> vec_frame n inc x z.
Proof. by move=> h1 h2 c hc; rewrite h1 // h2. Qed.

Lemma eq_cv n v w : (forall i, (i < n)%N -> v i = w i) -> cv n v = cv n w.
Proof. by move=> H; apply: eq_mx => i j ii _; exact: H. Qed.
Lemma eq_rv n v w : (forall i, (i < n)%N -> v i = w i) -> rv n v = rv n w.
Proof. by move=> H; apply: eq_mx => i j _ ii; exact: H. Qed.

Lemma as_col_mx bk t n p v : (0 < bk)%N -> is_lapack n p ->
  cv n (as_col (applyP bk SLeft t 1 0 n p) v) =
  (if t is Trans then (Pmx F n p 0 n)^T else Pmx F n p 0 n) *m cv n v.
Proof.
move=> bk0 lp; have H := applyP_mx 1 (fun i j => if j == 0%N then v i else 0) bk0 (leqnn _) (is_lapack_lt lp) SLeft.
have E0 : mx n 1 (fun i j => if j == 0%N then v i else 0) = cv n v.
  by apply: eq_mx => i j _; rewrite ltnS leqn0 => ->.
by rewrite -E0; case: t (H t) => <-; apply: eq_mx => i j _; rewrite ltnS leqn0 => /eqP ->.
Qed.

Lemma as_row_mx bk t n p v : (0 < bk)%N -> is_lapack n p ->
  rv n (as_row (applyP bk SRight t 1 0 n p) v) =
  rv n v *m (if t is Trans then (Pmx F n p 0 n)^T else Pmx F n p 0 n).
Proof.
move=> bk0 lp; have H := applyP_mx 1 (fun i j => if i == 0%N then v j else 0) bk0 (leqnn _) (is_lapack_lt lp) SRight.
have E0 : mx 1 n (fun i j => if i == 0%N then v j else 0) = rv n v.
  by apply: eq_mx => i j; rewrite ltnS leqn0 => ->.
by rewrite -E0; case: t (H t) => <-; apply: eq_mx => i j; rewrite ltnS leqn0 => /eqP ->.
Qed.

Lemma as_col_frame bk t n p v i : (0 < bk)%N -> is_lapack n p -> (n <= i)%N ->
  as_col (applyP bk SLeft t 1 0 n p) v i = v i.
Proof.
by move=> bk0 lp ni; rewrite /as_col (applyP_frL _ _ bk0 lp) ?eqxx // ltnNge ni.
Qed.
Lemma as_row_frame bk t n p v i : (0 < bk)%N -> is_lapack n p -> (n <= i)%N ->
  as_row (applyP bk SRight t 1 0 n p) v i = v i.
Proof.
by move=> bk0 lp ni; rewrite /as_row (applyP_frR _ _ bk0 lp) ?eqxx // andbC ltnNge ni.
Qed.

(** ** Solve *)

Lemma Solve_ok bk thr M A incx x incb b : (0 < bk)%N -> (0 < incx)%N -> (0 < incb)%N ->
  let y := Solve bk thr M A incx x incb b in
  if mx M M A \in unitmx then
    mx M M A *m cv M (vec incx y) = cv M (vec incb b) /\ vec_frame M incx y x
  else y = x.
Proof.
move=> bk0 ix ib; rewrite /Solve.
have := PLUQ_factors NonUnit thr M M A bk0.
case: PLUQ => X P Q R [lP lQ fr fac _]; have [_ [RM _] _ _ _] := fac.
rewrite -row_full_unit /row_full (factors_rank fac).
case: ltnP => cmp; first by rewrite ltn_eqF.
have {RM cmp}e : M = R by apply/eqP; rewrite eqn_leq cmp RM.
subst M; rewrite eqxx; have piv : inv_diag NonUnit R X by case: fac => _ _ h _ _; exact: inv_piv.
set x1 := lift incx (fun _ _ => _) x; set x2 := lift incx _ x1; set x3 := lift incx _ x2.
set x4 := lift incx _ x3; set x5 := lift incx _ x4.
split; last first.
  apply: vec_frame_trans (vec_frame_trans _ (vec_frame_trans _ (vec_frame_trans _ (y := x1) _))).
  - by apply: lift_frame => // v i; exact: as_col_frame.
  - apply: lift_frame => // v i Mi; apply: (proj2 (ftrsv_mx Upper NoTrans v (_ : inv_diag NonUnit R X))) => //.
  - apply: lift_frame => // v i Mi; apply: (proj2 (ftrsv_mx Lower NoTrans v (_ : inv_diag Unit R X))) => //.
  - by apply: lift_frame => // v i; exact: as_col_frame.
  by apply: lift_frame => // v i Mi; rewrite ltnNge Mi.
have v1 : cv R (vec incx x1) = cv R (vec incb b).
  by apply: eq_cv => i ii; rewrite lift_vec // ii.
have v2 : cv R (vec incx x2) = Pmx F R P 0 R *m cv R (vec incb b).
  rewrite -v1 -(as_col_mx NoTrans _ bk0 lP); apply: eq_cv => i _; exact: lift_vec.
have v3 : trimx Lower Unit R X *m cv R (vec incx x3) = cv R (vec incx x2).
  have iu : inv_diag Unit R X by [].
  apply: etrans (proj1 (ftrsv_mx Lower NoTrans (vec incx x2) iu)).
  by congr (_ *m _); apply: eq_cv => i _; exact: lift_vec.
have v4 : trimx Upper NonUnit R X *m cv R (vec incx x4) = cv R (vec incx x3).
  apply: etrans (proj1 (ftrsv_mx Upper NoTrans (vec incx x3) piv)).
  by congr (_ *m _); apply: eq_cv => i _; exact: lift_vec.
have v5 : cv R (vec incx x5) = (Pmx F R Q 0 R)^T *m cv R (vec incx x4).
  rewrite -(as_col_mx Trans _ bk0 lQ); apply: eq_cv => i _; exact: lift_vec.
have LU : Lmx NonUnit R R X *m Umx NonUnit R R X =
          trimx Lower Unit R X *m trimx Upper NonUnit R X.
  rewrite !mxM; apply: eq_mx => i j ii jj; apply: eq_rsum => t tt.
  rewrite /Lo /Up /tri; congr (_ * _).
    by case: ltngtP => // ->.
  by case: ltngtP => // ->.
rewrite (factors_mx lP lQ fac) v5 -!mulmxA (mulmxA (Pmx F _ Q 0 _)) (proj1 (Pmx_orth F (leqnn R) (is_lapack_lt lQ))) mul1mx.
by rewrite (mulmxA (Lmx _ _ _ _)) LU -mulmxA v4 v3 v2 mulmxA (proj2 (Pmx_orth F (leqnn R) (is_lapack_lt lP))) mul1mx.
Qed.

End Null.
