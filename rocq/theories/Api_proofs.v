(** * Correctness of the solvers built on PLUQ *)
From mathcomp Require Import all_ssreflect all_algebra zify ring.
From Verif Require Import Grid Perm_model Perm_spec Perm_proofs Perm_mx_proofs.
From Verif Require Import Tri_model Tri_spec Tri_proofs Trtri_proofs.
From Verif Require Import Pluq_model Pluq_spec Pluq_rank Pluq_api_proofs Api_model Api_spec Api_blocks.
Set Implicit Arguments.
Unset Strict Implicit.
Unset Printing Implicit Defensive.
Import GRing.Theory.
Local Open Scope ring_scope.

Section Api.
Variable F : fieldType.
Implicit Types A B C X Z NS : grid F.

Lemma mx_col R m2 n X : mx (R + m2) n X = col_mx (mx R n X) (mx m2 n (sub R 0 X)).
Proof.
apply/matrixP => i j; rewrite !mxE; case: split_ordP => k ->; rewrite !mxE //=.
Qed.
Lemma mx_row m R n2 X : mx m (R + n2) X = row_mx (mx m R X) (mx m n2 (sub 0 R X)).
Proof.
apply/matrixP => i j; rewrite !mxE; case: split_ordP => k ->; rewrite !mxE //=.
Qed.

Lemma Lmx_col d R m2 X : Lmx d (R + m2) R X = col_mx (trimx Lower (odiag d) R X) (mx m2 R (sub R 0 X)).
Proof.
rewrite /Lmx mx_col; congr col_mx; apply: eq_mx => i j ii jj; rewrite /Lo /tri /sub ?add0n.
  by case: (ltngtP i j) => // ->; case: d.
by rewrite ifT //; lia.
Qed.
Lemma Umx_row d R n2 X : Umx d R (R + n2) X = row_mx (trimx Upper d R X) (mx R n2 (sub 0 R X)).
Proof.
rewrite /Umx mx_row; congr row_mx; apply: eq_mx => i j ii jj; rewrite /Up /tri /sub ?add0n.
  by case: (ltngtP i j) => // ->; case: d.
by rewrite ifT //; lia.
Qed.

Lemma is_lapack_lt n p : is_lapack n p -> forall i, (0 <= i < n)%N -> (p i < n)%N.
Proof. by move=> h i /andP[_ iN]; case/andP: (h _ iN). Qed.

Lemma fiszeroP m n A : reflect (mx m n A = 0) (fiszero m n A).
Proof.
apply: (iffP allP) => [H|H i].
  apply/matrixP => i j; rewrite !mxE.
  have ii : (i : nat) \in iota 0 m by rewrite mem_iota ltn_ord.
  have jj : (j : nat) \in iota 0 n by rewrite mem_iota ltn_ord.
  exact/eqP/(allP (H i ii)).
rewrite mem_iota /= => im; apply/allP => j; rewrite mem_iota /= => jn.
by have := mx_eq (B := fun _ _ => 0) _ im jn; move=> -> //; rewrite H; apply/matrixP => x y; rewrite !mxE.
Qed.

Lemma fzeroE m n A i j : fzero m n A i j = if (i < m)%N && (j < n)%N then 0 else A i j.
Proof. by []. Qed.

Lemma iteri_diag k (Z : grid F) i j : iteri k (fun i Z => upd Z i i 1) Z i j = if (i == j) && (i < k)%N then 1 else Z i j.
Proof.
elim: k => [|k IH] /=; first by rewrite andbF.
rewrite /upd IH ltnS; case: (eqVneq i k) => [->|ik] /=; first by rewrite ltnn andbF leqnn andbT eq_sym.
by rewrite [(i <= k)%N]leq_eqVlt (negbTE ik).
Qed.

Lemma fidentityE m n A i j : fidentity m n A i j =
  if (i < m)%N && (j < n)%N then (i == j)%:R else A i j.
Proof.
rewrite /fidentity memoE iteri_diag fzeroE /=; case: eqP => [->|_] /=; last by case: ifP.
by rewrite leq_min; case: (j < m)%N; case: (j < n)%N; rewrite ?eqxx.
Qed.

Lemma fidentity_mx n A : mx n n (fidentity n n A) = 1%:M.
Proof. by apply/matrixP => i j; rewrite !mxE fidentityE !ltn_ord. Qed.

Lemma fgemm_mx_gen m n k al A B be C :
  mx m n (fgemm NoTrans NoTrans m n k al A B be C) = al *: (mx m k A *m mx k n B) + be *: mx m n C.
Proof.
rewrite mxM; apply/matrixP => i j; rewrite !mxE /fgemm memoE /fill !ltn_ord //=.
Qed.

Lemma inv_piv d R X : (forall t, (t < R)%N -> X t t != 0) -> inv_diag d R X.
Proof. by move=> H _ i; exact: H. Qed.

Lemma subD m n R X : mx m n (fun i j => sub R 0 X i j) = mx m n (sub R 0 X).
Proof. by []. Qed.

Lemma tl_unit R X : trimx Lower Unit R X \in unitmx.
Proof.
apply: lower_unit => [i j ij|i _]; rewrite /tri; first by rewrite ltn_eqF ?ifF //; lia.
by rewrite eqxx oner_eq0.
Qed.
Lemma tu_unit R X : inv_diag NonUnit R X -> trimx Upper NonUnit R X \in unitmx.
Proof.
move=> h; apply: upper_unit => [i j ij|i iR]; rewrite /tri; first by rewrite gtn_eqF ?ifF //; lia.
by rewrite eqxx; apply: h.
Qed.

Section Facts.
Variables (R m2 n2 : nat) (A X : grid F) (P Q : nat -> nat) (bk : nat).
Let M := (R + m2)%N.
Let N := (R + n2)%N.
Hypothesis bk0 : (0 < bk)%N.
Hypothesis (lP : is_lapack M P) (lQ : is_lapack N Q).
Hypothesis fac : factors NonUnit M N A X (sigma P 0 M) (sigma Q 0 N) R.

Let Pm := Pmx F M P 0 M.
Let Qm := Pmx F N Q 0 N.
Let L1 := trimx Lower Unit R X.
Let U1 := trimx Upper NonUnit R X.
Let L2 := mx m2 R (sub R 0 X).
Let U2 := mx R n2 (sub 0 R X).

Lemma b_oP : Pm *m Pm^T = 1%:M. Proof. by case: (Pmx_orth F (leqnn M) (is_lapack_lt lP)). Qed.
Lemma b_oP' : Pm^T *m Pm = 1%:M. Proof. by case: (Pmx_orth F (leqnn M) (is_lapack_lt lP)). Qed.
Lemma b_oQ : Qm *m Qm^T = 1%:M. Proof. by case: (Pmx_orth F (leqnn N) (is_lapack_lt lQ)). Qed.
Lemma b_oQ' : Qm^T *m Qm = 1%:M. Proof. by case: (Pmx_orth F (leqnn N) (is_lapack_lt lQ)). Qed.

Lemma b_piv d : inv_diag d R X.
Proof. by case: fac => _ _ h _ _; exact: inv_piv. Qed.

Lemma b_EA : mx M N A = Pm^T *m col_mx L1 L2 *m row_mx U1 U2 *m Qm.
Proof. by rewrite (factors_mx lP lQ fac) /M /N Lmx_col Umx_row. Qed.

Lemma b_uU : U1 \in unitmx.
Proof. by apply: tu_unit; exact: b_piv. Qed.

Definition left_core n B :=
  let B := applyP bk SLeft NoTrans n 0 M P B in
  let B := ftrsm SLeft Lower NoTrans Unit R n 1 X B in
  let B := at_ R 0 (fgemm NoTrans NoTrans (M - R) n R (-1) (sub R 0 X) B 1) B in
  (ftrsm SLeft Upper NoTrans NonUnit R n 1 X B, ~~ fiszero (M - R) n (sub R 0 B)).

Definition right_core n B :=
  let B := applyP bk SRight Trans n 0 N Q B in
  let B := ftrsm SRight Upper NoTrans NonUnit n R 1 X B in
  let B := at_ 0 R (fgemm NoTrans NoTrans n (N - R) R (-1) B (sub 0 R X) 1) B in
  (ftrsm SRight Lower NoTrans Unit n R 1 X B, ~~ fiszero n (N - R) (sub 0 R B)).

Lemma left_core_ok n B : let: (Z, info) := left_core n B in
  [/\ ~~ info -> mx M N A *m (Qm^T *m col_mx (mx R n Z) 0) = mx M n B,
      ~~ info -> forall i j, (R <= i < M)%N -> (j < n)%N -> Z i j = 0,
      (exists S, mx M N A *m S = mx M n B) -> ~~ info &
      frame M n Z B].
Proof.
rewrite /left_core.
set B1 := applyP _ _ _ _ _ _ _ _; set B2 := ftrsm _ Lower _ _ _ _ _ _ _.
set B3 := at_ _ _ _ _; set B4 := ftrsm _ Upper _ _ _ _ _ _ _.
have mR : (M - R)%N = m2 by rewrite /M addKn.
have E1 : mx M n B1 = Pm *m mx M n B.
  by have := applyP_mx n B bk0 (leqnn M) (is_lapack_lt lP) SLeft NoTrans.
have [F2 E2] := @ftrsm_mx F SLeft Lower NoTrans Unit R n 1 X B1 (@b_piv _).
rewrite -/B2 scale1r /= in F2 E2.
have T3 : mx R n B3 = mx R n B2 by apply: eq_mx => i j iR jn; rewrite /B3 /at_ ifF //; lia.
have D3 : mx m2 n (sub R 0 B3) = mx m2 n (sub R 0 B1) - L2 *m mx R n B2.
  rewrite /B3 mx_sub_at mR fgemm_mx_gen scale1r scaleN1r addrC; congr (_ + _).
  by apply: eq_mx => i j im jn; rewrite /sub F2 //; lia.
have [F4 E4] := @ftrsm_mx F SLeft Upper NoTrans NonUnit R n 1 X B3 (@b_piv _).
rewrite -/B4 scale1r T3 /= in F4 E4.
move: E1; rewrite [mx M n B1]mx_col => /esym E1.
have [S1 S2] := solve_left (tl_unit R X) b_oP b_oP' b_oQ b_EA E1 E2 D3 E4.
rewrite mR negbK; split.
- by move=> /fiszeroP z; rewrite S1.
- move=> /fiszeroP z i j iR jn; rewrite F4; last by lia.
  have im : (i - R < m2)%N by move: iR; rewrite /M; lia.
  have := @mx_eq F m2 n (sub R 0 B3) (fun _ _ => 0) _ (i - R)%N j im jn.
  rewrite /sub add0n subnKC; last by case/andP: iR.
  by move=> -> //; rewrite z; apply/matrixP => x y; rewrite !mxE.
- by move=> H; apply/fiszeroP/S2.
move=> i j ij; rewrite F4; last by move: ij; rewrite /M; lia.
have fP : B1 i j = B i j.
  apply: (@applyP_frame F bk SLeft NoTrans n 0 M P B M i j) => //; first by move=> k /andP[_ /lP/andP[_ ->]].
  by move: ij; rewrite negb_and -!leqNgt => /orP[->|->]; rewrite ?orbT.
rewrite /B3 /at_ mR subn0; case: ifP => ci; last by rewrite F2 ?fP //; move: ij; rewrite /M; lia.
rewrite (@fgemm_fr F _ _ _ _ _ _ _ _ _ (sub R 0 B2)); last by move: ij; rewrite /M; lia.
by rewrite /sub subnKC ?add0n ?F2 ?fP //; [move: ij; rewrite /M; lia | lia].
Qed.

Lemma right_core_ok n B : let: (Z, info) := right_core n B in
  [/\ ~~ info -> (row_mx (mx n R Z) 0 *m Pm) *m mx M N A = mx n N B,
      ~~ info -> forall i j, (i < n)%N -> (R <= j < N)%N -> Z i j = 0,
      (exists S, S *m mx M N A = mx n N B) -> ~~ info &
      frame n N Z B].
Proof.
rewrite /right_core.
set B1 := applyP _ _ _ _ _ _ _ _; set B2 := ftrsm _ Upper _ _ _ _ _ _ _.
set B3 := at_ _ _ _ _; set B4 := ftrsm _ Lower _ _ _ _ _ _ _.
have mR : (N - R)%N = n2 by rewrite /N addKn.
have E1 : mx n N B1 = mx n N B *m Qm^T.
  by have := applyP_mx n B bk0 (leqnn N) (is_lapack_lt lQ) SRight Trans.
have [F2 E2] := @ftrsm_mx F SRight Upper NoTrans NonUnit n R 1 X B1 (@b_piv _).
rewrite -/B2 scale1r /= in F2 E2.
have T3 : mx n R B3 = mx n R B2 by apply: eq_mx => i j iR jn; rewrite /B3 /at_ ifF //; lia.
have D3 : mx n n2 (sub 0 R B3) = mx n n2 (sub 0 R B1) - mx n R B2 *m U2.
  rewrite /B3 mx_sub_at mR fgemm_mx_gen scale1r scaleN1r addrC; congr (_ + _).
  by apply: eq_mx => i j im jn; rewrite /sub F2 //; lia.
have [F4 E4] := @ftrsm_mx F SRight Lower NoTrans Unit n R 1 X B3 (@b_piv _).
rewrite -/B4 scale1r T3 /= in F4 E4.
move: E1; rewrite [mx n N B1]mx_row => /esym E1.
have [S1 S2] := solve_right b_uU b_oP b_oQ b_oQ' b_EA E1 E2 D3 E4.
rewrite mR negbK; split.
- by move=> /fiszeroP z; rewrite S1.
- move=> /fiszeroP z i j jn iR; rewrite F4; last by lia.
  have im : (j - R < n2)%N by move: iR; rewrite /N; lia.
  have := @mx_eq F n n2 (sub 0 R B3) (fun _ _ => 0) _ i (j - R)%N jn im.
  rewrite /sub add0n subnKC; last by case/andP: iR.
  by move=> -> //; rewrite z; apply/matrixP => x y; rewrite !mxE.
- by move=> H; apply/fiszeroP/S2.
move=> i j ij; rewrite F4; last by move: ij; rewrite /N; lia.
have fP : B1 i j = B i j.
  apply: (@applyP_frame F bk SRight Trans n 0 N Q B N i j) => //; first by move=> k /andP[_ /lQ/andP[_ ->]].
  by move: ij; rewrite negb_and -!leqNgt => /orP[->|->]; rewrite ?orbT.
rewrite /B3 /at_ mR subn0; case: ifP => ci; last by rewrite F2 ?fP //; move: ij; rewrite /N; lia.
rewrite (@fgemm_fr F _ _ _ _ _ _ _ _ _ (sub 0 R B2)); last by move: ij; rewrite /N; lia.
rewrite /sub subnKC ?add0n ?F2 ?fP //; move: ij ci; rewrite /N; lia.
Qed.

End Facts.

Lemma col0 R m2 n Z : (forall i j, (R <= i < R + m2)%N -> (j < n)%N -> Z i j = 0) ->
  mx (R + m2) n Z = col_mx (mx R n Z) 0.
Proof.
move=> H; rewrite mx_col; congr col_mx; apply/matrixP => i j; rewrite !mxE /sub.
by rewrite H ?add0n //; have := ltn_ord i; lia.
Qed.
Lemma row0 m R n2 Z : (forall i j, (i < m)%N -> (R <= j < R + n2)%N -> Z i j = 0) ->
  mx m (R + n2) Z = row_mx (mx m R Z) 0.
Proof.
move=> H; rewrite mx_row; congr row_mx; apply/matrixP => i j; rewrite !mxE /sub.
by rewrite H ?add0n //; have := ltn_ord j; lia.
Qed.

Lemma applyP_fr bk s t n p k B : (0 < bk)%N -> is_lapack n p ->
  frame (if s is SLeft then n else k) (if s is SLeft then k else n) (applyP bk s t k 0 n p B) B.
Proof.
move=> bk0 lp i j ij; apply: (@applyP_frame F bk s t k 0 n p B n i j) => //.
  by move=> l /andP[_ /lp/andP[_ ->]].
by move: ij; case: s; rewrite negb_and -!leqNgt => /orP[->|->]; rewrite ?orbT.
Qed.

Lemma applyP_frL bk t n p k B : (0 < bk)%N -> is_lapack n p -> frame n k (applyP bk SLeft t k 0 n p B) B.
Proof. exact: (@applyP_fr bk SLeft). Qed.
Lemma applyP_frR bk t n p k B : (0 < bk)%N -> is_lapack n p -> frame k n (applyP bk SRight t k 0 n p B) B.
Proof. exact: (@applyP_fr bk SRight). Qed.

Definition isl (s : side) : bool := if s is SLeft then true else false.

Lemma fgetrs_inplace_ok bk s M N A X P Q R B (Na := if s is SLeft then M else N) : (0 < bk)%N ->
  is_lapack Na P -> is_lapack Na Q ->
  factors NonUnit Na Na A X (sigma P 0 Na) (sigma Q 0 Na) R ->
  let: (Z, info) := fgetrs_inplace bk s M N R X P Q B in
  frame M N Z B /\ answers (isl s) Na Na (if s is SLeft then N else M) A Z B info.
Proof.
move=> bk0 lP lQ fac; have [_ [RN _] _ _ _] := fac.
case: s @Na lP lQ fac RN => /= lP lQ fac RN.
- have [m2 e] : exists m2, M = (R + m2)%N by exists (M - R)%N; lia.
  subst M; have := left_core_ok bk0 lP lQ fac N B; rewrite /left_core.
  set Z := ftrsm _ Upper _ _ _ _ _ _ _; set info := (~~ fiszero _ _ _) => -[h1 h2 h3 h4].
  have E : ~~ info -> mx (R + m2) (R + m2) A *m mx (R + m2) N (applyP bk SLeft Trans N 0 (R + m2) Q Z) = mx (R + m2) N B.
    move=> z; have -> := applyP_mx N Z bk0 (leqnn _) (is_lapack_lt lQ) SLeft Trans.
    by rewrite (col0 (h2 z)) h1.
  split; first exact: frame_trans (@applyP_frL _ _ _ _ _ _ bk0 lQ) h4.
  by split=> //; split=> // z; eexists; exact: E.
have [m2 e] : exists m2, N = (R + m2)%N by exists (N - R)%N; lia.
subst N; have := right_core_ok bk0 lP lQ fac M B; rewrite /right_core.
set Z := ftrsm _ Lower _ _ _ _ _ _ _; set info := (~~ fiszero _ _ _) => -[h1 h2 h3 h4].
have E : ~~ info -> mx M (R + m2) (applyP bk SRight NoTrans M 0 (R + m2) P Z) *m mx (R + m2) (R + m2) A = mx M (R + m2) B.
  move=> z; have -> := applyP_mx M Z bk0 (leqnn _) (is_lapack_lt lP) SRight NoTrans.
  by rewrite (row0 (h2 z)) h1.
split; first exact: frame_trans (@applyP_frR _ _ _ _ _ _ bk0 lP) h4.
by split=> //; split=> // z; eexists; exact: E.
Qed.

Lemma fgetrs_ok bk s M N k A X P Q R Z0 B junk : (0 < bk)%N ->
  is_lapack M P -> is_lapack N Q ->
  factors NonUnit M N A X (sigma P 0 M) (sigma Q 0 N) R ->
  let: (Z, info) := fgetrs bk s M N k R X P Q Z0 B junk in
  frame (if s is SLeft then N else k) (if s is SLeft then k else M) Z Z0 /\ answers (isl s) M N k A Z B info.
Proof.
move=> bk0 lP lQ fac; have [_ [RM RN] _ _ _] := fac.
have [m2 e] : exists m2, M = (R + m2)%N by exists (M - R)%N; lia.
have [n2 e'] : exists n2, N = (R + n2)%N by exists (N - R)%N; lia.
subst M N; clear RM RN; case: s => /=; case: ifP => cmp.
- have := left_core_ok bk0 lP lQ fac k (fassign (R + m2) k B junk); rewrite /left_core.
  set W := ftrsm _ Upper _ _ _ _ _ _ _; set info := (~~ fiszero _ _ _) => -[h1 h2 h3 _].
  rewrite (_ : mx _ _ (fassign _ _ _ _) = mx (R + m2) k B) in h1 h3; last first.
    by apply: eq_mx => i j ii jj; rewrite /fassign /fill ii jj.
  set Z := at_ R 0 _ _.
  have Zt : mx R k Z = mx R k W.
    by apply: eq_mx => i j ii jj; rewrite /Z /at_ ifF /fassign /fill ?ii ?jj //; lia.
  have Zb i j : (R <= i < R + n2)%N -> (j < k)%N -> Z i j = 0.
    move=> ii jj; rewrite /Z /at_ subn0 andbT; case/andP: (ii) => -> _.
    by rewrite fzeroE ifT //; lia.
  have E : ~~ info -> mx (R + m2) (R + n2) A *m mx (R + n2) k (applyP bk SLeft Trans k 0 (R + n2) Q Z) = mx (R + m2) k B.
    move=> z; have -> := applyP_mx k Z bk0 (leqnn _) (is_lapack_lt lQ) SLeft Trans.
    by rewrite (col0 Zb) Zt h1.
  split; last by split=> //; split=> // z; eexists; exact: E.
  apply: (frame_trans (@applyP_frL _ _ _ _ _ _ bk0 lQ)) => i j ij.
  rewrite /Z /at_ fzeroE subn0 /sub add0n; case: ifP => [/andP[Ri _]|].
    by rewrite subnKC // ifF ?/fassign /fill ?ifF //; lia.
  by move=> ci; rewrite /fassign /fill ifF //; lia.
- have := left_core_ok bk0 lP lQ fac k (fassign (R + m2) k B Z0); rewrite /left_core.
  set W := ftrsm _ Upper _ _ _ _ _ _ _; set info := (~~ fiszero _ _ _) => -[h1 h2 h3 h4].
  rewrite (_ : mx _ _ (fassign _ _ _ _) = mx (R + m2) k B) in h1 h3; last first.
    by apply: eq_mx => i j ii jj; rewrite /fassign /fill ii jj.
  set Z := at_ (R + m2) 0 _ _.
  have Zt : mx R k Z = mx R k W.
    by apply: eq_mx => i j ii jj; rewrite /Z /at_ ifF //; lia.
  have Zb : ~~ info -> forall i j, (R <= i < R + n2)%N -> (j < k)%N -> Z i j = 0.
    move=> z i j ii jj; rewrite /Z /at_ subn0 andbT fzeroE; case: (leqP (R + m2)%N i) => ci.
      by rewrite ifT //; lia.
    by apply: h2 => //; lia.
  have E : ~~ info -> mx (R + m2) (R + n2) A *m mx (R + n2) k (applyP bk SLeft Trans k 0 (R + n2) Q Z) = mx (R + m2) k B.
    move=> z; have -> := applyP_mx k Z bk0 (leqnn _) (is_lapack_lt lQ) SLeft Trans.
    by rewrite (col0 (Zb z)) Zt h1.
  split; last by split=> //; split=> // z; eexists; exact: E.
  apply: (frame_trans (@applyP_frL _ _ _ _ _ _ bk0 lQ)) => i j ij.
  have WZ : W i j = Z0 i j by rewrite h4 /fassign /fill ?ifF //; lia.
  rewrite /Z /at_ fzeroE subn0 /sub add0n; case: ifP => [/andP[Ri _]|] //.
  by rewrite subnKC // ifF //; lia.
- have := right_core_ok bk0 lP lQ fac k (fassign k (R + n2) B junk); rewrite /right_core.
  set W := ftrsm _ Lower _ _ _ _ _ _ _; set info := (~~ fiszero _ _ _) => -[h1 h2 h3 _].
  rewrite (_ : mx _ _ (fassign _ _ _ _) = mx k (R + n2) B) in h1 h3; last first.
    by apply: eq_mx => i j ii jj; rewrite /fassign /fill ii jj.
  set Z := at_ 0 R _ _.
  have Zt : mx k R Z = mx k R W.
    by apply: eq_mx => i j ii jj; rewrite /Z /at_ ifF /fassign /fill ?ii ?jj //; lia.
  have Zb i j : (i < k)%N -> (R <= j < R + m2)%N -> Z i j = 0.
    move=> ii jj; rewrite /Z /at_ subn0 /=; case/andP: (jj) => -> _.
    by rewrite fzeroE ifT //; lia.
  have E : ~~ info -> mx k (R + m2) (applyP bk SRight NoTrans k 0 (R + m2) P Z) *m mx (R + m2) (R + n2) A = mx k (R + n2) B.
    move=> z; have -> := applyP_mx k Z bk0 (leqnn _) (is_lapack_lt lP) SRight NoTrans.
    by rewrite (row0 Zb) Zt h1.
  split; last by split=> //; split=> // z; eexists; exact: E.
  apply: (frame_trans (@applyP_frR _ _ _ _ _ _ bk0 lP)) => i j ij.
  rewrite /Z /at_ fzeroE subn0 /sub add0n; case: ifP => [Ri|].
    by rewrite subnKC // ifF ?/fassign /fill ?ifF //; lia.
  by move=> ci; rewrite /fassign /fill ifF //; lia.
have := right_core_ok bk0 lP lQ fac k (fassign k (R + n2) B Z0); rewrite /right_core.
set W := ftrsm _ Lower _ _ _ _ _ _ _; set info := (~~ fiszero _ _ _) => -[h1 h2 h3 h4].
rewrite (_ : mx _ _ (fassign _ _ _ _) = mx k (R + n2) B) in h1 h3; last first.
  by apply: eq_mx => i j ii jj; rewrite /fassign /fill ii jj.
set Z := at_ 0 (R + n2) _ _.
have Zt : mx k R Z = mx k R W.
  by apply: eq_mx => i j ii jj; rewrite /Z /at_ ifF //; lia.
have Zb : ~~ info -> forall i j, (i < k)%N -> (R <= j < R + m2)%N -> Z i j = 0.
  move=> z i j ii jj; rewrite /Z /at_ subn0 /= fzeroE; case: (leqP (R + n2)%N j) => ci.
    by rewrite ifT //; lia.
  by apply: h2 => //; lia.
have E : ~~ info -> mx k (R + m2) (applyP bk SRight NoTrans k 0 (R + m2) P Z) *m mx (R + m2) (R + n2) A = mx k (R + n2) B.
  move=> z; have -> := applyP_mx k Z bk0 (leqnn _) (is_lapack_lt lP) SRight NoTrans.
  by rewrite (row0 (Zb z)) Zt h1.
split; last by split=> //; split=> // z; eexists; exact: E.
apply: (frame_trans (@applyP_frR _ _ _ _ _ _ bk0 lP)) => i j ij.
have WZ : W i j = Z0 i j by rewrite h4 /fassign /fill ?ifF //; lia.
rewrite /Z /at_ fzeroE subn0 /sub add0n; case: ifP => [Ri|] //.
by rewrite subnKC // ifF //; lia.
Qed.

End Api.
