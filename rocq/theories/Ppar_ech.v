(** * The parallel tile echelon forms: transformation and shape *)
From mathcomp Require Import all_ssreflect all_algebra zify.
From Verif Require Import Grid Perm_model Perm_spec Perm_proofs Tri_model Tri_spec Tri_proofs.
From Verif Require Import Pluq_model Pluq_spec Pluq_proofs Pluq_rank Pluq_api_proofs Api_model Api_proofs.
From Verif Require Import Ludiv_model Ludiv_spec Ludiv_proofs Ludiv_rank Ludiv_sub Ech_model Ech_spec Ech_proofs Ech_steps Ech_acc Ech_acc2 Ech_main Ech_thm.
From Verif Require Import Gj_base Ppluq_model Ppluq_ex Ppar_model Ppar_spec.
Set Implicit Arguments.
Unset Strict Implicit.
Unset Printing Implicit Defensive.
Import GRing.Theory.
Local Open Scope ring_scope.

Section Reach.
Variable F : fieldType.
Implicit Types A B X Y T E V Z : grid F.

(** A with its columns in the order of the elimination. *)
Definition relab A (u : nat -> nat) : grid F := fun k l => A k (u l).

Lemma reach_core M N A X E s u w R tau T E' :
  elim M N (relab A u) X E s w R -> (forall x, w x = x) -> is_perm N u ->
  is_perm M tau -> (forall i, (i < R)%N -> (tau i < R)%N) -> (forall i, (R <= i)%N -> tau i = i) ->
  (forall t t', (t < t' < R)%N -> (u (tau t) < u (tau t'))%N) ->
  (forall i j, (i < M)%N -> (j < M)%N -> T i (s j) = Tm R X (tau i) j) ->
  (forall i l, (i < M)%N -> (l < N)%N -> E' i (u l) = if (i < R)%N then E (tau i) l else 0) ->
  [/\ mx M M T \in unitmx, mx M M T *m mx M N A = mx M N E' &
      staircase M N R (fun t => u (tau t)) E'].
Proof.
move=> he ew pu pt tR tge inc hT hE; have := elim_unit he; case: he => -[ps _] [RM RN] law _ ord Tu.
have onto l : (l < N)%N -> exists2 l', (l' < N)%N & u l' = l.
  by have [v [[vN _] uv vu]] := perm_inv pu => lN; exists (v l); [exact: vN | exact: uv].
have TA i l : (i < M)%N -> (l < N)%N -> rsum M (fun j => T i j * A j l) = E' i l.
  move=> iM lN; have [l' l'N <-] := onto l lN; rewrite hE //.
  rewrite -(rsum_perm (fun j => T i j * A j (u l')) ps).
  rewrite (eq_rsum (g := fun j => Tm R X (tau i) j * relab A u (s j) (w l'))) => [|j jM]; last by rewrite hT // /relab ew.
  rewrite law //; last exact: (proj1 pt).
  by case: (ltnP i R) => iR; [rewrite tR | rewrite tge // ltnNge iR].
split.
- have [sv [[svM _] ssv svs]] := perm_inv ps; have [tv [[tvM tvi] ttv tvt]] := perm_inv pt.
  have -> : mx M M T = mx M M (fun i j => (j == tau i)%:R) *m mx M M (Tm R X) *m mx M M (fun i j => (i == sv j)%:R).
    rewrite !mxM; apply: eq_mx => i j iM jM.
    rewrite -{1}(ssv j jM) hT //; last exact: svM.
    rewrite (eq_rsum (g := fun k => (k == sv j)%:R * Tm R X (tau i) k)) => [|k kM].
      by rewrite rsum_sel //; exact: svM.
    rewrite mulrC; congr (_ * _); rewrite rsum_sel //; exact: (proj1 pt).
  rewrite !unitmx_mul Tu andbT /=; apply/andP; split.
    apply: (@mulmx1_unit _ _ _ (mx M M (fun i j => (i == tau j)%:R)) _).1.
    rewrite mxM; apply/matrixP => i j; rewrite !mxE.
    rewrite (eq_rsum (g := fun k => (k == tau i)%:R * (k == tau j)%:R)) //.
    rewrite rsum_sel; last exact: (proj1 pt).
    suff -> : (tau i == tau j) = (i == j) by [].
    by apply/eqP/eqP => [h|->] //; apply: val_inj; exact: (proj2 pt) h.
  apply: (@mulmx1_unit _ _ _ (mx M M (fun i j => (j == sv i)%:R)) _).1.
  rewrite mxM; apply/matrixP => i j; rewrite !mxE.
  rewrite (eq_rsum (g := fun k => (k == s i)%:R * (j == sv k :> nat)%:R)) => [|k kM].
    rewrite rsum_sel; last exact: (proj1 ps).
    by rewrite svs // eq_sym.
  suff -> : (i == sv k :> nat) = (k == s i) by [].
  by apply/eqP/eqP => [->|->]; rewrite ?ssv ?svs.
- by rewrite mxM; apply: eq_mx => i l iM lN; rewrite TA.
split=> //.
- by move=> t tR'; apply: (proj1 pu); have := tR t tR'; lia.
- move=> t tR'; have ht := tR t tR'; have h := ord (tau t) (tau t) ht.
  by rewrite hE ?tR'; [apply: (h _).1; lia | lia | lia].
move=> i j /andP[iR iM] jN; have [l lN <-] := onto j jN; rewrite hE // ifF //; lia.
Qed.

Variables (bk thr tthr bc : nat).
Hypotheses (bk0 : (0 < bk)%N) (tthr0 : (0 < tthr)%N).

(** State after the parallel factorisation: that of C27 on the relabelled matrix. *)
Definition pstage m n A X (P Q : nat -> nat) R : Prop :=
  [/\ stage Tile m n (relab A (sigma Q 0 n)) X P id R, bnd Tile m R P, bnd Tile n R Q & \rank (mx m n A) = R].

Lemma pstage_of m n A X P Q R : (forall k, (k < m)%N -> (P k < m)%N) -> (forall k, (k < n)%N -> (Q k < n)%N) ->
  (R <= m)%N -> (R <= n)%N -> (forall t, (t < R)%N -> X t t != 0) -> \rank (mx m n A) = R ->
  (forall k l, (k < m)%N -> (l < n)%N -> A (sigma P 0 m k) (sigma Q 0 n l) = rsum R (fun t => Lo Unit X k t * Up Unit X t l)) ->
  pstage m n A X P Q R.
Proof.
move=> bP bQ Rm Rn dg rk law; have e x : sigma id 0 n x = x by apply: sigma_id.
have pu : is_perm n (sigma Q 0 n) by exact: sigma_perm.
have ps : is_perm m (sigma P 0 m) by exact: sigma_perm.
split=> //; split=> //.
- rewrite /perm_of /Zof; split=> //.
  + by split=> //; split=> [i|i j _ _]; rewrite ?e.
  + by move=> k l km ln; rewrite /relab e law.
  by move=> k l kR ln; rewrite !e /Up; case: ltngtP; rewrite ?eqxx.
have [v [pv uv vu]] := perm_inv pu.
rewrite -rk; apply/eqP; rewrite eqn_leq.
have h B (w : nat -> nat) : is_perm n w -> (\rank (mx m n (relab B w)) <= \rank (mx m n B))%N.
  move=> pw; have -> : mx m n (relab B w) = mx m n B *m mx n n (fun i j => (i == w j)%:R).
    rewrite mxM; apply: eq_mx => i j im jn.
    rewrite (eq_rsum (g := fun k => (k == w j)%:R * B i k)) => [|k kn]; last by rewrite mulrC.
    by rewrite rsum_sel //; apply: (proj1 pw).
  exact: mxrankM_maxl.
rewrite h //=; have -> : mx m n A = mx m n (relab (relab A (sigma Q 0 n)) v).
  by apply: eq_mx => i j im jn; rewrite /relab uv.
exact: h.
Qed.

Lemma prow_stage M N A : let: Pluq X P Q R := pPLUQ bk Unit thr M N A in pstage M N A X P Q R.
Proof.
have := pPLUQ_factors' Unit thr M N A bk0; case: pPLUQ => X P Q R [lP lQ _ fa _].
have rk := factors_rank fa; case: fa => _ [RM RN] dg _ law; apply: pstage_of => //.
- by move=> k /lP; lia.
- by move=> k /lQ; lia.
by move=> k l kM lN; rewrite law // rsumE.
Qed.

Lemma pcol_stage M N A : let: Pluq X Q P R := pPLUQ bk NonUnit thr M N A in pstage N M (tr A) (tr X) P Q R.
Proof.
have := pPLUQ_factors' NonUnit thr M N A bk0; case: pPLUQ => X P Q R [lP lQ _ fa _].
have rk := factors_rank fa; case: fa => _ [RM RN] dg _ law; apply: pstage_of => //.
- by move=> k /lQ; lia.
- by move=> k /lP; lia.
- by rewrite -mxrank_tr tr_mx.
move=> k l kM lN; rewrite {1}/tr law // -(rsumE _ (fun t => Lo NonUnit X l t * Up NonUnit X t k)).
apply: eq_rsum => t tR; rewrite mulrC; congr (_ * _).
by rewrite /Lo /Up /tr; case: ltngtP => // ->.
Qed.

Lemma reach_row m n A X Y P Q R E T E' : pstage m n A X P Q R ->
  elim m n (relab A (sigma Q 0 n)) Y E (perm_of Tile m R P) (perm_of Tile n R id) R ->
  (forall i j, (i < m)%N -> (j < m)%N -> T i (perm_of Tile m R P j) = Tm R Y (tau Tile n R Q i) j) ->
  (forall i l, (i < m)%N -> (l < n)%N -> E' i (perm_of Tile n R Q l) = if (i < R)%N then E (tau Tile n R Q i) l else 0) ->
  [/\ \rank (mx m n A) = R, staircase m n R (fun t => sigma Q 0 n (epi n R Q t)) E',
      mx m m T \in unitmx & mx m m T *m mx m n A = mx m n E'].
Proof.
move=> [st bP bQ rk] el hT hE; have [_ [Rm Rn] _ _ _] := el.
have [t1 t2 _ t4] := epi_ok Rn bQ; have t0 := epi_perm Rn bQ Rm.
have [h1 h2 h3] := reach_core el (fun x => sigma_id x (fun i _ => erefl)) (sigma_perm bQ) t0 t1 t2 t4 hT hE.
by split.
Qed.

Lemma reach_rrow m n A X Y P Q R X5 T E' : pstage m n A X P Q R ->
  elim m n (relab A (sigma Q 0 n)) Y (Er R X5) (perm_of Tile m R P) (perm_of Tile n R id) R ->
  (forall i j, (i < m)%N -> (j < m)%N -> T i (perm_of Tile m R P j) = Tm R Y (tau Tile n R Q i) j) ->
  (forall i l, (i < m)%N -> (l < n)%N -> E' i (perm_of Tile n R Q l) = if (i < R)%N then Er R X5 (tau Tile n R Q i) l else 0) ->
  rrow_reached m n A R E' T.
Proof.
move=> ps el hT hE; have [h1 h2 h3 h4] := reach_row ps el hT hE; split=> //.
eexists; first exact: h2.
case: ps => st bP bQ rk; have [_ [Rm Rn] _ _ _] := el.
have [t1 t2 _ t4] := epi_ok Rn bQ; have t0 := epi_perm Rn bQ Rm.
move=> s t sR tR; have tt := t1 t tR; rewrite hE ?sR; [|lia|lia].
rewrite /Er tt; suff -> : (tau Tile n R Q s == epi n R Q t) = (s == t) by [].
by apply/eqP/eqP => [|->] //; apply: (proj2 t0); lia.
Qed.

Lemma psome_T m n A X P Q R Y : pstage m n A X P Q R ->
  exists T, forall i j, (i < m)%N -> (j < m)%N -> T i (perm_of Tile m R P j) = Tm R Y (tau Tile n R Q i) j.
Proof.
case=> -[[[ps _] _ _ _ _] _ _ _ _] _ _ _; have [v [_ _ vp]] := perm_inv ps.
by exists (fun i j => Tm R Y (tau Tile n R Q i) (v j)) => i j im jm; rewrite vp.
Qed.

Lemma tl : st_tag Tile. Proof. by right. Qed.

Section Row.
Variables (M N : nat) (A : grid F) (P0 Q0 : nat -> nat).

Lemma prow_ok T0 E0 : let: Pluq X P Q R := pRowEchelonForm bk thr tthr Tile true M N A P0 Q0 in
  row_reached M N A R (getEchelonForm bk Upper Unit M N R Q X E0 false Tile)
    (getEchelonTransform bk Upper Unit M N R P Q X T0 Tile).
Proof.
rewrite /pRowEchelonForm; have := prow_stage M N A; case: pPLUQ => X P Q R ps.
have [st bP bQ rk] := ps; have [hl _ _ _ _] := st; have [_ [RM RN] dg _ _] := hl.
have tro : trow_ok M N R X (trow tthr M R X) by apply: trow_lo.
have [||h1 h2 h3 h4] := reach_row (T := getEchelonTransform bk Upper Unit M N R P Q (trow tthr M R X) T0 Tile)
  (E' := getEchelonForm bk Upper Unit M N R Q (trow tthr M R X) E0 false Tile) ps (stage_elim st tro).
- by move=> i j iM jM; rewrite trsU //; exact: tl.
- by move=> i l iM lN; apply: readU => //; exact: tl.
by split=> //; eexists; exact: h2.
Qed.

Lemma prow_nt_ok E0 : let: Pluq X P Q R := pRowEchelonForm bk thr tthr Tile false M N A P0 Q0 in
  exists T, row_reached M N A R (getEchelonForm bk Upper Unit M N R Q X E0 false Tile) T.
Proof.
rewrite /pRowEchelonForm; have := prow_stage M N A; case: pPLUQ => X P Q R ps.
have [st bP bQ rk] := ps; have [hl _ _ _ _] := st; have [_ [RM RN] dg _ _] := hl.
have [Y el] := stage_none st; have [T hT] := psome_T Y ps; exists T.
have [|h1 h2 h3 h4] := reach_row (E' := getEchelonForm bk Upper Unit M N R Q X E0 false Tile) ps el hT.
  by move=> i l iM lN; apply: readU => //; exact: tl.
by split=> //; eexists; exact: h2.
Qed.

Lemma predrow_ok T0 E0 : let: Pluq X P Q R := pReducedRowEchelonForm bk thr tthr bc Tile true M N A P0 Q0 in
  rrow_reached M N A R (getReducedEchelonForm bk Upper M N R Q X E0 false Tile)
    (getReducedEchelonTransform bk Upper M N R P Q X T0 Tile).
Proof.
rewrite /pReducedRowEchelonForm /pRowEchelonForm; have := prow_stage M N A; case: pPLUQ => X P Q R ps.
have [st bP bQ rk] := ps; have [hl _ _ _ _] := st; have [_ [RM RN] dg _ _] := hl.
have tro : trow_ok M N R X (trow tthr M R X) by apply: trow_lo.
cbv beta iota zeta; set Y := memo M N _; have eY k l : (k < M)%N -> (l < N)%N -> Y k l = Zof Tile R id (trow tthr M R X) k l.
  by move=> kM lN; rewrite /Y memoE.
apply: (reach_rrow ps (stage_red st tro eY (rrow_ok tthr0 Y RN))) => i j iM jM.
  by rewrite (rtrsU bk0 (tag := Tile)).
by rewrite (redU bk0 (tag := Tile)).
Qed.

Lemma predrow_nt_ok E0 : let: Pluq X P Q R := pReducedRowEchelonForm bk thr tthr bc Tile false M N A P0 Q0 in
  exists T, rrow_reached M N A R (getReducedEchelonForm bk Upper M N R Q X E0 false Tile) T.
Proof.
rewrite /pReducedRowEchelonForm /pRowEchelonForm; have := prow_stage M N A; case: pPLUQ => X P Q R ps.
have [st bP bQ rk] := ps; have [hl _ _ _ _] := st; have [_ [RM RN] dg _ _] := hl.
cbv beta iota zeta; set Y := memo M N _; have eY k l : (k < M)%N -> (l < N)%N -> Y k l = Zof Tile R id X k l.
  by move=> kM lN; rewrite /Y memoE.
have [Y' el] := stage_none_red st eY (srow_ok tthr0 Y RN); have [T hT] := psome_T Y' ps; exists T.
by apply: (reach_rrow ps el) => // i j iM jM; rewrite (redU bk0 (tag := Tile)).
Qed.

Lemma tr_reached m n R E T B : row_reached n m (tr B) R (tr E) (tr T) -> col_reached m n B R E T.
Proof.
case=> h1 h2 h3 h4; split=> //.
- by rewrite -h1 -mxrank_tr tr_mx.
- by rewrite -unitmx_tr tr_mx.
by apply: trmx_inj; rewrite trmx_mul !tr_mx.
Qed.
Lemma tr_rreached m n R E T B : rrow_reached n m (tr B) R (tr E) (tr T) -> rcol_reached m n B R E T.
Proof.
case=> h1 h2 h3 h4; split=> //.
- by rewrite -h1 -mxrank_tr tr_mx.
- by rewrite -unitmx_tr tr_mx.
by apply: trmx_inj; rewrite trmx_mul !tr_mx.
Qed.

Lemma pcol_ok T0 E0 : let: Pluq X P Q R := pColumnEchelonForm bk thr tthr Tile true M N A P0 Q0 in
  col_reached M N A R (getEchelonForm bk Lower Unit M N R Q X E0 false Tile)
    (getEchelonTransform bk Lower Unit M N R P Q X T0 Tile).
Proof.
rewrite /pColumnEchelonForm; have := pcol_stage M N A; case: pPLUQ => X Q P R ps.
have [st bP bQ rk] := ps; have [hl _ _ _ _] := st; have [_ [RN RM] dg _ _] := hl.
have tro : trow_ok N M R (tr X) (tr (tcol tthr N R X)) by apply: tcol_lo.
have [||h1 h2 h3 h4] := reach_row (T := tr (getEchelonTransform bk Lower Unit M N R P Q (tcol tthr N R X) T0 Tile))
  (E' := tr (getEchelonForm bk Lower Unit M N R Q (tcol tthr N R X) E0 false Tile)) ps (stage_elim st tro).
- by move=> i j iM jM; rewrite {1}/tr trsL //; exact: tl.
- by move=> i l iM lN; rewrite {1}/tr; apply: readL => //; exact: tl.
by apply: tr_reached; split=> //; eexists; exact: h2.
Qed.

Lemma pcol_nt_ok E0 : let: Pluq X P Q R := pColumnEchelonForm bk thr tthr Tile false M N A P0 Q0 in
  exists T, col_reached M N A R (getEchelonForm bk Lower Unit M N R Q X E0 false Tile) T.
Proof.
rewrite /pColumnEchelonForm; have := pcol_stage M N A; case: pPLUQ => X Q P R ps.
have [st bP bQ rk] := ps; have [hl _ _ _ _] := st; have [_ [RN RM] dg _ _] := hl.
have [Y el] := stage_none st; have [T hT] := psome_T Y ps; exists (tr T).
have [|h1 h2 h3 h4] := reach_row (E' := tr (getEchelonForm bk Lower Unit M N R Q X E0 false Tile)) ps el hT.
  by move=> i l iM lN; rewrite {1}/tr; apply: readL => //; exact: tl.
by apply: tr_reached; split=> //; eexists; exact: h2.
Qed.

Lemma predcol_ok T0 E0 : let: Pluq X P Q R := pReducedColumnEchelonForm bk thr tthr Tile true M N A P0 Q0 in
  rcol_reached M N A R (getReducedEchelonForm bk Lower M N R Q X E0 false Tile)
    (getReducedEchelonTransform bk Lower M N R P Q X T0 Tile).
Proof.
rewrite /pReducedColumnEchelonForm /pColumnEchelonForm; have := pcol_stage M N A; case: pPLUQ => X Q P R ps.
have [st bP bQ rk] := ps; have [hl _ _ _ _] := st; have [_ [RN RM] dg _ _] := hl.
have tro : trow_ok N M R (tr X) (tr (tcol tthr N R X)) by apply: tcol_lo.
cbv beta iota zeta; set Y := memo M N _; have eY k l : (k < N)%N -> (l < M)%N -> tr Y k l = Zof Tile R id (tr (tcol tthr N R X)) k l.
  by move=> kN lM; rewrite /Y /tr memoE.
apply/tr_rreached/(reach_rrow ps (stage_red st tro eY (rcol_ok tthr0 Y RM))) => i j iM jM.
  by rewrite {1}/tr (rtrsL bk0 (tag := Tile)) //; exact: tl.
by rewrite {1}/tr (redL bk0 (tag := Tile)) //; exact: tl.
Qed.

Lemma predcol_nt_ok E0 : let: Pluq X P Q R := pReducedColumnEchelonForm bk thr tthr Tile false M N A P0 Q0 in
  exists T, rcol_reached M N A R (getReducedEchelonForm bk Lower M N R Q X E0 false Tile) T.
Proof.
rewrite /pReducedColumnEchelonForm /pColumnEchelonForm; have := pcol_stage M N A; case: pPLUQ => X Q P R ps.
have [st bP bQ rk] := ps; have [hl _ _ _ _] := st; have [_ [RN RM] dg _ _] := hl.
cbv beta iota zeta; set Y := memo M N _; have eY k l : (k < N)%N -> (l < M)%N -> tr Y k l = Zof Tile R id (tr X) k l.
  by move=> kN lM; rewrite /Y /tr memoE.
have [Y' el] := stage_none_red st eY (scol_ok tthr0 Y RM); have [T hT] := psome_T Y' ps; exists (tr T).
apply/tr_rreached/(reach_rrow ps el) => // i j iM jM.
by rewrite {1}/tr (redL bk0 (tag := Tile)) //; exact: tl.
Qed.

End Row.
End Reach.
