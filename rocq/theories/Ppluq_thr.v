(** * Parallel PLUQ: a wrong rank profile for every threshold from 4 *)
From mathcomp Require Import all_ssreflect all_algebra zify ring.
From Verif Require Import Grid Perm_model Perm_spec Perm_proofs Tri_model Tri_spec Tri_proofs.
From Verif Require Import Pluq_model Pluq_spec Pluq_idx Pluq_combine Pluq_crout Pluq_proofs Pluq_main Pluq_rank Pluq_api_proofs Bruhat_combine Api_model Api_spec Prof_proofs Ppluq_model Ppluq_proofs.
Set Implicit Arguments.
Unset Strict Implicit.
Unset Printing Implicit Defensive.
Import GRing.Theory.
Local Open Scope ring_scope.

Section Thr.
Variable F : fieldType.
Implicit Types A X : grid F.
Variables (bk : nat) (d : diag).
Hypothesis bk0 : (0 < bk)%N.

Lemma tri_zero_L R X (D : nat -> F) : (forall t, (t < R)%N -> X t t != 0) ->
  (forall t, (t < R)%N -> rsum R (fun s => Lo d X t s * D s) = 0) -> forall t, (t < R)%N -> D t = 0.
Proof.
move=> piv h; elim/ltn_ind => t IH tR; have := h t tR; rewrite rsumE (bigD1 (Ordinal tR)) //= big1 => [|s /eqP ne].
  rewrite addr0 /Lo ltnn eqxx => /eqP; rewrite mulf_eq0 => /orP[|/eqP] //.
  by case: (d); rewrite ?oner_eq0 // (negbTE (piv _ tR)).
have {}ne : nat_of_ord s <> t by move=> e; apply: ne; apply: val_inj.
rewrite /Lo; case: ltngtP => st; [by rewrite IH ?mulr0 //| by rewrite mul0r | by rewrite st in ne].
Qed.

Lemma tri_zero_U R X (E : nat -> F) : (forall t, (t < R)%N -> X t t != 0) ->
  (forall t, (t < R)%N -> rsum R (fun s => E s * Up d X s t) = 0) -> forall t, (t < R)%N -> E t = 0.
Proof.
move=> piv h; elim/ltn_ind => t IH tR; have := h t tR; rewrite rsumE (bigD1 (Ordinal tR)) //= big1 => [|s /eqP ne].
  rewrite addr0 /Up ltnn eqxx => /eqP; rewrite mulf_eq0 => /orP[/eqP|] //.
  by case: (d); rewrite ?oner_eq0 // (negbTE (piv _ tR)).
have {}ne : nat_of_ord s <> t by move=> e; apply: ne; apply: val_inj.
rewrite /Up; case: ltngtP => st; [by rewrite IH ?mul0r //| by rewrite mulr0 | by rewrite st in ne].
Qed.

(** The column permutation of a block step. *)
Lemma pluq_end_Q o rec M N M2 N2 A X1 P1 Q1 R1 (F0 x2 : grid F) P2 Q2 R2 (G0 x3 : grid F) P3 Q3 R3 X10 : (M2 <= M)%N -> (N2 <= N)%N ->
  let M3 := (M - M2)%N in let N3 := (N - N2)%N in
  pluq_okg d o M2 N2 A (Pluq X1 P1 Q1 R1) ->
  is_lapack (M2 - R1) P2 -> is_lapack N3 Q2 ->
  facg o d (M2 - R1) N3 F0 x2 (sigma P2 0 (M2 - R1)) (sigma Q2 0 N3) R2 ->
  is_lapack M3 P3 -> is_lapack (N2 - R1) Q3 ->
  facg o d M3 (N2 - R1) G0 x3 (sigma P3 0 M3) (sigma Q3 0 (N2 - R1)) R3 ->
  let W := sub (M2 + R3) (N2 + R2) (phD d M N M2 N2 R1 R2 R3 (phC bk M N M2 N2 R1 P2 Q2 P3 Q3 X10)) in
  let: Pluq x4 P4 Q4 R4 := rec (M3 - R3)%N (N3 - R2)%N W in
  pluq_okg d o (M3 - R3) (N3 - R2) W (Pluq x4 P4 Q4 R4) ->
  let r := pluq_end rec bk d M N M2 N2 P1 Q1 R1 P2 Q2 R2 P3 Q3 R3 X10 in
  resR r = (R1 + R2 + R3 + R4)%N /\ forall x, (x < N)%N -> sigma (resQ r) 0 N x =
    gam N2 (sigma Q1 0 N2) (sigma Q2 0 N3) (sigma Q3 0 (N2 - R1)) (sigma Q4 0 (N3 - R2)) R1 R2 (Tx N2 R1 R2 R3 R4 x).
Proof.
move=> M2M N2N M3 N3 ok1 lP2 lQ2 h2 lP3 lQ3 h3 W.
have [lP1 lQ1 _ h1] := ok1; rewrite /= in lP1 lQ1 h1.
rewrite /pluq_end; cbv zeta; rewrite -/M3 -/N3 -/W.
case: (rec _ _ W) => x4 P4 Q4 R4 [/= lP4 lQ4 fr4 h4].
have R1M := f_RM h1; have R1N := f_RN h1; have R2M := f_RM h2; have R2N := f_RN h2.
have R3M := f_RM h3; have R3N := f_RN h3; have R4M := f_RM h4; have R4N := f_RN h4.
set XX := phE _ _ _ _ _ _ _ _ _ _ _.
set X25 := if (R1 + R2 < M2)%N then doApplyS N M2 R1 R2 R3 R4 XX else XX.
set mP3 := if (R1 + R2 < M2)%N then PermApplyS (mperm M M2 R1 R3 P1 P2 P3 P4) M2 R1 R2 R3 R4 else mperm M M2 R1 R3 P1 P2 P3 P4.
have -> : (if (R1 + R2 < M2)%N then
   (doApplyS N M2 R1 R2 R3 R4 XX, PermApplyS (mperm M M2 R1 R3 P1 P2 P3 P4) M2 R1 R2 R3 R4)
   else (XX, mperm M M2 R1 R3 P1 P2 P3 P4)) = (X25, mP3) by rewrite /X25 /mP3; case: ifP.
set X26 := if (R1 < N2)%N then doApplyT M N2 R1 R2 R3 R4 X25 else X25.
set mQ3 := if (R1 < N2)%N then PermApplyT (mperm N N2 R1 R2 Q1 Q3 Q2 Q4) N2 R1 R2 R3 R4 else mperm N N2 R1 R2 Q1 Q3 Q2 Q4.
have -> : (if (R1 < N2)%N then
   (doApplyT M N2 R1 R2 R3 R4 X25, PermApplyT (mperm N N2 R1 R2 Q1 Q3 Q2 Q4) N2 R1 R2 R3 R4)
   else (X25, mperm N N2 R1 R2 Q1 Q3 Q2 Q4)) = (X26, mQ3) by rewrite /X26 /mQ3; case: ifP.
split=> //= x xN.
have a1 : (R1 + R2 <= M2)%N by lia.
have b1 : (R1 + R3 <= N2)%N by lia.
have a2 : (M2 + R3 + R4 <= M)%N by rewrite /M3 in R3M R4M; lia.
have b2 : (N2 + R2 + R4 <= N)%N by rewrite /N3 in R2N R4N; lia.
have Tlt k : (k < N)%N -> (Tx N2 R1 R2 R3 R4 k < N)%N by move=> kM; exact: (Tx_lt a1 a2 b1 b2).
have mQE k : (k < N)%N -> mQ3 k = gam N2 (sigma Q1 0 N2) (sigma Q2 0 N3) (sigma Q3 0 (N2 - R1)) (sigma Q4 0 (N3 - R2)) R1 R2 (Tx N2 R1 R2 R3 R4 k).
  move=> kM; have -> : mQ3 k = mperm N N2 R1 R2 Q1 Q3 Q2 Q4 (Tx N2 R1 R2 R3 R4 k).
    rewrite /mQ3; case: ltnP => c; first by rewrite PermApplyTE.
    rewrite /Tx (_ : (N2 - R1 = 0)%N); last by lia.
    by rewrite (_ : (0 - R3 = 0)%N) ?(exch0 bk0) //; lia.
  by rewrite (mpermE bk0) //; exact: Tlt.
have pQ : is_perm N (memo1 N mQ3).
  apply: (@perm_ext _ (fun k => gam N2 (sigma Q1 0 N2) (sigma Q2 0 N3) (sigma Q3 0 (N2 - R1)) (sigma Q4 0 (N3 - R2)) R1 R2 (Tx N2 R1 R2 R3 R4 k))); last first.
    apply: perm_comp; first exact: (gam_perm M2M N2N h1 h2 h3 h4).
    by rewrite /Tx; apply: perm_comp; apply: exch_perm; lia.
  by move=> k kN; rewrite memo1E mQE.
have [q1 [q2 _]] := math2lapackE id pQ.
by rewrite -mQE // -(memo1E N mQ3 x) -q2 //; apply: sigma_ext => k _; exact: memo1E.
Qed.

Lemma pp_crout n thr M N A : (0 < n)%N -> (1 < M)%N -> (1 < N)%N -> (minn M N < thr)%N ->
  ppluq n bk d thr M N A = crout d M N A id id.
Proof.
case: n => // n _ M1 N1 h; rewrite ppluqS ifF; last by lia.
rewrite ifF; last by lia.
rewrite ifF; last by lia.
by rewrite ifF ?h //; lia.
Qed.
Lemma pp_row n thr N A : (0 < n)%N -> (1 < N)%N -> ppluq n bk d thr 1 N A = row_leaf d N A.
Proof.
case: n => // n _ N1; rewrite ppluqS ifF; last by lia.
by rewrite ifF //; lia.
Qed.
Lemma pp_col n thr M A : (0 < n)%N -> (1 < M)%N -> ppluq n bk d thr M 1 A = col_leaf d M A.
Proof.
case: n => // n _ M1; rewrite ppluqS ifF; last by lia.
rewrite ifF; last by lia.
by rewrite ifF //; lia.
Qed.

(** Identity of size p, then row p with its only entry in column p+3, and row
    p+1 with its entries in columns p+1 and p+2; 2p+2 rows and columns. *)
Definition Wt (p : nat) : grid F := fun i j =>
  if (i < p)%N then (j == i)%:R else if i == p then (j == p.+3)%:R
  else if i == p.+1 then ((j == p.+1) || (j == p.+2))%:R else 0.

Lemma rank_pid m n r (B : grid F) : (r <= m)%N -> (r <= n)%N ->
  (forall i j, (i < m)%N -> (j < n)%N -> B i j = ((i == j) && (i < r)%N)%:R) -> \rank (mx m n B) = r.
Proof.
move=> rm rn h; rewrite -[RHS](@rank_pid_mx F m n r rm rn); congr (\rank _).
by apply/matrixP => i j; rewrite !mxE h.
Qed.

Lemma Wt_rank1 p : \rank (mx p.+1 p.+1 (Wt p)) = p.
Proof.
apply: rank_pid => // i j im jm; rewrite /Wt eq_sym; case: (ltnP i p) => ip; first by rewrite andbT.
by rewrite ifT ?andbF //; [congr (_%:R); lia | lia].
Qed.
Lemma Wt_rank2 p : \rank (mx p p.+1 (Wt p)) = p.
Proof. by apply: rank_pid => // i j im jm; rewrite /Wt im andbT eq_sym. Qed.

Lemma Wt_rank3 p : (p.+1 <= \rank (mx (p.+1 + p.+1) p.+2 (Wt p)))%N.
Proof.
pose f i := if (i < p)%N then i else p.+1.
have e : \rank (mx p.+1 p.+1 (fun i j => Wt p (f i) (f j))) = p.+1.
  apply: rank_pid => // i j im jm; rewrite im andbT /Wt /f.
  case: (ltnP i p) => ip.
    by rewrite ip; case: (ltnP j p) => jp; [rewrite eq_sym | congr (_%:R); lia].
  rewrite ltnNge leqnSn /= eqxx ifF; last by lia.
  by case: (ltnP j p) => jp; congr (_%:R); lia.
have fr i : (i < p.+1)%N -> (f i < p.+1 + p.+1)%N by rewrite /f; case: ifP => *; lia.
have fc i : (i < p.+1)%N -> (f i < p.+2)%N by rewrite /f; case: ifP => *; lia.
rewrite -{1}e -(mx_sel (Wt p) fr fc).
by apply: leq_trans (mxrankM_maxl _ _) _; exact: mxrankM_maxr.
Qed.

Lemma row_leaf_two N (B : grid F) : (2 < N)%N -> (forall l, (l < N)%N -> B 0%N l = (l == 2%N)%:R) ->
  let r := row_leaf d N B in [/\ resR r = 1%N, resP r = id & resQ r = upd1 id 0%N 2%N].
Proof.
move=> N2 h; rewrite /row_leaf; have := find_spec (fun j => B 0%N j != 0) N.
set q := find _ _ => -[qN [bef at']].
have e : q = 2%N.
  case: (ltngtP q 2%N) => // c; last by have := bef _ c; rewrite h // eqxx oner_eq0.
  by have := at' (ltn_trans c N2); rewrite h ?ltn_eqF // ?eqxx //; lia.
rewrite e ifF //; lia.
Qed.

Lemma col_leaf_zero M (B : grid F) : (0 < M)%N -> (forall k, (k < M)%N -> B k 0%N = 0) ->
  col_leaf d M B = Pluq B id id 0%N.
Proof.
move=> M0 h; rewrite /col_leaf; have := find_spec (fun j => B j 0%N != 0) M.
set q := find _ _ => -[qN [bef at']]; rewrite ifT //; case: (ltnP q M) => c; last by lia.
by have := at' c; rewrite h // eqxx.
Qed.

Lemma Tx_p p : Tx p.+1 p 1 0 1 p = p.+1.
Proof. by rewrite /Tx {2}/exch; repeat case: ifP => ?; rewrite /exch; repeat case: ifP; lia. Qed.
Lemma Tx_p1 p : Tx p.+1 p 1 0 1 p.+1 = p.+2.
Proof. by rewrite /Tx {2}/exch; repeat case: ifP => ?; rewrite /exch; repeat case: ifP; lia. Qed.

Lemma Wt_Q n p : (1 < p)%N -> (0 < n)%N ->
  let m := p.+1 in let r := ppluq n.+1 bk d p.+2 (m + m) (m + m) (Wt p) in
  let s := sigma (resP r) 0 (m + m) in let u := sigma (resQ r) 0 (m + m) in
  resR r = p.+2 /\ (forall t, (t < p)%N -> (u t < m)%N) /\ u p = (m + 2)%N /\ u p.+1 = (m + 1)%N.
Proof.
move=> p1 n0 m; rewrite ppluqS ifF; last by rewrite /m; lia.
rewrite ifF; last by rewrite /m; lia.
rewrite ifF; last by rewrite /m; lia.
rewrite ifF; last by rewrite /m; lia.
rewrite ifF; last by rewrite /m; lia.
cbv zeta; rewrite addnn doubleK -addnn addnK.
rewrite pp_crout //; try by rewrite /m; lia.
have mm : (m <= m + m)%N by lia.
have rk := crout_rank d m m (Wt p) id id.
have lr := @crout_lead_rank F d m m (Wt p) id id p m (leqnSn _) (leqnn _).
have := crout_ok d m m (Wt p) id id; case: (crout _ _ _ _ _ _) rk lr => X1 P1 Q1 R1 /=.
rewrite Wt_rank1 => ->; rewrite Wt_rank2 => {R1} cnt ok1; case: (ok1) => /= lP1 lQ1 fr1 h1.
have s1lt t : (t < p)%N -> (sigma P1 0 m t < p)%N.
  move=> tp; move: cnt; rewrite /npiv => /esym cnt.
  have /allP/(_ t) : all (fun t => (sigma P1 0 m t < p) && (sigma Q1 0 m t < m))%N (iota 0 p).
    by rewrite all_count cnt size_iota.
  by rewrite mem_iota add0n => /(_ tp) /andP[].
have s1p : sigma P1 0 m p = p.
  have [t [tm e]] := is_perm_surj (f_s h1) (ltnSn p).
  case: (ltnP t p) => tp; first by have := s1lt _ tp; lia.
  have tE : t = p by rewrite /m in tm; lia.
  by rewrite tE in e.
have [[frA qA] [hD hE] hF hG hH] := phaseA bk0 mm mm lP1 lQ1 fr1 h1.
have h78 := pphA_phA d bk (m + m) (m + m) m m p P1 Q1 X1.
set X8 := phA _ _ _ _ _ _ _ _ _ _ in frA qA hD hE hF hG hH h78 *.
set X7 := pphA _ _ _ _ _ _ _ _ _ _ in h78 *.
rewrite !addnK in hD hE hF hG hH h78.
have sp : (m - p = 1)%N by rewrite /m; lia.
rewrite sp in hF hG *.
have Dz t l : (t < p)%N -> (l < m)%N -> X8 t (m + l)%N = 0.
  move=> tp lm; apply: (@tri_zero_L p X1 (fun t => X8 t (m + l)%N) (f_piv h1)) => // k kp; rewrite hD //.
  move: (s1lt _ kp); move: (sigma P1 0 m k) => x xp; rewrite /Wt xp (_ : (_ == _) = false) //; rewrite /m; lia.
have Ez k t : (k < m)%N -> (t < p)%N -> X8 (m + k)%N t = 0.
  move=> km tp; apply: (@tri_zero_U p X1 (fun t => X8 (m + k)%N t) (f_piv h1)) => // j jp; rewrite hE //.
  have uj : (sigma Q1 0 m j < m)%N by apply: (f_u h1).1; rewrite /m; lia.
  move: (sigma Q1 0 m j) uj => x uj; rewrite /Wt ifF; last by rewrite /m; lia.
  rewrite ifF; last by rewrite /m; lia.
  case: ifP => // _; rewrite (_ : (_ || _) = false) //; rewrite /m in uj; lia.
have r0 n' (G : nat -> F) : (forall t, (t < n')%N -> G t = 0) -> rsum n' G = 0.
  by move=> z; rewrite rsumE big1 // => t _; exact: z.
have Fz l : (l < m)%N -> sub p m X7 0%N l = (l == 2%N)%:R.
  move=> lm; have := hF 0%N l isT lm; rewrite h78 ifF; last by rewrite /m; lia.
  rewrite /sub => ->; rewrite r0 => [|t tp]; last by rewrite Dz ?mulr0.
  rewrite subr0 addn0 s1p /Wt ltnn eqxx; congr (_%:R); rewrite /m; lia.
have Gz k : (k < m)%N -> X7 (m + k)%N p = 0.
  move=> km; have := hG k 0%N km isT; rewrite h78 ifF; last by rewrite /m; lia.
  rewrite addn0 => ->; rewrite r0 => [|t tp]; last by rewrite Ez ?mul0r.
  have uj : (sigma Q1 0 m p < m)%N by apply: (f_u h1).1; rewrite /m; lia.
  move: (sigma Q1 0 m p) uj => x uj; rewrite subr0 /Wt ifF; last by rewrite /m; lia.
  rewrite ifF; last by rewrite /m; lia.
  case: ifP => // _; rewrite (_ : (_ || _) = false) //; rewrite /m in uj; lia.
have m1 : (1 < m)%N by rewrite /m; lia.
have m2 : (2 < m)%N by rewrite /m; lia.
rewrite pp_row //; have := row_leaf_two m2 Fz; have := row_leaf_ok d (sub p m X7) (ltnW m1).
case: (row_leaf _ _ _) => x2 P2 Q2 R2 /= ok2 [eR2 eP2 eQ2]; subst R2 P2 Q2.
case: ok2 => /= lP2 lQ2 fr2 h2.
set X9 := at_ p m _ X7.
have e9 k l : X9 k l = if ((p <= k < m) && (m <= l < m + m))%N then x2 (k - p)%N (l - m)%N else X7 k l.
  by rewrite /X9 (atK _ _ fr2) (_ : (p + 1 = m)%N) // /m addn1.
have Gz' k : (k < m)%N -> sub m p X9 k 0%N = 0.
  move=> km; rewrite /sub addn0 e9 ifF; last by lia.
  exact: Gz.
have ok3 := col_leaf_ok d (sub m p X9) (ltnW m1).
rewrite pp_col //; rewrite !(col_leaf_zero (ltnW m1) Gz') in ok3 *.
case: ok3 => /= lP3 lQ3 fr3 h3.
have e9' k l : at_ m p (fun=> sub m p X9) X9 k l = X9 k l.
  rewrite /at_ /sub; case: ifP => // c; congr X9; lia.
set X10 := pphH _ _ _ _ _ _.
have e10 k l : X10 k l = if ((p <= k < m) && (m <= l < m + m))%N then x2 (k - p)%N (l - m)%N else X8 k l.
  rewrite /X10 /pphH memoE gemmW !addnK h78; case: ifP => c.
    rewrite ifF; last by lia.
    rewrite e9' e9 ifF; last by lia.
    congr (_ - _); apply: eq_rsum => t tR; rewrite /sub !subnKC //; try lia.
    rewrite !add0n !e9' !e9 ifF; last by lia.
    by rewrite ifF //; lia.
  by rewrite e9' e9.
have X8A k l : (k < m)%N -> (l < m)%N -> X8 (m + k)%N (m + l)%N = Wt p (m + k)%N (m + l)%N.
  by move=> km lm; rewrite hH // r0 ?subr0 // => t tp; rewrite Ez ?mul0r.
have u2E x : sigma (upd1 id 0%N 2%N) 0 m x = transpose_ij 0 2 x by apply: s0E; rewrite /m.
have x2z l : (0 < l < m)%N -> x2 0%N l = 0.
  move=> /andP[l0 lm]; have := f_law h2 (k := 0%N) (l := l) isT lm.
  have tm : (transpose_ij 0 2 l < m)%N by rewrite /transpose_ij; repeat case: ifP => ?; lia.
  rewrite u2E sid Fz //= add0r (_ : (_ == _) = false); last by rewrite /transpose_ij; repeat case: ifP; lia.
  move/esym/eqP; rewrite mulf_eq0 /Up l0 => /orP[|/eqP //].
  by rewrite /Lo ltnn eqxx; case: (d); rewrite ?oner_eq0 // (negbTE (f_piv h2 (t := 0%N) isT)).
have pm : (p <= m)%N by rewrite /m.
have := phaseC bk0 (X10 := X10) mm mm pm pm; rewrite !addnK sp => /(_ _ _ _ _ lP2 lQ2 lP3 lQ3) [].
  move=> k l kM lN; rewrite e10 ifF; last by lia.
  have km : (k < m)%N by lia.
  have lm : (l < m)%N by lia.
  by rewrite qA // (f_zero h1).
set X16 := phC _ _ _ _ _ _ _ _ _ _ _ => _ c2 _ c4 _.
have x2E l : (l < m)%N -> sub p m X16 0%N l = x2 0%N l.
  move=> lm; rewrite /sub addn0 c2 ?ltnn; [|by rewrite /m; lia|by []].
  by rewrite e10 ifT; [congr x2; lia | lia].
have := @phaseD F d bk bk0 (m + m)%N (m + m)%N m m p 1%N 0%N X16 mm mm.
rewrite !addnK; case; try by rewrite /m; lia.
  by move=> [|t] // _; rewrite x2E ?(f_piv h2) //; lia.
set X21 := phD _ _ _ _ _ _ _ _ _ => _ _ _ d4.
pose W := sub (m + 0)%N (m + 1)%N X21.
have WE k l : (k < m)%N -> (l < p)%N -> W k l = (k == 0%N)%:R * ((l == 0%N) || (l == 1%N))%:R.
  move=> km lp; have lm : (1 + l < m)%N by rewrite /m; lia.
  rewrite /W {1}/sub d4 ?subn0 ?sp //; last by rewrite /m; lia.
  rewrite /= add0r !subr0 x2E // x2z; last by lia.
  rewrite mulr0 subr0 {1}/sub c4 // sid u2E e10 ifF; last by lia.
  have tm : (transpose_ij 0 2 (1 + l) < m)%N by rewrite /transpose_ij; repeat case: ifP => ?; lia.
  rewrite X8A // /Wt ifF; last by rewrite /m; lia.
  rewrite ifF; last by rewrite /m; lia.
  rewrite add0n; case: (posnP k) => [->|k0]; last by rewrite ifF ?mul0r //; rewrite /m; lia.
  rewrite addn0 ifT; last by rewrite /m.
  rewrite mul1r; congr (_%:R); rewrite /m /transpose_ij; repeat case: ifP; lia.
have W1 : \rank (mx m 1 W) = 1%N.
  apply: rank_pid => // k [|l] // km _; rewrite WE //=.
  by rewrite mulr1; congr (_%:R); lia.
have Wle : (\rank (mx m p W) <= 1)%N.
  have -> : mx m p W = mx m 1 (fun k _ => (k == 0%N)%:R) *m mx 1 p (fun _ l => ((l == 0%N) || (l == 1%N))%:R).
    by rewrite mxM; apply: eq_mx => k l km lp; rewrite /= add0r WE.
  by apply: leq_trans (mxrankM_maxr _ _) _; exact: rank_leq_row.
have := @pluq_end_Q false (ppluq n bk d p.+2) (m + m)%N (m + m)%N m m (Wt p) X1 P1 Q1 p (sub p m X7) x2 id (upd1 id 0%N 2%N) 1%N (sub m p X9) (sub m p X9) id id 0%N X10 mm mm.
have ok1' : pluq_okg d false m m (Wt p) (Pluq X1 P1 Q1 p) by apply: (okg_weak (o := true)); exact: ok1.
rewrite !addnK sp => /(_ ok1' lP2 lQ2 h2 lP3 lQ3 h3).
rewrite -/X16 -/X21 -/W subn0 (_ : (m - 1 = p)%N); last by rewrite /m; lia.
cbv zeta; rewrite pp_crout //; last by rewrite /m; lia.
have rk4 := crout_rank d m p W id id.
have lr4 := @crout_lead_rank F d m p W id id m 1 (leqnn _) (ltnW p1).
have := crout_ok d m p W id id; case: (crout _ _ _ _ _ _) rk4 lr4 => x4 P4 Q4 R4 /= rk4.
have okw : pluq_okg d true m p W (Pluq x4 P4 Q4 R4) -> pluq_okg d false m p W (Pluq x4 P4 Q4 R4) by apply: okg_weak.
rewrite W1 => lr4 ok4 /(_ (okw ok4)) [rR rQ].
have R4E : R4 = 1%N.
  by case: R4 rk4 lr4 {okw ok4 rR rQ} => [|[|R4]] //= e; lia.
rewrite R4E in lr4 rQ rR; rewrite rR; split; first by lia.
have u40 : sigma Q4 0 p 0 = 0%N by move: lr4; rewrite /npiv /=; case: (sigma Q4 0 p 0) => //= k; rewrite andbF.
have T1 : Tx m p 1 0 1 p = m by exact: Tx_p.
have T2 : Tx m p 1 0 1 p.+1 = m.+1 by exact: Tx_p1.
split=> [t tp|].
  rewrite rQ; last by lia.
  rewrite /Tx {2}/exch ifT; last by lia.
  rewrite /exch tp /gam ifT; last by rewrite /m; lia.
  by rewrite /dsum tp; apply: (f_u h1).1; rewrite /m; lia.
split; rewrite rQ ?T1 ?T2; try by rewrite /m; lia.
  by rewrite /gam ltnn subnn u2E.
by rewrite /gam ifF ?subSnn ?u2E /dsum /= ?u40 //; lia.
Qed.

(** Every field, every threshold from 4 (256 is the default of the parallel
    version), every block size of applyP. *)
Lemma pPLUQ_profile_wrong thr : (3 < thr)%N -> exists M N (A : grid F) i j,
  [/\ (i <= M)%N, (j <= N)%N &
   let r := pPLUQ bk d thr M N A in
   \rank (mx i j A) <> npiv (sigma (resP r) 0 M) (sigma (resQ r) 0 N) (resR r) i j].
Proof.
case: thr => [|[|p]] // p1; have p2 : (1 < p)%N by lia.
exists (p.+1 + p.+1)%N, (p.+1 + p.+1)%N, (Wt p), (p.+1 + p.+1)%N, p.+2; split=> //; first by lia.
rewrite /pPLUQ; have [rR [_ [h1 h2]]] := @Wt_Q (p.+1 + p.+1 + (p.+1 + p.+1))%N p p2 isT.
cbv zeta; set r := ppluq _ _ _ _ _ _ _ in rR h1 h2 *; rewrite rR => e.
have := Wt_rank3 p; rewrite {}e /npiv -[in iota 0 p.+2]addn2 iotaD count_cat /= add0n h1 h2 !(ltnNge _ p.+2).
have := count_size (fun t => (sigma (resP r) 0 (p.+1 + p.+1) t < p.+1 + p.+1) && (sigma (resQ r) 0 (p.+1 + p.+1) t < p.+2))%N (iota 0 p).
rewrite size_iota => c1.
have -> : (p.+2 <= p.+1 + 2)%N by lia.
have -> : (p.+2 <= p.+1 + 1)%N by lia.
by rewrite !andbF /=; lia.
Qed.

Lemma Wt_new p : new_col (p.+1 + p.+1) (Wt p) p.+1.
Proof.
rewrite /new_col /new_row; apply/negP => /submxP[D].
have pp : (p.+1 < p.+1 + p.+1)%N by lia.
move/matrixP/(_ 0 (Ordinal pp)); rewrite !mxE /= /tr big1 => [|t _].
  by rewrite /Wt ltnNge leqnSn /= eqxx ifF /=; [move/eqP; rewrite oner_eq0 | lia].
rewrite mxE /Wt /= ltnNge leqnSn /= ifF; last by lia.
by rewrite eqxx (_ : (_ || _) = false) ?mulr0 //; have := ltn_ord t; lia.
Qed.

End Thr.

Section User.
Variables (F : fieldType) (bk : nat).
Hypothesis bk0 : (0 < bk)%N.

Lemma pCol_wrong thr : (3 < thr)%N -> exists M N (A : grid F),
  (pColumnRankProfile_tile bk thr M N A).1 <> col_profile M N A.
Proof.
case: thr => [|[|p]] // p1; have p2 : (1 < p)%N by lia.
exists (p.+1 + p.+1)%N, (p.+1 + p.+1)%N, (Wt F p).
have : p.+1 \in col_profile (p.+1 + p.+1) (p.+1 + p.+1) (Wt F p).
  by rewrite mem_filter mem_iota (Wt_new F bk0) /=; lia.
rewrite /pColumnRankProfile_tile => mc e; move: mc; rewrite -{}e /pPLUQ.
have := @Wt_Q F bk NonUnit bk0 (p.+1 + p.+1 + (p.+1 + p.+1))%N p p2 isT.
have := @ppluq_rec_ok F bk NonUnit p.+2 bk0 _ _ _ (Wt F p) (ltnSn (p.+1 + p.+1 + (p.+1 + p.+1))).
cbv zeta; set r := ppluq _ _ _ _ _ _ _; case: r => X P Q R [/= _ lQ _ h] [rR [h0 [h1 h2]]].
rewrite RankProfileE ?(f_RN h) // mem_sort => /mapP[t]; rewrite mem_iota rR => tR e.
case: (ltnP t p) => tp; first by have := h0 _ tp; lia.
have : t = p \/ t = p.+1 by lia.
by case=> tE; move: e; rewrite tE ?h1 ?h2; lia.
Qed.
End User.
