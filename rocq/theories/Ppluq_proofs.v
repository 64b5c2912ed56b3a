(** * Parallel PLUQ: the factorisation *)
From mathcomp Require Import all_ssreflect all_algebra zify ring.
From Verif Require Import Grid Perm_model Perm_spec Perm_proofs Tri_model Tri_spec Tri_proofs.
From Verif Require Import Pluq_model Pluq_spec Pluq_idx Pluq_combine Pluq_crout Pluq_proofs Pluq_main Ppluq_model.
Set Implicit Arguments.
Unset Strict Implicit.
Unset Printing Implicit Defensive.
Import GRing.Theory.
Local Open Scope ring_scope.

Section Proofs.
Variable F : fieldType.
Implicit Types A X : grid F.

Lemma sid q x : sigma id 0 q x = x.
Proof. by rewrite /sigma subn0; elim: (iota 0 q) => //= a s ->; rewrite /transpose_ij; repeat case: eqP => //. Qed.

Lemma lapack_id q : is_lapack q id.
Proof. by move=> i iq; rewrite leqnn. Qed.

(** One exchange with position 0. *)
Lemma s0E q p x : (0 < q)%N -> sigma (upd1 id 0%N p) 0 q x = transpose_ij 0 p x.
Proof.
move=> q0; rewrite sigmaSl // /upd1 eqxx; congr (transpose_ij _ _ _).
rewrite /sigma; have : all (leq 1) (iota 1 (q - 1)) by apply/allP => i; rewrite mem_iota; lia.
elim: (iota _ _) => //= i s IH /andP[i0 /IH ->].
by rewrite gtn_eqF // /transpose_ij; repeat case: eqP => //.
Qed.

Lemma lapack_s0 q p : (p < q)%N -> is_lapack q (upd1 id 0%N p).
Proof. by move=> pq i iq; rewrite /upd1; case: eqP => [->|_] //=; rewrite leqnn. Qed.

Lemma scalW p q m n c X k l : at_ p q (fscalin m n c) X k l =
  if ((p <= k < p + m) && (q <= l < q + n))%N then c * X k l else X k l.
Proof.
rewrite /at_ fscalinE /sub; case E1 : ((p <= k) && (q <= l))%N; last by rewrite ifF //; lia.
case/andP: E1 => h1 h2; rewrite !subnKC //.
have -> : ((k - p < m) && (l - q < n))%N = ((k < p + m) && (l < q + n))%N by lia.
by rewrite h1 h2.
Qed.

Lemma find_spec (z : nat -> bool) N : let p := find z (iota 0 N) in
  (p <= N)%N /\ (forall j, (j < p)%N -> ~~ z j) /\ ((p < N)%N -> z p).
Proof.
move=> p; have pN : (p <= N)%N by have := find_size z (iota 0 N); rewrite size_iota.
split=> //; split=> [j jp|pN'].
  have /negbT := before_find 0%N jp; rewrite nth_iota ?add0n //; lia.
have : has z (iota 0 N) by rewrite has_find size_iota.
by move/(nth_find 0%N); rewrite nth_iota ?add0n.
Qed.

Lemma row_leaf_ok d N A : (0 < N)%N -> pluq_okg d false 1 N A (row_leaf d N A).
Proof.
move=> N0; rewrite /row_leaf; have := find_spec (fun j => A 0%N j != 0) N.
set p := find _ _ => -[pN [bef at']]; case: eqP => [pE|/eqP pE].
  split=> /=; [exact: lapack_id|exact: lapack_id|by []|].
  split=> //; try by apply: sigma_perm.
  - by move=> [|k] l // _ lN; apply/eqP/negPn/bef; rewrite pE; case/andP: lN.
  - move=> [|k] l // _ lN; rewrite !sid /=; apply/eqP/negPn/bef; by rewrite pE.
have pN' : (p < N)%N by rewrite ltn_neqAle pE.
have {at'} pz := at' pN'.
set A1 := if (0 < p)%N then upd (upd A 0%N 0%N (A 0%N p)) 0%N p 0 else A.
set Q := if (0 < p)%N then upd1 id 0%N p else id.
have -> : (if (0 < p)%N then (upd (upd A 0%N 0%N (A 0%N p)) 0%N p 0, upd1 id 0%N p) else (A, id)) = (A1, Q).
  by rewrite /A1 /Q; case: ifP.
have QE x : sigma Q 0 N x = transpose_ij 0 p x.
  rewrite /Q; case: (posnP p) => p0; first by rewrite sid /transpose_ij p0; case: eqP.
  by rewrite s0E.
have lQ : is_lapack N Q by rewrite /Q; case: ifP => _; [exact: lapack_s0|exact: lapack_id].
have e1 k l : A1 k l = if (k == 0%N) && (l == 0%N) then A 0%N p else if (k == 0%N) && (l == p) then 0 else A k l.
  rewrite /A1 /upd; case: (posnP p) => p0; last by case: k => [|k] //=; case: eqP => [->|_] //; rewrite gtn_eqF.
  by rewrite p0; case: k => [|k]; case: l => [|l].
set A2 := match d with Unit => _ | NonUnit => _ end.
have e2 k l : A2 k l = if (k == 0%N) && (p < l < N)%N && (if d is Unit then true else false) then (A 0%N p)^-1 * A k l else A1 k l.
  rewrite /A2; case: (d); last by rewrite andbF.
  rewrite scalW e1 eqxx /= andbT; have -> : ((0 <= k < 0 + 1) && (p.+1 <= l < p.+1 + (N - p - 1)))%N = (k == 0%N) && (p < l < N)%N by lia.
  by case: ifP => // h; rewrite e1 !ifF //; lia.
split=> //=; first exact: lapack_id.
  by move=> k l kl; rewrite e2 ifF ?e1 ?ifF //; lia.
split=> //.
- by apply: sigma_perm => i; have := lapack_id (q := 1); move=> h /h; lia.
- by apply: sigma_perm => i /lQ; lia.
- by case=> // _; rewrite e2 e1 /= ?ltn0 ?andbF /=.
- by move=> [|k].
- move=> [|k] // l _ lN; rewrite sid QE /= add0r /Lo /Up ltnn eqxx /transpose_ij !e2 !e1 /=.
  case: l lN => [|l] lN /=.
    by case: (d); rewrite ?mulr1 ?mul1r.
  case: (ltngtP p l.+1) => pl /=.
  + rewrite lN /=; by case: (d) => /=; rewrite ?mulrA ?divff ?mul1r.
  + have /negPn/eqP -> := bef _ pl.
    by case: (d); rewrite ?andbF /= ?mulr0.
  + have /negPn/eqP -> : ~~ (A 0%N 0%N != 0) by apply: bef; rewrite pl.
    by case: (d); rewrite /= ?mulr0.
Qed.

Lemma col_leaf_ok d M A : (0 < M)%N -> pluq_okg d false M 1 A (col_leaf d M A).
Proof.
move=> N0; rewrite /col_leaf; have := find_spec (fun j => A j 0%N != 0) M.
set p := find _ _ => -[pN [bef at']]; case: eqP => [pE|/eqP pE].
  split=> /=; [exact: lapack_id|exact: lapack_id|by []|].
  split=> //; try by apply: sigma_perm.
  - by move=> k [|l] // kM _; apply/eqP/negPn/bef; rewrite pE; case/andP: kM.
  - move=> k [|l] // lN _; rewrite !sid /=; apply/eqP/negPn/bef; by rewrite pE.
have pN' : (p < M)%N by rewrite ltn_neqAle pE.
have {at'} pz := at' pN'.
set A1 := if (0 < p)%N then upd (upd A 0%N 0%N (A p 0%N)) p 0%N 0 else A.
set Q := if (0 < p)%N then upd1 id 0%N p else id.
have -> : (if (0 < p)%N then (upd (upd A 0%N 0%N (A p 0%N)) p 0%N 0, upd1 id 0%N p) else (A, id)) = (A1, Q).
  by rewrite /A1 /Q; case: ifP.
have QE x : sigma Q 0 M x = transpose_ij 0 p x.
  rewrite /Q; case: (posnP p) => p0; first by rewrite sid /transpose_ij p0; case: eqP.
  by rewrite s0E.
have lQ : is_lapack M Q by rewrite /Q; case: ifP => _; [exact: lapack_s0|exact: lapack_id].
have e1 k l : A1 k l = if (l == 0%N) && (k == 0%N) then A p 0%N else if (l == 0%N) && (k == p) then 0 else A k l.
  rewrite /A1 /upd; case: (posnP p) => p0; last by case: l => [|l]; rewrite ?andbF ?andbT //=; case: (k =P p) => [->|_] //; rewrite gtn_eqF.
  by rewrite p0; case: k => [|k]; case: l => [|l].
set A2 := match d with Unit => _ | NonUnit => _ end.
have e2 k l : A2 k l = if (l == 0%N) && (p < k < M)%N && (if d is Unit then false else true) then (A p 0%N)^-1 * A k l else A1 k l.
  rewrite /A2; case: (d); first by rewrite andbF.
  rewrite scalW e1 eqxx /= andbT; have -> : ((p.+1 <= k < p.+1 + (M - p - 1)) && (0 <= l < 0 + 1))%N = (l == 0%N) && (p < k < M)%N by lia.
  by case: ifP => // h; rewrite e1 !ifF //; lia.
split=> //=; first exact: lapack_id.
  by move=> k l kl; rewrite e2 ifF ?e1 ?ifF //; lia.
split=> //.
- by apply: sigma_perm => i /lQ; lia.
- by apply: sigma_perm => i; have := lapack_id (q := 1); move=> h /h; lia.
- by case=> // _; rewrite e2 e1 /= ?ltn0 ?andbF /=.
- by move=> k [|l] //; rewrite ltnn.
- move=> l [|k] // lN _; rewrite sid QE /= add0r /Lo /Up ltnn eqxx /transpose_ij !e2 !e1 /=.
  case: l lN => [|l] lN /=.
    by case: (d); rewrite ?mulr1 ?mul1r.
  case: (ltngtP p l.+1) => pl /=.
  + rewrite lN /=; by case: (d) => /=; rewrite ?mulr1 // mulrC mulrA divff ?mul1r.
  + have /negPn/eqP -> := bef _ pl.
    by case: (d); rewrite ?andbF /= ?mul0r.
  + have /negPn/eqP -> : ~~ (A 0%N 0%N != 0) by apply: bef; rewrite pl.
    by case: (d); rewrite /= ?mul0r.
Qed.

(** Without H: the same matrix as in the sequential code outside the last
    quadrant. *)
Lemma pphA_phA d bk M N M2 N2 R1 P1 Q1 X1 k l :
  let X := pphA d bk M N M2 N2 R1 P1 Q1 X1 in
  phA d bk M N M2 N2 R1 P1 Q1 X1 k l =
  if ((M2 <= k < M2 + (M - M2)) && (N2 <= l < N2 + (N - N2)))%N
  then X k l - rsum R1 (fun t => X k t * X t l) else X k l.
Proof.
rewrite /phA /pphA /= !memoE; set X7 := at_ M2 R1 _ _.
rewrite gemmW; case: ifP => // h; congr (_ - _); apply: eq_rsum => t tR.
by rewrite !memoE /sub !subnKC //; lia.
Qed.

Section Main.
Variables (bk : nat) (d : diag) (thr : nat).
Hypothesis bk0 : (0 < bk)%N.

Lemma okg_weak o M N A r : pluq_okg d o M N A r -> pluq_okg d false M N A r.
Proof. by case=> h1 h2 h3 []; split. Qed.

Lemma ppluqS n M N A : ppluq n.+1 bk d thr M N A =
    if minn M N == 0%N then Pluq A id id 0%N
    else if maxn M N == 1%N then Pluq A id id (if A 0%N 0%N == 0 then 0%N else 1%N)
    else if M == 1%N then row_leaf d N A
    else if N == 1%N then col_leaf d M A
    else if (minn M N < thr)%N then crout d M N A id id
    else
    let M2 := M./2 in let N2 := N./2 in
    let M3 := (M - M2)%N in let N3 := (N - N2)%N in
    let: Pluq X1 P1 Q1 R1 := ppluq n bk d thr M2 N2 A in
    let X7 := pphA d bk M N M2 N2 R1 P1 Q1 X1 in
    let: Pluq F2 P2 Q2 R2 := ppluq n bk d thr (M2 - R1) N3 (sub R1 N2 X7) in
    let X8 := at_ R1 N2 (fun=> F2) X7 in
    let: Pluq G3 P3 Q3 R3 := ppluq n bk d thr M3 (N2 - R1) (sub M2 R1 X8) in
    let X9 := at_ M2 R1 (fun=> G3) X8 in
    let X10 := pphH M N M2 N2 R1 X9 in
    pluq_end (ppluq n bk d thr) bk d M N M2 N2 P1 Q1 R1 P2 Q2 R2 P3 Q3 R3 X10.
Proof. by []. Qed.

Lemma ppluq_rec_ok n M N A : (M + N < n)%N -> pluq_okg d false M N A (ppluq n bk d thr M N A).
Proof.
elim: n M N A => // n IH M N A; rewrite ltnS => fuel; rewrite ppluqS; cbv zeta.
case: eqP => mn0.
  split=> //=; try exact: lapack_id.
  by split=> //; try lia; apply: sigma_perm => i /lapack_id; lia.
case: eqP => mx1.
  have M1 : M = 1%N by lia.
  have N1 : N = 1%N by lia.
  subst M N; split=> //=; try exact: lapack_id.
  case: (eqVneq (A 0%N 0%N) 0) => a0; split=> //; try by apply: sigma_perm => i; have := lapack_id (q := 1); move=> h /h; lia.
  - by move=> [|k] [|l].
  - by move=> [|k] [|l] //; rewrite !sid.
  - by case.
  - by move=> k l; lia.
  - move=> [|k] [|l] // _ _; rewrite !sid /= /Lo /Up /= add0r; case: (d); rewrite ?mulr1 ?mul1r //.
case: eqP => [M1|M1]; first by subst M; apply: row_leaf_ok; lia.
case: eqP => [N1|N1]; first by subst N; apply: col_leaf_ok; lia.
case: ltnP => thrN; first by apply: (@okg_weak true); exact: crout_ok.
set M2 := M./2; set N2 := N./2.
have M2M : (M2 <= M)%N by rewrite /M2; lia.
have N2N : (N2 <= N)%N by rewrite /N2; lia.
have f1 : (M2 + N2 < n)%N by rewrite /M2 /N2; lia.
have f2 R : (M2 - R + (N - N2) < n)%N by rewrite /M2 /N2; lia.
have f3 R : (M - M2 + (N2 - R) < n)%N by rewrite /M2 /N2; lia.
have f4 R R' : (M - M2 - R + (N - N2 - R') < n)%N by rewrite /M2 /N2; lia.
clearbody M2 N2.
have := IH _ _ A f1; case: (ppluq n bk d thr M2 N2 A) => X1 P1 Q1 R1 [/= lP1 lQ1 fr1 h1].
have [[frA qA] [hD hE] hF hG hH] := phaseA bk0 M2M N2N lP1 lQ1 fr1 h1.
have h78 := pphA_phA d bk M N M2 N2 R1 P1 Q1 X1.
set X8 := phA _ _ _ _ _ _ _ _ _ _ in frA qA hD hE hF hG hH h78 *.
set X7 := pphA _ _ _ _ _ _ _ _ _ _ in h78 *.
have R1M := f_RM h1; have R1N := f_RN h1.
have := IH _ _ (sub R1 N2 X7) (f2 R1).
case: (ppluq n bk d thr (M2 - R1) (N - N2) _) => x2 P2 Q2 R2 [/= lP2 lQ2 fr2 h2].
set X9 := at_ R1 N2 _ X7.
have := IH _ _ (sub M2 R1 X9) (f3 R1).
case: (ppluq n bk d thr (M - M2) (N2 - R1) _) => x3 P3 Q3 R3 [/= lP3 lQ3 fr3 h3].
set X9' := at_ M2 R1 _ X9.
have e9 k l : X9 k l = if ((R1 <= k < M2) && (N2 <= l < N))%N then x2 (k - R1)%N (l - N2)%N else X7 k l.
  by rewrite /X9 (atK _ _ fr2) !subnKC.
have e9' k l : X9' k l = if ((M2 <= k < M) && (R1 <= l < N2))%N then x3 (k - M2)%N (l - R1)%N else X9 k l.
  by rewrite /X9' (atK _ _ fr3) !subnKC.
have R2M := f_RM h2; have R2N := f_RN h2; have R3M := f_RM h3; have R3N := f_RN h3.
apply: (@pluq_end_ok F bk d bk0 false _ M N M2 N2 A X1 P1 Q1 R1 X8 (sub R1 N2 X7) x2 P2 Q2 R2 (sub M2 R1 X9) x3 P3 Q3 R3) => //.
- move=> k l kM lN; rewrite /sub.
  have := hF _ _ kM lN; rewrite h78 ifF //; lia.
- move=> k l kM lN; rewrite /sub e9 ifF; last by lia.
  have := hG _ _ kM lN; rewrite h78 ifF //; lia.
- move=> k l; rewrite /pphH memoE gemmW h78; case: ifP => c.
    rewrite ifF; last by lia.
    rewrite ifF; last by lia.
    rewrite e9' ifF; last by lia.
    rewrite e9 ifF; last by lia.
    congr (_ - _); apply: eq_rsum => t tR; rewrite /sub !subnKC //; try lia.
    rewrite !add0n e9' ifF; last by lia.
    rewrite e9 ifF; last by lia.
    rewrite e9' ifF; last by lia.
    by rewrite e9 ifF //; lia.
  by rewrite e9' e9.
- by move=> X; apply: IH; exact: f4.
Qed.

Theorem pPLUQ_ok M N A : pluq_okg d false M N A (pPLUQ bk d thr M N A).
Proof. by rewrite /pPLUQ; apply: ppluq_rec_ok. Qed.

End Main.
End Proofs.
