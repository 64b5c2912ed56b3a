(** * PLUQ: the recursive algorithm *)
From mathcomp Require Import all_ssreflect all_algebra zify ring.
From Verif Require Import Grid Perm_model Perm_spec Perm_proofs Tri_model Tri_spec Tri_proofs.
From Verif Require Import Pluq_model Pluq_spec Pluq_idx Pluq_combine Pluq_crout.
Set Implicit Arguments.
Unset Strict Implicit.
Unset Printing Implicit Defensive.
Import GRing.Theory.
Local Open Scope ring_scope.

Section Rec.
Variable F : fieldType.
Implicit Types A X : grid F.
Variable d : diag.

Lemma lapack_ge n P k : is_lapack n P -> (n <= k)%N -> sigma P 0 n k = k.
Proof. by move=> lP kM; apply: (@sigma_ge _ n) => // i iM; have := lP i; lia. Qed.
Lemma lapack_lt n P k : is_lapack n P -> (k < n)%N -> (sigma P 0 n k < n)%N.
Proof. by move=> lP kM; apply: (@sigma_lt _ n) => // i iM; have := lP i; lia. Qed.

Lemma rsum_exch m n (f : nat -> nat -> F) : rsum m (fun i => rsum n (f i)) = rsum n (fun j => rsum m (fun i => f i j)).
Proof.
rewrite !rsumE (eq_bigr (fun i : 'I_m => \sum_(j < n) f i j)); last by move=> i _; rewrite rsumE.
by rewrite exchange_big; apply: eq_bigr => j _; rewrite rsumE.
Qed.

Lemma gemmW p q m n r A B X k l : at_ p q (fgemm NoTrans NoTrans m n r (-1) A B 1) X k l =
  if ((p <= k < p + m) && (q <= l < q + n))%N then X k l - rsum r (fun t => A (k - p)%N t * B t (l - q)%N)
  else X k l.
Proof.
rewrite /at_ fgemmE; case E1 : ((p <= k) && (q <= l))%N; last by rewrite ifF //; lia.
case/andP: E1 => h1 h2; rewrite /sub h1 h2 /= (subnKC h1) (subnKC h2).
have -> : ((k - p < m) && (l - q < n))%N = ((k < p + m) && (l < q + n))%N by lia.
by case: ifP => //; rewrite mulN1r mul1r addrC.
Qed.

Lemma atW p q m n f X k l : frame m n (f (sub p q X)) (sub p q X) ->
  ~~ ((p <= k < p + m) && (q <= l < q + n))%N -> at_ p q f X k l = X k l.
Proof.
move=> h kl; rewrite /at_; case E1 : ((p <= k) && (q <= l))%N => //.
case/andP: E1 => h1 h2; rewrite h; last by lia.
by rewrite /sub !subnKC.
Qed.

Lemma atK p q m n Y X k l : frame m n Y (sub p q X) ->
  at_ p q (fun=> Y) X k l = if ((p <= k < p + m) && (q <= l < q + n))%N then Y (k - p)%N (l - q)%N else X k l.
Proof.
move=> h; case: ifP => kl; last by apply: (@atW p q m n) => //; rewrite kl.
by rewrite /at_ ifT //; lia.
Qed.

Lemma tri_Lo X R : (forall t, (t < R)%N -> X t t != 0) -> inv_diag (odiag d) R X.
Proof. by move=> h _; exact: h. Qed.

Lemma trsmL m n A B : (forall t, (t < m)%N -> A t t != 0) ->
  let X := ftrsm SLeft Lower NoTrans (odiag d) m n 1 A B in
  frame m n X B /\ forall i j, (i < m)%N -> (j < n)%N -> rsum m (fun k => Lo d A i k * X k j) = B i j.
Proof.
move=> h X; have [h1] := @ftrsm_mx F SLeft Lower NoTrans (odiag d) m n 1 A B (tri_Lo h).
rewrite scale1r /= /trimx mxM => h2; split=> // i j im jn.
rewrite -(mx_eq h2 im jn); apply: eq_rsum => k km; congr (_ * _).
by rewrite /Lo /tri /odiag; case: (ltngtP k i) => //; case: (d).
Qed.

Lemma trsmR m n A B : (forall t, (t < n)%N -> A t t != 0) ->
  let X := ftrsm SRight Upper NoTrans d m n 1 A B in
  frame m n X B /\ forall i j, (i < m)%N -> (j < n)%N -> rsum n (fun k => X i k * Up d A k j) = B i j.
Proof.
move=> h X; have [h1] := @ftrsm_mx F SRight Upper NoTrans d m n 1 A B (fun=> h).
rewrite scale1r /= /trimx mxM => h2; split=> // i j im jn.
rewrite -(mx_eq h2 im jn); apply: eq_rsum => k km; congr (_ * _).
by rewrite /Up /tri; case: (ltngtP k j).
Qed.

Variable bk : nat.
Hypothesis bk0 : (0 < bk)%N.

(** ** Entry formulas of the shifted operations *)
Lemma applyL p q m n P X k l : at_ p q (applyP bk SLeft NoTrans n 0 m P) X k l =
  if ((p <= k) && (q <= l < q + n))%N then X (p + sigma P 0 m (k - p))%N l else X k l.
Proof.
rewrite /at_; case E1 : ((p <= k) && (q <= l))%N; last by rewrite ifF //; lia.
case/andP: E1 => h1 h2; rewrite applyPE //= /sub h1 h2 /= (subnKC h1) (subnKC h2).
by have -> : (l - q < n)%N = (l < q + n)%N by lia.
Qed.

Lemma applyR p q m n P X k l : at_ p q (applyP bk SRight Trans m 0 n P) X k l =
  if ((p <= k < p + m) && (q <= l))%N then X k (q + sigma P 0 n (l - q))%N else X k l.
Proof.
rewrite /at_; case E1 : ((p <= k) && (q <= l))%N; last by rewrite ifF //; lia.
case/andP: E1 => h1 h2; rewrite applyPE //= /sub h1 h2 /= (subnKC h1) (subnKC h2) andbT.
by have -> : (k - p < m)%N = (k < p + m)%N by lia.
Qed.


(** ** First phase: D, E, F, G, H *)
Lemma phaseA o M N M2 N2 A x1 P1 Q1 R1 : (M2 <= M)%N -> (N2 <= N)%N ->
  is_lapack M2 P1 -> is_lapack N2 Q1 -> frame M2 N2 x1 A ->
  facg o d M2 N2 A x1 (sigma P1 0 M2) (sigma Q1 0 N2) R1 ->
  let X := phA d bk M N M2 N2 R1 P1 Q1 x1 in let M3 := (M - M2)%N in let N3 := (N - N2)%N in
  let s1 := sigma P1 0 M2 in let u1 := sigma Q1 0 N2 in
  let D k l := X k (N2 + l)%N in let E k l := X (M2 + k)%N l in
  [/\ frame M N X A /\ (forall k l, (k < M2)%N -> (l < N2)%N -> X k l = x1 k l),
      (forall t l, (t < R1)%N -> (l < N3)%N -> rsum R1 (fun s => Lo d x1 t s * D s l) = A (s1 t) (N2 + l)%N) /\
      (forall k t, (k < M3)%N -> (t < R1)%N -> rsum R1 (fun s => E k s * Up d x1 s t) = A (M2 + k)%N (u1 t)),
      forall k l, (k < M2 - R1)%N -> (l < N3)%N ->
        X (R1 + k)%N (N2 + l)%N = A (s1 (R1 + k)%N) (N2 + l)%N - rsum R1 (fun t => x1 (R1 + k)%N t * D t l),
      forall k l, (k < M3)%N -> (l < N2 - R1)%N ->
        X (M2 + k)%N (R1 + l)%N = A (M2 + k)%N (u1 (R1 + l)%N) - rsum R1 (fun t => E k t * x1 t (R1 + l)%N) &
      forall k l, (k < M3)%N -> (l < N3)%N ->
        X (M2 + k)%N (N2 + l)%N = A (M2 + k)%N (N2 + l)%N - rsum R1 (fun t => E k t * D t l)].
Proof.
move=> M2M N2N lP lQ fr h1 X M3 N3 s1 u1 D E.
have R1M := f_RM h1; have R1N := f_RN h1.
have s1lt k : (k < M2)%N -> (s1 k < M2)%N by apply: (f_s h1).1.
have u1lt k : (k < N2)%N -> (u1 k < N2)%N by apply: (f_u h1).1.
have s1ge k : (M2 <= k)%N -> s1 k = k.
  by move=> kM; apply: (@sigma_ge _ M2) => // i iM; have := lP i; lia.
have u1ge k : (N2 <= k)%N -> u1 k = k.
  by move=> kM; apply: (@sigma_ge _ N2) => // i iM; have := lQ i; lia.
rewrite /E /D /X /phA -/M3 -/N3 {X D E}.
set X2 := at_ 0 N2 _ x1; set X3 := memo M N (at_ M2 0 _ X2).
have X2E k l : X2 k l = if (N2 <= l < N)%N then x1 (s1 k) l else x1 k l.
  by rewrite /X2 applyL subn0 add0n /N3 subnKC.
have X3E k l : X3 k l = if (M2 <= k < M)%N then X2 k (u1 l) else X2 k l.
  by rewrite /X3 memoE applyR subn0 add0n /M3 subnKC //= andbT.
have q1 k l : (k < M2)%N -> (l < N2)%N -> X3 k l = x1 k l.
  by move=> kM lN; rewrite X3E ifF ?X2E ?ifF //; lia.
have q2 k l : (k < M2)%N -> (N2 <= l < N)%N -> X3 k l = A (s1 k) l.
  by move=> kM lN; rewrite X3E ifF ?X2E ?lN ?fr //; [have := s1lt _ kM|]; lia.
have q3 k l : (M2 <= k < M)%N -> (l < N2)%N -> X3 k l = A k (u1 l).
  by move=> kM lN; have := u1lt _ lN => ul; rewrite X3E kM X2E ifF ?fr //; lia.
have q4 k l : (M2 <= k < M)%N -> (N2 <= l < N)%N -> X3 k l = A k l.
  by move=> kM lN; rewrite X3E kM X2E u1ge ?lN ?s1ge ?fr //; lia.
have fr3 : frame M N X3 A.
  move=> k l kl; rewrite X3E !X2E; case: ifP => kM.
    by rewrite u1ge ?ifF ?fr //; lia.
  case: ifP => lN; last by rewrite fr //; lia.
  by rewrite s1ge ?fr //; lia.
clearbody X3; clear X2 X2E X3E.
set X4 := at_ 0 N2 _ X3.
have p3 t : (t < R1)%N -> X3 t t != 0 by move=> tR; rewrite q1 ?(f_piv h1) //; lia.
have [fr4 e4] := @trsmL R1 N3 X3 (sub 0 N2 X3) p3.
have w4 k l : ~~ ((k < R1) && (N2 <= l < N))%N -> X4 k l = X3 k l.
  by move=> kl; apply: (@atW 0 N2 R1 N3) => //; rewrite /N3; lia.
have p4 t : (t < R1)%N -> X4 t t != 0 by move=> tR; rewrite w4 ?p3 //; lia.
set X5 := memo M N (at_ M2 0 _ X4).
have [fr5 e5] := @trsmR M3 R1 X4 (sub M2 0 X4) p4.
have w5 k l : ~~ ((M2 <= k < M) && (l < R1))%N -> X5 k l = X4 k l.
  by move=> kl; rewrite /X5 memoE; apply: (@atW M2 0 M3 R1) => //; rewrite /M3; lia.
have D5 k l : (k < R1)%N -> (l < N3)%N -> X5 k (N2 + l)%N = ftrsm SLeft Lower NoTrans (odiag d) R1 N3 1 X3 (sub 0 N2 X3) k l.
  by move=> kR lN; rewrite w5 ?/X4 -1?[k in LHS]add0n ?at_in //; lia.
have E5 k l : (k < M3)%N -> (l < R1)%N -> X5 (M2 + k)%N l = ftrsm SRight Upper NoTrans d M3 R1 1 X4 (sub M2 0 X4) k l.
  by move=> kR lN; rewrite /X5 memoE -1?[l in LHS]add0n at_in.
set X6 := at_ R1 N2 _ X5; set X7 := at_ M2 R1 _ X6; set X8 := at_ M2 N2 _ X7.
have w6 k l : X6 k l = if ((R1 <= k < M2) && (N2 <= l < N))%N then X5 k l - rsum R1 (fun t => X5 k t * X5 t l) else X5 k l.
  rewrite /X6 gemmW /N3 !subnKC //; case: ifP => // kl; congr (_ - _).
  by apply: eq_rsum => t tR; rewrite /sub !add0n !subnKC //; lia.
have w7 k l : X7 k l = if ((M2 <= k < M) && (R1 <= l < N2))%N then X6 k l - rsum R1 (fun t => X6 k t * X6 t l) else X6 k l.
  rewrite /X7 gemmW /M3 !subnKC //; case: ifP => // kl; congr (_ - _).
  by apply: eq_rsum => t tR; rewrite /sub !add0n !subnKC //; lia.
have w8 k l : X8 k l = if ((M2 <= k < M) && (N2 <= l < N))%N then X7 k l - rsum R1 (fun t => X7 k t * X7 t l) else X7 k l.
  rewrite /X8 gemmW /M3 /N3 !subnKC //; case: ifP => // kl; congr (_ - _).
  by apply: eq_rsum => t tR; rewrite /sub !add0n !subnKC //; lia.
have D8 k l : (k < R1)%N -> X8 k l = X5 k l.
  by move=> kR; rewrite w8 ifF ?w7 ?ifF ?w6 ?ifF //; lia.
have E8 k l : (l < R1)%N -> X8 k l = X5 k l.
  by move=> kR; rewrite w8 ifF ?w7 ?ifF ?w6 ?ifF //; lia.
have Q8 k l : (k < M2)%N -> (l < N2)%N -> X8 k l = x1 k l.
  by move=> kM lN; rewrite w8 ifF ?w7 ?ifF ?w6 ?ifF ?w5 ?w4 ?q1 //; lia.
clearbody X4 X5 X6 X7 X8.
split.
- split=> [k l kl|k l kM lN]; rewrite memoE; last exact: Q8.
  by rewrite w8 ifF ?w7 ?ifF ?w6 ?ifF ?w5 ?w4 ?fr3 //; rewrite ?/M3 ?/N3; lia.
- split=> [t l tR lN|k t kM tR].
    transitivity (sub 0 N2 X3 t l); last by rewrite /sub q2 //; rewrite /N3 in lN; lia.
    rewrite -e4 //; apply: eq_rsum => k kR; rewrite memoE D8 // D5 //; congr (_ * _).
    by rewrite /Lo !q1 //; lia.
  transitivity (sub M2 0 X4 k t); last by rewrite /sub w4 ?q3 //; rewrite /M3 in kM; lia.
  rewrite -e5 //; apply: eq_rsum => l lR; rewrite memoE E8 // E5 //; congr (_ * _).
  by rewrite /Up !w4 ?q1 //; lia.
- move=> k l kM lN; rewrite memoE w8 ifF ?w7 ?ifF ?w6 ?ifT; rewrite /N3 in lN; [|lia..].
  rewrite w5 ?w4 ?q2; [|lia..].
  congr (_ - _); apply: eq_rsum => t tR; rewrite memoE D8 //; congr (_ * _).
  by rewrite w5 ?w4 ?q1 //; lia.
- move=> k l kM lN; rewrite memoE w8 ifF ?w7 ?ifT ?w6 ?ifF; rewrite /M3 in kM; [|lia..].
  rewrite w5 ?w4 ?q3; [|lia..].
  congr (_ - _); apply: eq_rsum => t tR; rewrite memoE E8 //; congr (_ * _).
    by rewrite w6 ifF //; lia.
  by rewrite w6 ifF ?w5 ?w4 ?q1 //; lia.
- move=> k l kM lN; rewrite memoE w8 ifT; rewrite /M3 in kM; rewrite /N3 in lN; [|lia].
  rewrite w7 ifF ?w6 ?ifF ?w5 ?w4 ?q4; [|lia..].
  congr (_ - _); apply: eq_rsum => t tR; rewrite !memoE E8 // D8 //; congr (_ * _).
    by rewrite w7 ifF ?w6 ?ifF //; lia.
  by rewrite w7 ifF ?w6 ?ifF //; lia.
Qed.

(** ** Second phase: permutations of the first two Schur complements *)
Lemma phaseC M N M2 N2 R1 P2 Q2 P3 Q3 X10 : (M2 <= M)%N -> (N2 <= N)%N -> (R1 <= M2)%N -> (R1 <= N2)%N ->
  let M3 := (M - M2)%N in let N3 := (N - N2)%N in
  is_lapack (M2 - R1) P2 -> is_lapack N3 Q2 -> is_lapack M3 P3 -> is_lapack (N2 - R1) Q3 ->
  let s2 := sigma P2 0 (M2 - R1) in let u2 := sigma Q2 0 N3 in
  let s3 := sigma P3 0 M3 in let u3 := sigma Q3 0 (N2 - R1) in
  (forall k l, (R1 <= k < M2)%N -> (R1 <= l < N2)%N -> X10 k l = 0) ->
  let X := phC bk M N M2 N2 R1 P2 Q2 P3 Q3 X10 in
  [/\ forall k l, (k < M2)%N -> (l < N2)%N -> X k l = X10 (dsum R1 s2 k) (dsum R1 u3 l),
      forall k l, (k < M2)%N -> (l < N3)%N -> X k (N2 + l)%N = X10 k (N2 + (if (k < R1)%N then u2 l else l))%N,
      forall k l, (k < M3)%N -> (l < N2)%N -> X (M2 + k)%N l = X10 (M2 + (if (l < R1)%N then s3 k else k))%N l,
      forall k l, (k < M3)%N -> (l < N3)%N -> X (M2 + k)%N (N2 + l)%N = X10 (M2 + s3 k)%N (N2 + u2 l)%N &
      frame M N X X10].
Proof.
move=> M2M N2N R1M R1N M3 N3 lP2 lQ2 lP3 lQ3 s2 u2 s3 u3 z X.
rewrite {}/X /phC -/M3 -/N3.
set X11 := at_ M2 N2 _ X10; set X12 := at_ M2 N2 _ X11; set X13 := at_ M2 0 _ X12.
set X14 := at_ R1 0 _ X13; set X15 := at_ 0 N2 _ X14; set X16 := at_ 0 R1 _ X15.
have e11 k l : X11 k l = if ((M2 <= k < M) && (N2 <= l))%N then X10 k (N2 + u2 (l - N2))%N else X10 k l.
  by rewrite /X11 applyR subnKC.
have e12 k l : X12 k l = if ((M2 <= k) && (N2 <= l < N))%N then X11 (M2 + s3 (k - M2))%N l else X11 k l.
  by rewrite /X12 applyL subnKC.
have e13 k l : X13 k l = if ((M2 <= k) && (l < R1))%N then X12 (M2 + s3 (k - M2))%N l else X12 k l.
  by rewrite /X13 applyL add0n.
have e14 k l : X14 k l = if ((R1 <= k) && (l < R1))%N then X13 (R1 + s2 (k - R1))%N l else X13 k l.
  by rewrite /X14 applyL add0n.
have e15 k l : X15 k l = if ((k < R1) && (N2 <= l))%N then X14 k (N2 + u2 (l - N2))%N else X14 k l.
  by rewrite /X15 applyR add0n.
have e16 k l : X16 k l = if ((k < R1) && (R1 <= l))%N then X15 k (R1 + u3 (l - R1))%N else X15 k l.
  by rewrite /X16 applyR add0n.
have s3lt k : (M2 <= k < M)%N -> (s3 (k - M2) < M3)%N by move=> h; apply: lapack_lt => //; rewrite /M3; lia.
have u2lt k : (N2 <= k < N)%N -> (u2 (k - N2) < N3)%N by move=> h; apply: lapack_lt => //; rewrite /N3; lia.
have s2lt k : (R1 <= k < M2)%N -> (s2 (k - R1) < M2 - R1)%N by move=> h; apply: lapack_lt => //; lia.
have u3lt k : (R1 <= k < N2)%N -> (u3 (k - R1) < N2 - R1)%N by move=> h; apply: lapack_lt => //; lia.
have s3ge k : (M <= k)%N -> s3 (k - M2)%N = (k - M2)%N by move=> h; apply: lapack_ge => //; rewrite /M3; lia.
have u2ge k : (N <= k)%N -> u2 (k - N2)%N = (k - N2)%N by move=> h; apply: lapack_ge => //; rewrite /N3; lia.
have s2ge k : (M2 <= k)%N -> s2 (k - R1)%N = (k - R1)%N by move=> h; apply: lapack_ge => //; lia.
have u3ge k : (N2 <= k)%N -> u3 (k - R1)%N = (k - R1)%N by move=> h; apply: lapack_ge => //; lia.
clearbody X11 X12 X13 X14 X15 X16.
split.
- move=> k l kM lN; rewrite memoE.
  have e k' l' : (k' < M2)%N -> (l' < N2)%N -> X13 k' l' = X10 k' l'.
    by move=> h1 h2; rewrite e13 ifF ?e12 ?ifF ?e11 ?ifF //; lia.
  rewrite e16; case: (ltnP k R1) => kR; case: (ltnP l R1) => lR /=.
  + by rewrite !dsum_lo // e15 ifF ?e14 ?ifF ?e //; lia.
  + have ul := u3lt l ltac:(lia).
    by rewrite dsum_lo // dsum_hi // e15 ifF ?e14 ?ifF ?e //; lia.
  + have sk := s2lt k ltac:(lia).
    by rewrite dsum_hi // dsum_lo // e15 ifF ?e14 ?ifT ?e //; lia.
  + have ul := u3lt l ltac:(lia); have sk := s2lt k ltac:(lia).
    by rewrite !dsum_hi // e15 ifF ?e14 ?ifF ?e ?z //; lia.
- move=> k l kM lN; rewrite memoE e16.
  have e l' : (N2 <= l')%N -> X14 k l' = X10 k l'.
    by move=> h; rewrite e14 ifF ?e13 ?ifF ?e12 ?ifF ?e11 ?ifF //; lia.
  have -> : (if ((k < R1) && (R1 <= N2 + l))%N then X15 k (R1 + u3 (N2 + l - R1))%N else X15 k (N2 + l)%N) = X15 k (N2 + l)%N.
    case: ifP => // h; congr (X15 k _); rewrite u3ge; lia.
  rewrite e15; case: (ltnP k R1) => kR /=; last by rewrite e ?leq_addr.
  by rewrite leq_addr addKn e ?leq_addr.
- move=> k l kM lN; rewrite memoE e16 ifF; last by lia.
  rewrite e15 ifF; last by lia.
  have e k' : (M2 <= k')%N -> X12 k' l = X10 k' l.
    by move=> h; rewrite e12 ifF ?e11 ?ifF //; lia.
  have -> : X14 (M2 + k)%N l = X13 (M2 + k)%N l.
    rewrite e14; case: ifP => // h; congr (X13 _ l); rewrite s2ge; lia.
  by rewrite e13 leq_addr addKn /=; case: ifP => _; rewrite e ?leq_addr.
- move=> k l kM lN; rewrite memoE e16 ifF; last by lia.
  rewrite e15 ifF; last by lia.
  rewrite e14 ifF; last by lia.
  rewrite e13 ifF; last by lia.
  rewrite e12 ifT; last by rewrite /N3 in lN; lia.
  have := s3lt (M2 + k)%N; rewrite addKn => sk; have {}sk := sk ltac:(rewrite /M3 in kM; lia).
  by rewrite e11 ifT ?addKn //; rewrite /M3 in sk; lia.
- move=> k l kl; rewrite memoE.
  have f11 k' l' : ~~ ((k' < M) && (l' < N))%N -> X11 k' l' = X10 k' l'.
    by move=> h; rewrite e11; case: ifP => // h'; rewrite u2ge ?subnKC //; lia.
  have f12 k' l' : ~~ ((k' < M) && (l' < N))%N -> X12 k' l' = X10 k' l'.
    by move=> h; rewrite e12; case: ifP => h'; rewrite ?s3ge ?subnKC ?f11 //; lia.
  have f13 k' l' : ~~ ((k' < M) && (l' < N))%N -> X13 k' l' = X10 k' l'.
    by move=> h; rewrite e13; case: ifP => h'; rewrite ?s3ge ?subnKC ?f12 //; lia.
  have f14 k' l' : ~~ ((k' < M) && (l' < N))%N -> X14 k' l' = X10 k' l'.
    by move=> h; rewrite e14; case: ifP => h'; rewrite ?s2ge ?subnKC ?f13 //; lia.
  have f15 k' l' : ~~ ((k' < M) && (l' < N))%N -> X15 k' l' = X10 k' l'.
    by move=> h; rewrite e15; case: ifP => h'; rewrite ?u2ge ?subnKC ?f14 //; lia.
  by rewrite e16; case: ifP => h'; rewrite ?u3ge ?subnKC ?f15 //; lia.
Qed.

(** ** Third phase: I, O and the last Schur complement *)
Lemma phaseD M N M2 N2 R1 R2 R3 X0 : (M2 <= M)%N -> (N2 <= N)%N -> (R1 + R2 <= M2)%N -> (R1 + R3 <= N2)%N ->
  let M3 := (M - M2)%N in let N3 := (N - N2)%N in (R3 <= M3)%N -> (R2 <= N3)%N ->
  let x2 := sub R1 N2 X0 in let x3 := sub M2 R1 X0 in let H := sub M2 N2 X0 in
  (forall t, (t < R2)%N -> x2 t t != 0) -> (forall t, (t < R3)%N -> x3 t t != 0) ->
  let X := phD d M N M2 N2 R1 R2 R3 X0 in
  let I k l := X (M2 + k)%N (N2 + l)%N in let O k l := X (M2 + k)%N (N2 + R2 + l)%N in
  [/\ forall k l, ~~ ((M2 <= k < M) && (N2 <= l < N))%N -> X k l = X0 k l,
      forall k t, (k < M3)%N -> (t < R2)%N -> rsum R2 (fun s => I k s * Up d x2 s t) = H k t,
      forall t l, (t < R3)%N -> (l < N3 - R2)%N ->
         rsum R3 (fun s => Lo d x3 t s * O s l) = H t (R2 + l)%N - rsum R2 (fun s => I t s * x2 s (R2 + l)%N) &
      forall k l, (k < M3 - R3)%N -> (l < N3 - R2)%N ->
         X (M2 + R3 + k)%N (N2 + R2 + l)%N = H (R3 + k)%N (R2 + l)%N - rsum R2 (fun s => I (R3 + k)%N s * x2 s (R2 + l)%N)
          - rsum R3 (fun s => x3 (R3 + k)%N s * O s l)].
Proof.
move=> M2M N2N a1 b1 M3 N3 R3M R2N x2 x3 H p2 p3 X I O.
have M3E : (M2 + M3 = M)%N by rewrite /M3 subnKC.
have N3E : (N2 + N3 = N)%N by rewrite /N3 subnKC.
rewrite {}/I {}/O {}/X /phD -/M3 -/N3 -/x2.
clearbody M3 N3.
set X17 := at_ M2 N2 _ X0; set temp := ftrsm SLeft _ _ _ R3 R2 1 _ _.
set X18 := memo M N (at_ M2 _ _ X17); set X19 := at_ M2 _ _ X18; set X20 := at_ _ _ _ X19; set X21 := at_ _ _ _ X20.
have [fr17 e17] := @trsmR M3 R2 x2 H p2.
have w17 k l : ~~ ((M2 <= k < M) && (N2 <= l < N2 + R2))%N -> X17 k l = X0 k l.
  by move=> kl; apply: (@atW M2 N2 M3 R2) => //; lia.
have x3E k l : (l < R3)%N -> sub M2 R1 X17 k l = x3 k l by move=> lR; rewrite /sub w17 //; lia.
have p3' t : (t < R3)%N -> sub M2 R1 X17 t t != 0 by move=> tR; rewrite x3E // p3.
have [frt et] := @trsmL R3 R2 (sub M2 R1 X17) (sub M2 N2 X17) p3'.
have [fr18 e18] := @trsmL R3 (N3 - R2) (sub M2 R1 X17) (sub M2 (N2 + R2) X17) p3'.
rewrite -/temp in frt et.
have w18 k l : ~~ ((M2 <= k < M2 + R3) && (N2 + R2 <= l < N))%N -> X18 k l = X17 k l.
  by move=> kl; rewrite /X18 memoE; apply: (@atW M2 (N2 + R2) R3 (N3 - R2)) => //; lia.
have O18 k l : X18 (M2 + k)%N (N2 + R2 + l)%N =
    ftrsm SLeft Lower NoTrans (odiag d) R3 (N3 - R2) 1 (sub M2 R1 X17) (sub M2 (N2 + R2) X17) k l.
  by rewrite /X18 memoE at_in.
have w19 k l : X19 k l = if ((M2 <= k < M2 + R3) && (N2 + R2 <= l < N2 + N3))%N
    then X18 k l - rsum R2 (fun t => temp (k - M2)%N t * X18 (R1 + t)%N l) else X18 k l.
  rewrite /X19 gemmW; have -> : (N2 + R2 + (N3 - R2) = N2 + N3)%N by lia.
  case: ifP => // kl; congr (_ - _); apply: eq_rsum => t tR; congr (_ * X18 _ _); lia.
have w20 k l : X20 k l = if ((M2 + R3 <= k < M2 + M3) && (N2 + R2 <= l < N2 + N3))%N
    then X19 k l - rsum R2 (fun t => X19 k (N2 + t)%N * X19 (R1 + t)%N l) else X19 k l.
  rewrite /X20 gemmW; have -> : (N2 + R2 + (N3 - R2) = N2 + N3)%N by lia.
  have -> : (M2 + R3 + (M3 - R3) = M2 + M3)%N by lia.
  by case: ifP => // kl; congr (_ - _); apply: eq_rsum => t tR; rewrite /sub !subnKC //; lia.
have w21 k l : X21 k l = if ((M2 + R3 <= k < M2 + M3) && (N2 + R2 <= l < N2 + N3))%N
    then X20 k l - rsum R3 (fun t => X20 k (R1 + t)%N * X20 (M2 + t)%N l) else X20 k l.
  rewrite /X21 gemmW; have -> : (N2 + R2 + (N3 - R2) = N2 + N3)%N by lia.
  have -> : (M2 + R3 + (M3 - R3) = M2 + M3)%N by lia.
  by case: ifP => // kl; congr (_ - _); apply: eq_rsum => t tR; rewrite /sub !subnKC //; lia.
have I17 k l : X17 (M2 + k)%N (N2 + l)%N = ftrsm SRight Upper NoTrans d M3 R2 1 x2 H k l by rewrite /X17 at_in.
have I21 k l : (l < R2)%N -> X21 (M2 + k)%N (N2 + l)%N = X17 (M2 + k)%N (N2 + l)%N.
  by move=> lR; rewrite w21 ifF ?w20 ?ifF ?w19 ?ifF ?w18 //; lia.
clearbody X17 X18 X19 X20 X21.
split.
- move=> k l kl; rewrite memoE w21 ifF ?w20 ?ifF ?w19 ?ifF ?w18 ?w17 //; lia.
- move=> k t kM tR; rewrite -e17 //; apply: eq_rsum => l lR.
  by rewrite memoE I21 // I17.
- move=> t l tR lN.
  have O21 k : (k < R3)%N -> X21 (M2 + k)%N (N2 + R2 + l)%N =
     X18 (M2 + k)%N (N2 + R2 + l)%N - rsum R2 (fun s => temp k s * x2 s (R2 + l)%N).
    move=> kR; rewrite w21 ifF ?w20 ?ifF ?w19 ?ifT; [|lia..].
    congr (_ - _); apply: eq_rsum => s sR; rewrite addKn; congr (_ * _).
    by rewrite w18 ?w17 /x2 /sub ?addnA //; lia.
  rewrite (@eq_rsum _ _ _ (fun s => Lo d x3 t s * X18 (M2 + s)%N (N2 + R2 + l)%N +
     - (rsum R2 (fun s' => (Lo d x3 t s * temp s s') * x2 s' (R2 + l)%N)))); last first.
    move=> s sR; rewrite memoE O21 // mulrBr; congr (_ - _); rewrite -rsum_mull.
    by apply: eq_rsum => s' _; rewrite mulrA.
  have L3 k : (k < R3)%N -> Lo d (sub M2 R1 X17) t k = Lo d x3 t k.
    by move=> kR; rewrite /Lo !x3E.
  rewrite rsumD rsumN; congr (_ - _).
    transitivity (sub M2 (N2 + R2) X17 t l); last by rewrite /sub w17 /H /sub ?addnA //; lia.
    by rewrite -e18 //; apply: eq_rsum => k kR; rewrite L3 // O18.
  rewrite rsum_exch; apply: eq_rsum => s sR; rewrite rsum_mulr; congr (_ * _).
  transitivity (sub M2 N2 X17 t s); last by rewrite memoE I21.
  by rewrite -et //; apply: eq_rsum => k kR; rewrite L3.
- move=> k l kM lN; rewrite memoE w21 ifT; last by lia.
  rewrite w20 ifT; last by lia.
  rewrite w19 ifF; last by lia.
  rewrite w18 ?w17; [|lia..].
  congr (_ - _ - _); first by rewrite /H /sub !addnA.
    apply: eq_rsum => s sR; rewrite memoE addnA -[(M2 + R3 + k)%N]addnA I21 //; congr (_ * _).
      by rewrite w19 ifF ?w18 //; lia.
    by rewrite w19 ifF ?w18 ?w17 /x2 /sub ?addnA //; lia.
  apply: eq_rsum => s sR; congr (_ * _).
    by rewrite w20 ifF ?w19 ?ifF ?w18 ?w17 /x3 /sub ?addnA //; lia.
  by rewrite memoE w21 ifF //; lia.
Qed.

End Rec.
