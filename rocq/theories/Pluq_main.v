(** * PLUQ: assembling the phases *)
From mathcomp Require Import all_ssreflect all_algebra zify ring.
From Verif Require Import Grid Perm_model Perm_spec Perm_proofs Tri_model Tri_spec Tri_proofs.
From Verif Require Import Pluq_model Pluq_spec Pluq_idx Pluq_combine Pluq_crout Pluq_proofs.
Set Implicit Arguments.
Unset Strict Implicit.
Unset Printing Implicit Defensive.
Import GRing.Theory.
Local Open Scope ring_scope.

Section Main.
Variable F : fieldType.
Implicit Types A X : grid F.
Variables (bk : nat) (d : diag) (thr : nat).
Hypothesis bk0 : (0 < bk)%N.

Lemma fac_ext o M N A X X' s s' u u' R : facg o d M N A X s u R ->
  (forall k l, (k < M)%N -> (l < N)%N -> X' k l = X k l) ->
  (forall k, (k < M)%N -> s' k = s k) -> (forall l, (l < N)%N -> u' l = u l) -> facg o d M N A X' s' u' R.
Proof.
move=> h eX es eu; have RM := f_RM h; have RN := f_RN h.
have eL k t : (k < M)%N -> (t < R)%N -> Lo d X' k t = Lo d X k t.
  move=> kM tR; rewrite /Lo; case: ifP => h1; first by rewrite eX //; lia.
  by case: eqP => // tk; rewrite eX //; lia.
have eU t l : (t < R)%N -> (l < N)%N -> Up d X' t l = Up d X t l.
  by move=> tR lN; rewrite /Up !eX //; lia.
split=> //.
- by apply: perm_ext (f_s h) => x xM; rewrite es.
- by apply: perm_ext (f_u h) => x xM; rewrite eu.
- by move=> t tR; rewrite eX ?(f_piv h) //; lia.
- by move=> k l kM lN; rewrite eX ?(f_zero h) //; lia.
- move=> k l kM lN; rewrite es // eu // (f_law h) //.
  by apply: eq_rsum => t tR; rewrite eL ?eU.
- by move=> oT k t kM tR; rewrite eL // !es //; [exact: (g_lo h oT) | lia].
- by move=> oT t l tR lN; rewrite eU // !eu //; [exact: (g_up h oT) | lia].
- by move=> oT i j ij jM; rewrite !es ?(g_ms h oT) //; lia.
- by move=> oT i j ij jM; rewrite !eu ?(g_mu h oT) //; lia.
Qed.

(** ** Last phase *)
Lemma phaseE M N M2 N2 R2 R3 P4 Q4 W4 X : (M2 <= M)%N -> (N2 <= N)%N ->
  let M3 := (M - M2)%N in let N3 := (N - N2)%N in (R3 <= M3)%N -> (R2 <= N3)%N ->
  is_lapack (M3 - R3) P4 -> is_lapack (N3 - R2) Q4 ->
  frame (M3 - R3) (N3 - R2) W4 (sub (M2 + R3) (N2 + R2) X) ->
  let s4 := sigma P4 0 (M3 - R3) in let u4 := sigma Q4 0 (N3 - R2) in
  let Y := phE bk M N M2 N2 R2 R3 P4 Q4 W4 X in
  [/\ forall k l, (k < M2)%N -> (l < N2)%N -> Y k l = X k l,
      forall k l, (k < M2)%N -> (l < N3)%N -> Y k (N2 + l)%N = X k (N2 + dsum R2 u4 l)%N,
      forall k l, (k < M3)%N -> (l < N2)%N -> Y (M2 + k)%N l = X (M2 + dsum R3 s4 k)%N l,
      forall k l, (k < M3)%N -> (l < N3)%N -> Y (M2 + k)%N (N2 + l)%N =
        if (l < R2)%N then X (M2 + dsum R3 s4 k)%N (N2 + l)%N
        else if (k < R3)%N then X (M2 + k)%N (N2 + R2 + u4 (l - R2))%N else W4 (k - R3)%N (l - R2)%N &
      frame M N Y X].
Proof.
move=> M2M N2N M3 N3 R3M R2N lP4 lQ4 fr s4 u4 Y.
have M3E : (M2 + M3 = M)%N by rewrite /M3 subnKC.
have N3E : (N2 + N3 = N)%N by rewrite /N3 subnKC.
rewrite {}/Y /phE -/M3 -/N3; clearbody M3 N3.
set X22 := at_ _ _ _ X; set X23 := at_ _ _ _ X22; set X24 := at_ _ _ _ X23.
have e22 k l : X22 k l = if ((M2 + R3 <= k < M) && (N2 + R2 <= l < N))%N then W4 (k - (M2 + R3))%N (l - (N2 + R2))%N else X k l.
  rewrite /X22 (atK _ _ fr); have -> : (M2 + R3 + (M3 - R3) = M)%N by lia.
  by have -> : (N2 + R2 + (N3 - R2) = N)%N by lia.
have e23 k l : X23 k l = if ((M2 + R3 <= k) && (l < N2 + R2))%N then X22 (M2 + R3 + s4 (k - (M2 + R3)))%N l else X22 k l.
  by rewrite /X23 applyL // add0n.
have e24 k l : X24 k l = if ((k < M2 + R3) && (N2 + R2 <= l))%N then X23 k (N2 + R2 + u4 (l - (N2 + R2)))%N else X23 k l.
  by rewrite /X24 applyR // add0n.
have s4ge k : (M <= k)%N -> s4 (k - (M2 + R3))%N = (k - (M2 + R3))%N by move=> h; apply: lapack_ge => //; lia.
have u4ge l : (N <= l)%N -> u4 (l - (N2 + R2))%N = (l - (N2 + R2))%N by move=> h; apply: lapack_ge => //; lia.
clearbody X22 X23 X24.
split.
- by move=> k l kM lN; rewrite memoE e24 ifF ?e23 ?ifF ?e22 ?ifF //; lia.
- move=> k l kM lN; rewrite memoE e24; case: (ltnP l R2) => lR.
    by rewrite dsum_lo // ifF ?e23 ?ifF ?e22 ?ifF //; lia.
  rewrite dsum_hi // ifT; last by lia.
  by rewrite subnDl addnA e23 ?ifF ?e22 ?ifF //; lia.
- move=> k l kM lN; rewrite memoE e24 ifF; last by lia.
  rewrite e23; case: (ltnP k R3) => kR.
    by rewrite dsum_lo // ifF ?e22 ?ifF //; lia.
  rewrite dsum_hi // ifT ?subnDl ?addnA; last by lia.
  by rewrite e22 ifF //; lia.
- move=> k l kM lN; rewrite memoE e24; case: (ltnP l R2) => lR.
    rewrite ifF; last by lia.
    rewrite e23; case: (ltnP k R3) => kR.
      by rewrite dsum_lo // ifF ?e22 ?ifF //; lia.
    rewrite dsum_hi // ifT ?subnDl ?addnA; last by lia.
    by rewrite e22 ifF //; lia.
  case: (ltnP k R3) => kR.
    rewrite ifT; last by lia.
    by rewrite subnDl e23 ifF ?e22 ?ifF //; lia.
  rewrite ifF; last by lia.
  rewrite e23 ifF; last by lia.
  by rewrite e22 ifT ?subnDl //; lia.
- move=> k l kl; rewrite memoE.
  have e k' l' : ~~ ((k' < M) && (l' < N))%N -> X23 k' l' = X k' l'.
    move=> h; rewrite e23; case: ifP => h'; rewrite !e22; last by rewrite ifF //; lia.
    by rewrite s4ge ?subnKC ?ifF //; lia.
  by rewrite e24; case: ifP => h'; rewrite ?u4ge ?subnKC ?e //; lia.
Qed.

Lemma exch0 a c x : exch a 0 c x = x.
Proof. by rewrite /exch; repeat case: ifP => ?; lia. Qed.

Lemma exch_ge a b c x : (a + b + c <= x)%N -> exch a b c x = x.
Proof. by rewrite /exch => h; repeat case: ifP => ?; lia. Qed.

Lemma mpermE M M2 Ra Rb P1 P2 P3 P4 x : (M2 <= M)%N -> (Ra <= M2)%N -> (Rb <= M - M2)%N ->
  is_lapack M2 P1 -> is_lapack (M2 - Ra) P2 -> is_lapack (M - M2) P3 -> is_lapack (M - M2 - Rb) P4 ->
  (x < M)%N -> mperm M M2 Ra Rb P1 P2 P3 P4 x =
  if (x < M2)%N then sigma P1 0 M2 (dsum Ra (sigma P2 0 (M2 - Ra)) x)
  else (M2 + sigma P3 0 (M - M2) (dsum Rb (sigma P4 0 (M - M2 - Rb)) (x - M2)))%N.
Proof.
have lt n P : is_lapack n P -> forall i, (i < n)%N -> (P i < n)%N by move=> h i iN; have := h i iN; lia.
move=> M2M RaM RbM /lt l1 /lt l2 /lt l3 /lt l4 xM; rewrite /mperm; set mP1 := at1 _ _ _.
have H n p : iteri n (fun k p => upd1 p (M2 + k)%N (p (M2 + k) + M2)%N) p x =
    if (M2 <= x < M2 + n)%N then (p x + M2)%N else p x.
  elim: n => [|n IH] /=; first by rewrite ifF //; lia.
  have IH' : iteri n (fun k p => upd1 p (M2 + k)%N (p (M2 + k) + M2)%N) p (M2 + n)%N = p (M2 + n)%N.
    have K m : (m <= n)%N -> iteri m (fun k p => upd1 p (M2 + k)%N (p (M2 + k) + M2)%N) p (M2 + n)%N = p (M2 + n)%N.
      by elim: m => [|m IHm] //= mn; rewrite /upd1 ifF ?IHm //; lia.
    exact: K.
  rewrite /upd1 IH' IH; case: eqP => [->|ne]; first by rewrite ifT //; lia.
  by have -> : (M2 <= x < M2 + n.+1)%N = (M2 <= x < M2 + n)%N by lia.
rewrite H subnKC // xM andbT /mP1 /at1; case: leqP => xM2; last by rewrite composeLLME.
by rewrite addnC composeLLME //; lia.
Qed.

Definition pluq_okg o M N A (st : pluq_res F) : Prop :=
  [/\ is_lapack M (resP st), is_lapack N (resQ st), frame M N (resA st) A &
   facg o d M N A (resA st) (sigma (resP st) 0 M) (sigma (resQ st) 0 N) (resR st)].
Definition pluq_ok := pluq_okg true.

(** From the factorisations of A1, F and G: X8 is the matrix after D, E, F, G
    and H, X10 the same with the factorisations of F and G. *)
Lemma pluq_end_ok o rec M N M2 N2 A X1 P1 Q1 R1 X8 F0 x2 P2 Q2 R2 G0 x3 P3 Q3 R3 X10 : (M2 <= M)%N -> (N2 <= N)%N ->
  let M3 := (M - M2)%N in let N3 := (N - N2)%N in
  let s1 := sigma P1 0 M2 in let u1 := sigma Q1 0 N2 in
  let D k l := X8 k (N2 + l)%N in let E k l := X8 (M2 + k)%N l in
  pluq_okg o M2 N2 A (Pluq X1 P1 Q1 R1) ->
  frame M N X8 A -> (forall k l, (k < M2)%N -> (l < N2)%N -> X8 k l = X1 k l) ->
  (forall t l, (t < R1)%N -> (l < N3)%N -> rsum R1 (fun s => Lo d X1 t s * D s l) = A (s1 t) (N2 + l)%N) ->
  (forall k t, (k < M3)%N -> (t < R1)%N -> rsum R1 (fun s => E k s * Up d X1 s t) = A (M2 + k)%N (u1 t)) ->
  (forall k l, (k < M2 - R1)%N -> (l < N3)%N ->
    F0 k l = A (s1 (R1 + k)%N) (N2 + l)%N - rsum R1 (fun t => X1 (R1 + k)%N t * D t l)) ->
  (forall k l, (k < M3)%N -> (l < N2 - R1)%N ->
    G0 k l = A (M2 + k)%N (u1 (R1 + l)%N) - rsum R1 (fun t => E k t * X1 t (R1 + l)%N)) ->
  (forall k l, (k < M3)%N -> (l < N3)%N ->
    X8 (M2 + k)%N (N2 + l)%N = A (M2 + k)%N (N2 + l)%N - rsum R1 (fun t => E k t * D t l)) ->
  is_lapack (M2 - R1) P2 -> is_lapack N3 Q2 ->
  facg o d (M2 - R1) N3 F0 x2 (sigma P2 0 (M2 - R1)) (sigma Q2 0 N3) R2 ->
  is_lapack M3 P3 -> is_lapack (N2 - R1) Q3 ->
  facg o d M3 (N2 - R1) G0 x3 (sigma P3 0 M3) (sigma Q3 0 (N2 - R1)) R3 ->
  (forall k l, X10 k l = if ((M2 <= k < M) && (R1 <= l < N2))%N then x3 (k - M2)%N (l - R1)%N
     else if ((R1 <= k < M2) && (N2 <= l < N))%N then x2 (k - R1)%N (l - N2)%N else X8 k l) ->
  (forall X, pluq_okg o (M3 - R3) (N3 - R2) X (rec (M3 - R3)%N (N3 - R2)%N X)) ->
  pluq_okg o M N A (pluq_end rec bk d M N M2 N2 P1 Q1 R1 P2 Q2 R2 P3 Q3 R3 X10).
Proof.
move=> M2M N2N M3 N3 s1 u1 D E [/= lP1 lQ1 _ h1] frA qA hD hE hF hG' hH lP2 lQ2 h2 lP3 lQ3 h3 e10' rec4.
rewrite {}/s1 {}/u1 {}/D {}/E in hD hE hF hG' hH.
have R1M := f_RM h1; have R1N := f_RN h1.
have R2M := f_RM h2; have R2N := f_RN h2; have R3M := f_RM h3; have R3N := f_RN h3.
pose X9 := fun k l => if ((R1 <= k < M2) && (N2 <= l < N))%N then x2 (k - R1)%N (l - N2)%N else X8 k l.
have e9 k l : X9 k l = if ((R1 <= k < M2) && (N2 <= l < N))%N then x2 (k - R1)%N (l - N2)%N else X8 k l by [].
have e10 k l : X10 k l = if ((M2 <= k < M) && (R1 <= l < N2))%N then x3 (k - M2)%N (l - R1)%N else X9 k l by exact: e10'.
clearbody X9; rewrite /pluq_end; cbv zeta; rewrite -/M3 -/N3.
have z10 k l : (R1 <= k < M2)%N -> (R1 <= l < N2)%N -> X10 k l = 0.
  move=> kM lN; rewrite e10 ifF; last by lia.
  rewrite e9 ifF; last by lia.
  by rewrite qA ?(f_zero h1) //; lia.
have [qC1 qC2 qC3 qC4 frC] := phaseC bk0 M2M N2N R1M R1N lP2 lQ2 lP3 lQ3 z10.
set X16 := phC _ _ _ _ _ _ _ _ _ _ _ in qC1 qC2 qC3 qC4 frC *.
rewrite -/M3 -/N3 in qC2 qC3 qC4.
have M3E : (M2 + M3 = M)%N by rewrite /M3 subnKC.
have N3E : (N2 + N3 = N)%N by rewrite /N3 subnKC.
have x2E k l : (k < M2 - R1)%N -> (l < N3)%N -> sub R1 N2 X16 k l = x2 k l.
  move=> kM lN; rewrite /sub qC2 //; last by lia.
  rewrite ifF; last by lia.
  rewrite e10 ifF; last by lia.
  by rewrite e9 ifT ?addKn //; lia.
have x3E k l : (k < M3)%N -> (l < N2 - R1)%N -> sub M2 R1 X16 k l = x3 k l.
  move=> kM lN; rewrite /sub qC3 //; last by lia.
  rewrite ifF; last by lia.
  by rewrite e10 ifT ?addKn //; lia.
have p2 t : (t < R2)%N -> sub R1 N2 X16 t t != 0 by move=> tR; rewrite x2E ?(f_piv h2) //; lia.
have p3 t : (t < R3)%N -> sub M2 R1 X16 t t != 0 by move=> tR; rewrite x3E ?(f_piv h3) //; lia.
have a1 : (R1 + R2 <= M2)%N by lia.
have b1 : (R1 + R3 <= N2)%N by lia.
have [qD hI hO hW] := @phaseD F d bk bk0 M N M2 N2 R1 R2 R3 X16 M2M N2N a1 b1 R3M R2N p2 p3.
set X21 := phD _ _ _ _ _ _ _ _ _ in qD hI hO hW *.
rewrite -/M3 -/N3 in hI hO hW.
have := rec4 (sub (M2 + R3) (N2 + R2) X21).
case: (rec (M3 - R3)%N (N3 - R2)%N _) => x4 P4 Q4 R4 [/= lP4 lQ4 fr4 h4].
have [qE1 qE2 qE3 qE4 frE] := @phaseE M N M2 N2 R2 R3 P4 Q4 x4 X21 M2M N2N R3M R2N lP4 lQ4 fr4.
set X24 := phE _ _ _ _ _ _ _ _ _ _ _ in qE1 qE2 qE3 qE4 frE *.
rewrite -/M3 -/N3 in qE1 qE2 qE3 qE4.
have R4M := f_RM h4; have R4N := f_RN h4.
have S2 : is_perm _ _ := f_s h2; have S3 : is_perm _ _ := f_s h3; have S4 : is_perm _ _ := f_s h4.
have U2p : is_perm _ _ := f_u h2; have U3p : is_perm _ _ := f_u h3; have U4 : is_perm _ _ := f_u h4.
have H16 k l : (k < M3)%N -> (l < N3)%N ->
    sub M2 N2 X16 k l = sub M2 N2 X8 (sigma P3 0 M3 k) (sigma Q2 0 N3 l).
  move=> kM lN; rewrite /sub qC4 // e10 ifF; last by lia.
  by rewrite e9 ifF //; lia.
have Z1 k l : (k < M2)%N -> (l < N2)%N -> X24 k l =
    X1 (dsum R1 (sigma P2 0 (M2 - R1)) k) (dsum R1 (sigma Q3 0 (N2 - R1)) l).
  move=> kM lN; have k1 := dsum_lt R1M S2 kM; have l1 := dsum_lt R1N U3p lN.
  rewrite qE1 // qD; last by lia.
  rewrite qC1 // e10 ifF; last by lia.
  by rewrite e9 ifF ?qA //; lia.
have Z2 k l : (k < M2)%N -> (l < N3)%N -> X24 k (N2 + l)%N =
  if (k < R1)%N then X8 k (N2 + sigma Q2 0 N3 (dsum R2 (sigma Q4 0 (N3 - R2)) l))%N
  else x2 (k - R1)%N (dsum R2 (sigma Q4 0 (N3 - R2)) l).
  move=> kM lN; rewrite qE2 //; have l1 := dsum_lt R2N U4 lN; move: (dsum _ _ l) l1 => l' l1.
  rewrite qD; last by lia.
  rewrite qC2 // e10 ifF; last by lia.
  rewrite e9; case: (ltnP k R1) => kR /=; first by [].
  by rewrite ifT ?addKn //; lia.
have Z3 k l : (k < M3)%N -> (l < N2)%N -> X24 (M2 + k)%N l =
  if (l < R1)%N then X8 (M2 + sigma P3 0 M3 (dsum R3 (sigma P4 0 (M3 - R3)) k))%N l
  else x3 (dsum R3 (sigma P4 0 (M3 - R3)) k) (l - R1)%N.
  move=> kM lN; rewrite qE3 //; have k1 := dsum_lt R3M S4 kM; move: (dsum _ _ k) k1 => k' k1.
  rewrite qD; last by lia.
  rewrite qC3 // e10; case: (ltnP l R1) => lR.
    rewrite ifF; last by lia.
    by rewrite e9 ifF //; lia.
  by rewrite ifT ?addKn //; lia.
have hI' k t : (k < M3)%N -> (t < R2)%N ->
    rsum R2 (fun s => X21 (M2 + k)%N (N2 + s)%N * Up d x2 s t) = sub M2 N2 X8 (sigma P3 0 M3 k) (sigma Q2 0 N3 t).
  move=> kM tR; rewrite -H16 //; last by lia.
  rewrite -hI //; apply: eq_rsum => s sR; rewrite /Up !x2E //; lia.
have hO' t l : (t < R3)%N -> (l < N3 - R2)%N ->
    rsum R3 (fun s => Lo d x3 t s * X21 (M2 + s)%N (N2 + R2 + l)%N) =
    sub M2 N2 X8 (sigma P3 0 M3 t) (sigma Q2 0 N3 (R2 + l)%N) - rsum R2 (fun s => X21 (M2 + t)%N (N2 + s)%N * x2 s (R2 + l)%N).
  move=> tR lN; rewrite -H16; [|lia|lia].
  have -> : rsum R2 (fun s => X21 (M2 + t)%N (N2 + s)%N * x2 s (R2 + l)%N) =
    rsum R2 (fun s => X21 (M2 + t)%N (N2 + s)%N * sub R1 N2 X16 s (R2 + l)%N).
    by apply: eq_rsum => s sR; rewrite x2E //; lia.
  rewrite -hO //; apply: eq_rsum => s sR; congr (_ * _); rewrite /Lo !x3E //; lia.
have hW' k l : (k < M3 - R3)%N -> (l < N3 - R2)%N ->
    sub (M2 + R3) (N2 + R2) X21 k l = sub M2 N2 X8 (sigma P3 0 M3 (R3 + k)%N) (sigma Q2 0 N3 (R2 + l)%N)
     - rsum R2 (fun s => X21 (M2 + (R3 + k))%N (N2 + s)%N * x2 s (R2 + l)%N)
     - rsum R3 (fun s => x3 (R3 + k)%N s * X21 (M2 + s)%N (N2 + R2 + l)%N).
  move=> kM lN; rewrite -H16; [|lia|lia].
  rewrite {1}/sub hW //; congr (_ - _ - _); apply: eq_rsum => s sR; rewrite ?x2E ?x3E //; lia.
have C := combine M2M N2N h1 hD hE hF hG' hH h2 h3 hI' hO' hW' h4 Z1 Z2 Z3 qE4.
set X25 := if (R1 + R2 < M2)%N then doApplyS N M2 R1 R2 R3 R4 X24 else X24.
set mP3 := if (R1 + R2 < M2)%N then PermApplyS (mperm M M2 R1 R3 P1 P2 P3 P4) M2 R1 R2 R3 R4 else mperm M M2 R1 R3 P1 P2 P3 P4.
have -> : (if (R1 + R2 < M2)%N then
   (doApplyS N M2 R1 R2 R3 R4 X24, PermApplyS (mperm M M2 R1 R3 P1 P2 P3 P4) M2 R1 R2 R3 R4)
   else (X24, mperm M M2 R1 R3 P1 P2 P3 P4)) = (X25, mP3) by rewrite /X25 /mP3; case: ifP.
set X26 := if (R1 < N2)%N then doApplyT M N2 R1 R2 R3 R4 X25 else X25.
set mQ3 := if (R1 < N2)%N then PermApplyT (mperm N N2 R1 R2 Q1 Q3 Q2 Q4) N2 R1 R2 R3 R4 else mperm N N2 R1 R2 Q1 Q3 Q2 Q4.
have -> : (if (R1 < N2)%N then
   (doApplyT M N2 R1 R2 R3 R4 X25, PermApplyT (mperm N N2 R1 R2 Q1 Q3 Q2 Q4) N2 R1 R2 R3 R4)
   else (X25, mperm N N2 R1 R2 Q1 Q3 Q2 Q4)) = (X26, mQ3) by rewrite /X26 /mQ3; case: ifP.
have e25 k l : X25 k l = if (l < N)%N then X24 (Sx M2 R1 R2 R3 R4 k) l else X24 k l.
  rewrite /X25; case: ltnP => c; first by rewrite doApplySE.
  by rewrite /Sx (_ : (M2 - R1 - R2 = 0)%N) ?exch0 ?if_same //; lia.
have e26 k l : X26 k l = if (k < M)%N then X25 k (Tx N2 R1 R2 R3 R4 l) else X25 k l.
  rewrite /X26; case: ltnP => c; first by rewrite doApplyTE.
  rewrite /Tx (_ : (N2 - R1 = 0)%N); last by lia.
  by rewrite (_ : (0 - R3 = 0)%N) ?exch0 ?if_same //; lia.
have a2 : (M2 + R3 + R4 <= M)%N by lia.
have b2 : (N2 + R2 + R4 <= N)%N by lia.
have Slt k : (k < M)%N -> (Sx M2 R1 R2 R3 R4 k < M)%N by move=> kM; apply: Sx_lt.
have Tlt k : (k < N)%N -> (Tx N2 R1 R2 R3 R4 k < N)%N by move=> kM; apply: Tx_lt.
have mPE k : (k < M)%N -> mP3 k = rho M2 (sigma P1 0 M2) (sigma P2 0 (M2 - R1)) (sigma P3 0 M3) (sigma P4 0 (M3 - R3)) R1 R3 (Sx M2 R1 R2 R3 R4 k).
  move=> kM; have -> : mP3 k = mperm M M2 R1 R3 P1 P2 P3 P4 (Sx M2 R1 R2 R3 R4 k).
    rewrite /mP3; case: ltnP => c; first by rewrite PermApplySE.
    by rewrite /Sx (_ : (M2 - R1 - R2 = 0)%N) ?exch0 //; lia.
  by rewrite mpermE //; exact: Slt.
have mQE k : (k < N)%N -> mQ3 k = gam N2 (sigma Q1 0 N2) (sigma Q2 0 N3) (sigma Q3 0 (N2 - R1)) (sigma Q4 0 (N3 - R2)) R1 R2 (Tx N2 R1 R2 R3 R4 k).
  move=> kM; have -> : mQ3 k = mperm N N2 R1 R2 Q1 Q3 Q2 Q4 (Tx N2 R1 R2 R3 R4 k).
    rewrite /mQ3; case: ltnP => c; first by rewrite PermApplyTE.
    rewrite /Tx (_ : (N2 - R1 = 0)%N); last by lia.
    by rewrite (_ : (0 - R3 = 0)%N) ?exch0 //; lia.
  by rewrite mpermE //; exact: Tlt.
have pP : is_perm M (memo1 M mP3) by apply: perm_ext (f_s C) => x xM; rewrite memo1E mPE.
have pQ : is_perm N (memo1 N mQ3) by apply: perm_ext (f_u C) => x xM; rewrite memo1E mQE.
have [p1 [p2' _]] := math2lapackE id pP; have [q1 [q2 _]] := math2lapackE id pQ.
have sP x : (x < M)%N -> sigma (memo1 M (math2lapack id (memo1 M mP3) M)) 0 M x = mP3 x.
  by move=> xM; rewrite -(memo1E M mP3 x) -p2' //; apply: sigma_ext => k _; exact: memo1E.
have sQ x : (x < N)%N -> sigma (memo1 N (math2lapack id (memo1 N mQ3) N)) 0 N x = mQ3 x.
  by move=> xM; rewrite -(memo1E N mQ3 x) -q2 //; apply: sigma_ext => k _; exact: memo1E.
split=> /=.
- by move=> k kM; rewrite memo1E; exact: p1.
- by move=> k kM; rewrite memo1E; exact: q1.
- move=> k l kl; rewrite memoE.
  have Tge : (N <= l)%N -> Tx N2 R1 R2 R3 R4 l = l.
    by move=> lN; rewrite /Tx [exch (R1 + R2 + R3) _ _ _]exch_ge ?exch_ge //; lia.
  have Sge : (M <= k)%N -> Sx M2 R1 R2 R3 R4 k = k by move=> kM; rewrite /Sx exch_ge //; lia.
  have -> : X26 k l = X24 k l.
    rewrite e26; case: (ltnP k M) => kM; last by rewrite e25 Sge ?if_same.
    have lN : (N <= l)%N by lia.
    by rewrite Tge // e25 ifF //; lia.
  rewrite frE // qD; last by lia.
  rewrite frC // e10 ifF; last by lia.
  rewrite e9 ifF; last by lia.
  exact: frA.
- apply: (fac_ext C).
  + by move=> k l kM lN; rewrite memoE e26 kM e25 Tlt.
  + by move=> k kM; rewrite sP // mPE.
  + by move=> k kM; rewrite sQ // mQE.
Qed.

Lemma pluqS n M N A : pluq n.+1 bk d thr M N A =
    let stop := Pluq A id id in
    if minn M N == 0%N then stop 0%N
    else if maxn M N == 1%N then stop (if A 0%N 0%N == 0 then 0%N else 1%N)
    else if (minn M N < thr)%N then crout d M N A id id
    else
    let M2 := M./2 in let N2 := N./2 in
    let M3 := (M - M2)%N in let N3 := (N - N2)%N in
    let: Pluq X1 P1 Q1 R1 := pluq n bk d thr M2 N2 A in
    let X8 := phA d bk M N M2 N2 R1 P1 Q1 X1 in
    let: Pluq F2 P2 Q2 R2 := pluq n bk d thr (M2 - R1) N3 (sub R1 N2 X8) in
    let X9 := at_ R1 N2 (fun=> F2) X8 in
    let: Pluq G3 P3 Q3 R3 := pluq n bk d thr M3 (N2 - R1) (sub M2 R1 X9) in
    let X10 := memo M N (at_ M2 R1 (fun=> G3) X9) in
    pluq_end (pluq n bk d thr) bk d M N M2 N2 P1 Q1 R1 P2 Q2 R2 P3 Q3 R3 X10.
Proof. by []. Qed.

Lemma pluq_rec_ok n M N A : (M + N < n)%N -> pluq_ok M N A (pluq n bk d thr M N A).
Proof.
elim: n M N A => // n IH M N A; rewrite ltnS => fuel; rewrite pluqS; cbv zeta.
have nodiv q : is_lapack q id by move=> i iq; rewrite leqnn.
have sid q x : sigma id 0 q x = x.
  by rewrite /sigma subn0; elim: (iota 0 q) => //= a s ->; rewrite /transpose_ij; repeat case: eqP => //.
case: eqP => mn0.
  split=> //=; split=> //; try lia.
  - by apply: sigma_perm.
  - by apply: sigma_perm.
  - by move=> _ i j ij jM; rewrite !sid; lia.
  - by move=> _ i j ij jM; rewrite !sid; lia.
case: eqP => mx1.
  have M1 : M = 1%N by lia.
  have N1 : N = 1%N by lia.
  subst M N; split=> //=; case: (eqVneq (A 0%N 0%N) 0) => a0; split=> //; try by apply: sigma_perm.
  - by move=> [|k] [|l].
  - by move=> [|k] [|l] //; rewrite !sid.
  - by move=> _ i j; lia.
  - by move=> _ i j; lia.
  - by case.
  - by move=> k l; lia.
  - move=> [|k] [|l] // _ _; rewrite !sid /= /Lo /Up /= add0r; case: (d); rewrite ?mulr1 ?mul1r //.
  - by move=> _ [|k] [|t] //; rewrite !sid.
  - by move=> _ [|k] [|t] //; rewrite !sid.
  - by move=> _ i j; lia.
  - by move=> _ i j; lia.
case: ltnP => thrN; first exact: crout_ok.
set M2 := M./2; set N2 := N./2.
have M2M : (M2 <= M)%N by rewrite /M2; lia.
have N2N : (N2 <= N)%N by rewrite /N2; lia.
have f1 : (M2 + N2 < n)%N by rewrite /M2 /N2; lia.
have f2 R : (M2 - R + (N - N2) < n)%N by rewrite /M2 /N2; lia.
have f3 R : (M - M2 + (N2 - R) < n)%N by rewrite /M2 /N2; lia.
have f4 R R' : (M - M2 - R + (N - N2 - R') < n)%N by rewrite /M2 /N2; lia.
clearbody M2 N2.
have := IH _ _ A f1; case: (pluq n bk d thr M2 N2 A) => X1 P1 Q1 R1 [/= lP1 lQ1 fr1 h1].
have [[frA qA] [hD hE] hF hG hH] := phaseA bk0 M2M N2N lP1 lQ1 fr1 h1.
set X8 := phA _ _ _ _ _ _ _ _ _ _ in frA qA hD hE hF hG hH *.
have R1M := f_RM h1; have R1N := f_RN h1.
have := IH _ _ (sub R1 N2 X8) (f2 R1).
case: (pluq n bk d thr (M2 - R1) (N - N2) _) => x2 P2 Q2 R2 [/= lP2 lQ2 fr2 h2].
set X9 := at_ R1 N2 _ X8.
have := IH _ _ (sub M2 R1 X9) (f3 R1).
case: (pluq n bk d thr (M - M2) (N2 - R1) _) => x3 P3 Q3 R3 [/= lP3 lQ3 fr3 h3].
set X10 := memo M N _.
have R2M := f_RM h2; have R2N := f_RN h2; have R3M := f_RM h3; have R3N := f_RN h3.
have e9 k l : X9 k l = if ((R1 <= k < M2) && (N2 <= l < N))%N then x2 (k - R1)%N (l - N2)%N else X8 k l.
  by rewrite /X9 (atK _ _ fr2) !subnKC.
have e10 k l : X10 k l = if ((M2 <= k < M) && (R1 <= l < N2))%N then x3 (k - M2)%N (l - R1)%N else X9 k l.
  by rewrite /X10 memoE (atK _ _ fr3) !subnKC.
apply: (@pluq_end_ok true _ M N M2 N2 A X1 P1 Q1 R1 X8 (sub R1 N2 X8) x2 P2 Q2 R2 (sub M2 R1 X9) x3 P3 Q3 R3) => //.
- move=> k l kM lN; rewrite /sub e9 ifF; last by lia.
  exact: hG.
- by move=> k l; rewrite e10 e9.
- by move=> X; apply: IH; exact: f4.
Qed.

Theorem PLUQ_ok M N A : pluq_ok M N A (PLUQ bk d thr M N A).
Proof. by rewrite /PLUQ; apply: pluq_rec_ok. Qed.

End Main.
