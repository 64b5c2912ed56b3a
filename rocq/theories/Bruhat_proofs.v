(** * LTBruhatGen computes a Bruhat generator *)
From mathcomp Require Import all_ssreflect all_algebra zify ring.
From Verif Require Import Grid Perm_model Perm_spec Perm_proofs Tri_model Tri_spec Tri_proofs.
From Verif Require Import Pluq_model Pluq_spec Pluq_idx Pluq_combine Pluq_crout Pluq_proofs Pluq_main.
From Verif Require Import Bruhat_model Bruhat_spec Bruhat_combine.
Set Implicit Arguments.
Unset Strict Implicit.
Unset Printing Implicit Defensive.
Import GRing.Theory.
Local Open Scope ring_scope.

Section Rec.
Variable F : fieldType.
Implicit Types A X : grid F.
Variables (d : diag) (thr bk : nat).
Hypothesis bk0 : (0 < bk)%N.

Lemma schur_phA n1 n2 r1 P1 Q1 X k l : ~~ ((n1 <= k < n1 + n2) && (n2 <= l < n1 + n2))%N ->
  br_schur d bk n1 n2 r1 P1 Q1 X k l = phA d bk (n1 + n2) (n1 + n2) n1 n2 r1 P1 Q1 X k l.
Proof.
move=> kl; rewrite /br_schur /phA !memoE addnK addKn.
set X7 := at_ n1 r1 _ _; rewrite gemmW ifF //; lia.
Qed.

Lemma schur_low n1 n2 r1 P1 Q1 X k l : (r1 <= n1)%N -> (r1 <= n2)%N -> (n1 <= k)%N -> (n2 <= l)%N -> is_lapack n1 P1 -> is_lapack n2 Q1 ->
  (forall t, (t < r1)%N -> X t t != 0) -> br_schur d bk n1 n2 r1 P1 Q1 X k l = X k l.
Proof.
move=> rn1 rn2 kn ln lP lQ piv; rewrite /br_schur memoE gemmW ifF; last by lia.
rewrite gemmW ifF; last by lia.
rewrite memoE.
set X3 := memo _ _ (at_ n1 0 _ (at_ 0 n2 _ X)).
have X3E k' l' : X3 k' l' = (if (n1 <= k' < n1 + n2)%N then
    (if (n2 <= sigma Q1 0 n2 l' < n1 + n2)%N then X (sigma P1 0 n1 k') (sigma Q1 0 n2 l') else X k' (sigma Q1 0 n2 l'))
    else (if (n2 <= l' < n1 + n2)%N then X (sigma P1 0 n1 k') l' else X k' l')).
  by rewrite /X3 memoE applyR // subn0 add0n andbT !applyL // !subn0 !add0n /= (addnC n2).
have [] : frame r1 n1 (ftrsm SLeft Lower NoTrans (odiag d) r1 n1 1 X3 (sub 0 n2 X3)) (sub 0 n2 X3) /\ True.
  split=> //; apply: (proj1 (@trsmL F d r1 n1 X3 (sub 0 n2 X3) _)) => t tr.
  by rewrite X3E ifF ?ifF ?piv //; lia.
set X4 := at_ 0 n2 _ X3 => fr4 _.
have p4 t : (t < r1)%N -> X4 t t != 0.
  by move=> tr; rewrite /X4 (@atW _ 0 n2 r1 n1) // ?X3E ?ifF ?ifF ?piv //; lia.
rewrite (@atW _ n1 0 n2 r1); [|exact: (proj1 (@trsmR F d n2 r1 X4 (sub n1 0 X4) p4))|lia].
rewrite /X4 (@atW _ 0 n2 r1 n1) //; last by lia.
by rewrite X3E !(lapack_ge lP) ?(lapack_ge lQ) //; case: ifP => _; case: ifP.
Qed.

Lemma lapackV_ge n P k : is_lapack n P -> (n <= k)%N -> sigmaV P 0 n k = k.
Proof. by move=> lP kn; rewrite -{1}(lapack_ge lP kn) sigmaK. Qed.

Lemma applyLT p q m n P X k l : at_ p q (applyP bk SLeft Trans n 0 m P) X k l =
  if ((p <= k) && (q <= l < q + n))%N then X (p + sigmaV P 0 m (k - p))%N l else X k l.
Proof.
rewrite /at_; case E1 : ((p <= k) && (q <= l))%N; last by rewrite ifF //; lia.
case/andP: E1 => h1 h2; rewrite applyPE //= /sub h1 h2 /= (subnKC h1) (subnKC h2).
by have -> : (l - q < n)%N = (l < q + n)%N by lia.
Qed.

Lemma applyRN p q m n P X k l : at_ p q (applyP bk SRight NoTrans m 0 n P) X k l =
  if ((p <= k < p + m) && (q <= l))%N then X k (q + sigmaV P 0 n (l - q))%N else X k l.
Proof.
rewrite /at_; case E1 : ((p <= k) && (q <= l))%N; last by rewrite ifF //; lia.
case/andP: E1 => h1 h2; rewrite applyPE //= /sub h1 h2 /= (subnKC h1) (subnKC h2) andbT.
by have -> : (k - p < m)%N = (k < p + m)%N by lia.
Qed.

Lemma zeroW p q m n X k l : at_ p q (@fzero F m n) X k l =
  if ((p <= k < p + m) && (q <= l < q + n))%N then 0 else X k l.
Proof.
rewrite /at_ /fzero /fill; case E1 : ((p <= k) && (q <= l))%N; last by rewrite ifF //; lia.
have -> : ((k - p < m) && (l - q < n))%N = ((p <= k < p + m) && (q <= l < q + n))%N by lia.
by case: ifP => // _; rewrite /sub !subnKC //; lia.
Qed.

Lemma expandE n1 n2 r1 P1 Q1 X7 : is_lapack n1 P1 -> is_lapack n2 Q1 -> (r1 <= n1)%N -> (r1 <= n2)%N ->
  let X := br_expand bk n1 n2 r1 P1 Q1 X7 in let s := sigma P1 0 n1 in let u := sigma Q1 0 n2 in
  [/\ forall k l, (k < n1)%N -> (l < n2)%N -> X (s k) (u l) = X7 k l,
      forall k j, (k < n1)%N -> (j < n1)%N -> X (s k) (n2 + j)%N = if (k < r1)%N then 0 else X7 k (n2 + j)%N,
      forall i l, (i < n2)%N -> (l < n2)%N -> X (n1 + i)%N (u l) = if (l < r1)%N then 0 else X7 (n1 + i)%N l,
      forall i j, (n1 <= i)%N -> (n2 <= j)%N -> X i j = X7 i j &
      frame (n1 + n2) (n1 + n2) X X7].
Proof.
move=> lP lQ rn1 rn2 X s u.
have slt k : (k < n1)%N -> (s k < n1)%N by move=> kn; apply: lapack_lt.
have ult k : (k < n2)%N -> (u k < n2)%N by move=> kn; apply: lapack_lt.
split.
- move=> k l kn ln; have := slt _ kn; have := ult _ ln => ul sk.
  rewrite /X /br_expand memoE applyRN ifF; last by lia.
  rewrite applyLT ifF; last by lia.
  rewrite !zeroW !ifF; try lia.
  by rewrite memoE applyPE // /applyP_entry sk sigmaK applyPE // /applyP_entry ln sigmaK.
- move=> k j kn jn; have sk := slt _ kn.
  rewrite /X /br_expand memoE applyRN ifF; last by lia.
  rewrite applyLT ifT; last by lia.
  rewrite subn0 add0n sigmaK !zeroW ifF; last by lia.
  case kr : (k < r1)%N; first by rewrite ifT //; lia.
  rewrite !andbF ?andFb.
  by rewrite memoE applyPE // /applyP_entry kn (lapackV_ge lQ) ?leq_addr // applyPE // /applyP_entry ifF //; lia.
- move=> i l iN ln; have ul := ult _ ln.
  rewrite /X /br_expand memoE applyRN ifT; last by lia.
  rewrite subn0 add0n sigmaK applyLT ifF; last by lia.
  rewrite zeroW; case kr : (l < r1)%N; first by rewrite ifT //; lia.
  rewrite !andbF ?andFb.
  rewrite zeroW ifF; last by lia.
  rewrite memoE applyPE // /applyP_entry ifF; last by lia.
  by rewrite applyPE // /applyP_entry ln (lapackV_ge lP) ?leq_addr.
- move=> i j iN jn; rewrite /X /br_expand memoE applyRN subn0 add0n (lapackV_ge lQ) // if_same.
  rewrite applyLT subn0 add0n (lapackV_ge lP) // if_same !zeroW !ifF; try lia.
  by rewrite memoE applyPE // /applyP_entry ifF ?applyPE // ?/applyP_entry ?ifF //; lia.
- move=> i j ij; rewrite /X /br_expand memoE applyRN subn0 add0n andbT.
  case: (ltnP i (n1 + n2)) => iN.
    rewrite (lapackV_ge lQ) ?if_same; last by lia.
    rewrite applyLT ifF; last by lia.
    rewrite !zeroW !ifF; try lia.
    by rewrite memoE applyPE // /applyP_entry (lapackV_ge lQ) ?if_same ?applyPE // ?/applyP_entry ?ifF //; lia.
  rewrite andbF applyLT subn0 add0n (lapackV_ge lP) ?if_same; last by lia.
  rewrite !zeroW !ifF; try lia.
  rewrite memoE applyPE // /applyP_entry ifF; last by lia.
  by rewrite applyPE // /applyP_entry (lapackV_ge lP) ?if_same //; lia.
Qed.

Lemma restoreD_hit n1 n2 r P D X k j : (forall i i', (i < r)%N -> (i' < r)%N -> P i = P i' -> i = i') ->
  (k < r)%N -> (P k + j + 1 < n1)%N -> br_restoreD n1 n2 r P D X (P k) (n2 + j)%N = D k j.
Proof.
rewrite /br_restoreD; elim: r => // r IH Pi kr h; rewrite iteriS.
move: kr; rewrite ltnS leq_eqVlt => /orP[/eqP e|kr].
  by rewrite e in h *; rewrite /at_ leqnn leq_addr /fill subnn addKn /= ifT //; lia.
rewrite (@atW _ (P r) n2 1 (n1 - 1 - P r)); first by apply: IH => // i i' ir ir'; apply: Pi; lia.
- by move=> i c ic; rewrite /fill ifF //; lia.
- by apply/negP => /andP[e _]; have := @Pi k r; lia.
Qed.

Lemma restoreD_miss n1 n2 r P D X i c :
  (forall k, (k < r)%N -> P k != i) \/ ~~ (n2 <= c < n2 + n1)%N -> br_restoreD n1 n2 r P D X i c = X i c.
Proof.
rewrite /br_restoreD; elim: r => // r IH h; rewrite iteriS.
rewrite (@atW _ (P r) n2 1 (n1 - 1 - P r)); first by apply: IH; case: h => h; [left=> k kr; apply: h; lia|right].
- by move=> x y xy; rewrite /fill ifF //; lia.
- by case: h => [/(_ r)|]; lia.
Qed.

Lemma restoreE_hit n1 n2 r Q E X k i : (forall i i', (i < r)%N -> (i' < r)%N -> Q i = Q i' -> i = i') ->
  (k < r)%N -> (i + Q k + 1 < n2)%N -> br_restoreE n1 n2 r Q E X (n1 + i)%N (Q k) = E i k.
Proof.
rewrite /br_restoreE; elim: r => // r IH Qi kr h; rewrite iteriS.
move: kr; rewrite ltnS leq_eqVlt => /orP[/eqP e|kr].
  by rewrite e in h *; rewrite /at_ leqnn leq_addr /fill subnn addKn /= ifT //; lia.
rewrite (@atW _ n1 (Q r) (n2 - 1 - Q r) 1); first by apply: IH => // j j' jr jr'; apply: Qi; lia.
- by move=> j c jc; rewrite /fill ifF //; lia.
- by apply/negP => /andP[_ e]; have := @Qi k r; lia.
Qed.

Lemma restoreE_miss n1 n2 r Q E X i c :
  (forall k, (k < r)%N -> Q k != c) \/ ~~ (n1 <= i < n1 + n2)%N -> br_restoreE n1 n2 r Q E X i c = X i c.
Proof.
rewrite /br_restoreE; elim: r => // r IH h; rewrite iteriS.
rewrite (@atW _ n1 (Q r) (n2 - 1 - Q r) 1); first by apply: IH; case: h => h; [left=> k kr; apply: h; lia|right].
- by move=> x y xy; rewrite /fill ifF //; lia.
- by case: h => [/(_ r)|]; lia.
Qed.

Lemma shiftE a r b Q x : br_shift a r b Q x = if (a <= x < a + r)%N then (Q x + b)%N else Q x.
Proof.
rewrite /br_shift; elim: r x => [|r IH] x; first by rewrite addn0 ifF //=; lia.
rewrite iteriS /upd1 !IH; case: eqP => [->|ne].
  by rewrite ifF ?ifT //; lia.
by have -> : (a <= x < a + r.+1)%N = (a <= x < a + r)%N by lia.
Qed.

Lemma inj_leq r n (f : nat -> nat) : (forall k, (k < r)%N -> (f k < n)%N) ->
  (forall j k, (j < r)%N -> (k < r)%N -> f j = f k -> j = k) -> (r <= n)%N.
Proof.
move=> h1 h2.
have U : uniq (map f (iota 0 r)).
  by rewrite map_inj_in_uniq ?iota_uniq // => j k; rewrite !mem_iota !add0n; exact: h2.
have := uniq_leq_size U (_ : {subset _ <= iota 0 n}); rewrite size_map !size_iota; apply.
by move=> x /mapP[k]; rewrite !mem_iota !add0n => kr ->; exact: h1.
Qed.

Definition bru_ok N A (P Q : nat -> nat) (st : bruhat_res F) : Prop :=
  [/\ bru d N A (brA st) (brP st) (brQ st) (brR st), frame N N (brA st) A,
      forall x, (N <= x)%N -> brP st x = P x & forall x, (N <= x)%N -> brQ st x = Q x].

Lemma ltbruhatS n N A P Q : ltbruhat n.+1 bk d thr N A P Q =
    if N == 1%N then Some (Bruhat (upd A 0 0 0) P Q 0)
    else
      let N2 := N./2 in
      let N1 := (N - N2)%N in
      let: Pluq X1 P1 Q1 r1 := PLUQ bk d thr N1 N2 A in
      let P := lapack2math P P1 N1 in
      let Q := lapack2math Q Q1 N2 in
      let X7 := br_schur d bk N1 N2 r1 P1 Q1 X1 in
      let D := memo r1 N1 (sub 0 N2 X7) in
      let E := memo N2 r1 (sub N1 0 X7) in
      let X := br_expand bk N1 N2 r1 P1 Q1 X7 in
      if ltbruhat n bk d thr N1 (sub 0 N2 X) (fun i => P (r1 + i)%N) (fun i => Q (r1 + i)%N)
        is Some (Bruhat X2 P2 Q2 r2) then
        let X := at_ 0 N2 (fun=> X2) X in
        let P := at1 r1 (fun=> P2) P in
        let Q := br_shift r1 r2 N2 (at1 r1 (fun=> Q2) Q) in
        let X := memo N N (br_restoreD N1 N2 r1 P D X) in
        if ltbruhat n bk d thr N2 (sub N1 0 X) (fun i => P (r1 + r2 + i)%N) (fun i => Q (r1 + r2 + i)%N)
          is Some (Bruhat X3 P3 Q3 r3) then
          let X := at_ N1 0 (fun=> X3) X in
          let P := memo1 (r1 + r2 + r3) (br_shift (r1 + r2) r3 N1 (at1 (r1 + r2) (fun=> P3) P)) in
          let Q := memo1 (r1 + r2 + r3) (at1 (r1 + r2) (fun=> Q3) Q) in
          Some (Bruhat (memo N N (br_restoreE N1 N2 r1 Q E X)) P Q (r1 + r2 + r3))
        else None
      else None.
Proof. by []. Qed.

Lemma at1E a (p q : nat -> nat) x : at1 a (fun=> q) p x = if (a <= x)%N then q (x - a)%N else p x.
Proof. by []. Qed.

Lemma bru_base A P Q : bru_ok 1 A P Q (Bruhat (upd A 0 0 0) P Q 0).
Proof.
split=> //; first by split=> // i j; lia.
by move=> i j ij; rewrite /= /upd ifF //; lia.
Qed.

Lemma ltbruhat_ok n N A P Q : (0 < N < n)%N -> exists st, ltbruhat n bk d thr N A P Q = Some st /\ bru_ok N A P Q st.
Proof.
elim: n N A P Q => [|n IH] N A P0 Q0 Nn; first by lia.
rewrite ltbruhatS.
case: (N =P 1%N) => [->|N1']; first by eexists; split; [reflexivity|exact: bru_base].
cbv zeta; set n2 := N./2; set n1 := (N - n2)%N.
have hN : N = (n1 + n2)%N by rewrite /n1 /n2; lia.
have h20 : (0 < n2 < n)%N by rewrite /n2; lia.
have h10 : (0 < n1 < n)%N by rewrite /n1 /n2; lia.
have := PLUQ_ok d thr bk0 n1 n2 A.
case: (PLUQ bk d thr n1 n2 A) => x P1 Q1 r1 [/= lP lQ fr h1].
set s := sigma P1 0 n1; set u := sigma Q1 0 n2.
have r1n1 : (r1 <= n1)%N := f_RM h1.
have r1n2 : (r1 <= n2)%N := f_RN h1.
set P := lapack2math P0 P1 n1; set Q := lapack2math Q0 Q1 n2.
have lP' i : (i < n1)%N -> (P1 i < n1)%N by move=> h; have := lP i; lia.
have lQ' i : (i < n2)%N -> (Q1 i < n2)%N by move=> h; have := lQ i; lia.
have PE y : P y = if (y < n1)%N then s y else P0 y by apply: lapack2mathE.
have QE y : Q y = if (y < n2)%N then u y else Q0 y by apply: lapack2mathE.
set X7 := br_schur _ _ _ _ _ _ _ _.
have X7A k l : ~~ ((n1 <= k < N) && (n2 <= l < N))%N -> X7 k l = phA d bk N N n1 n2 r1 P1 Q1 x k l.
  by rewrite {1 2 3 4}hN; apply: schur_phA.
have n1N : (n1 <= N)%N by lia. have n2N : (n2 <= N)%N by lia.
have := @phaseA F d bk bk0 true N N n1 n2 A x P1 Q1 r1 n1N n2N lP lQ fr h1.
have -> : (N - n1 = n2)%N by lia. have -> : (N - n2 = n1)%N by [].
case=> -[fr7 qA] [eD eE] eF eG _.
have X7f : frame N N X7 A.
  move=> i j ij; case: (boolP ((n1 <= i) && (n2 <= j))%N) => h; last by rewrite X7A ?fr7 //; lia.
  rewrite /X7 schur_low ?fr //; try lia.
  exact: (f_piv h1).
set D := memo r1 n1 _; set E := memo n2 r1 _.
have DE t j : (t < r1)%N -> (j < n1)%N -> D t j = phA d bk N N n1 n2 r1 P1 Q1 x t (n2 + j)%N.
  by move=> tr jn; rewrite /D memoE /sub add0n X7A //; lia.
have EE i t : (i < n2)%N -> (t < r1)%N -> E i t = phA d bk N N n1 n2 r1 P1 Q1 x (n1 + i)%N t.
  by move=> tr jn; rewrite /E memoE /sub add0n X7A //; lia.
set X := br_expand _ _ _ _ _ _ _.
have [e1 e2 e3 e4 frX] := expandE X7 lP lQ r1n1 r1n2; rewrite -/X -/s -/u -hN in e1 e2 e3 e4 frX.
have [st2 [E2 ]] := IH n1 (sub 0 n2 X) (fun i => P (r1 + i)%N) (fun i => Q (r1 + i)%N) h10.
rewrite E2 => {E2}; case: st2 => X2 P2 Q2 r2 [/= b2 fr2 oP2 oQ2].
set P' := at1 r1 _ P; set Q' := br_shift r1 r2 n2 _.
set Y := memo N N (br_restoreD _ _ _ _ _ _).
have [st3 [E3 ]] := IH n2 (sub n1 0 Y) (fun i => P' (r1 + r2 + i)%N) (fun i => Q' (r1 + r2 + i)%N) h20.
rewrite E3 => {E3}; case: st3 => X3 P3 Q3 r3 [/= b3 fr3 oP3 oQ3].
eexists; split; first by reflexivity.
set Pf := memo1 _ (br_shift _ _ _ _); set Qf := memo1 _ (at1 _ _ _).
have P'E k : P' k = if (k < r1)%N then s k else P2 (k - r1)%N.
  by rewrite /P' at1E leqNgt; case: ltnP => kr //=; rewrite PE ifT //; lia.
have Q'E k : Q' k = if (k < r1)%N then u k else if (k < r1 + r2)%N then (n2 + Q2 (k - r1))%N else Q2 (k - r1)%N.
  rewrite /Q' shiftE at1E; case: (ltnP k r1) => kr /=; first by rewrite QE ifT //; lia.
  by case: ifP => //; lia.
have PfE k : Pf k = if (k < r1 + r2)%N then P' k else if (k < r1 + r2 + r3)%N then (n1 + P3 (k - (r1 + r2)))%N else P3 (k - (r1 + r2))%N.
  rewrite /Pf memo1E shiftE at1E; case: (ltnP k (r1 + r2)) => kr /=; first by [].
  by case: ifP => //; lia.
have QfE k : Qf k = if (k < r1 + r2)%N then Q' k else Q3 (k - (r1 + r2))%N.
  by rewrite /Qf memo1E at1E leqNgt; case: ltnP.
have slt k : (k < n1)%N -> (s k < n1)%N by apply: (f_s h1).1.
have ult k : (k < n2)%N -> (u k < n2)%N by apply: (f_u h1).1.
have sin j k : (j < n1)%N -> (k < n1)%N -> s j = s k -> j = k by apply: (f_s h1).2.
have uin j k : (j < n2)%N -> (k < n2)%N -> u j = u k -> j = k by apply: (f_u h1).2.
have P'1 k : (k < r1)%N -> P' k = s k by move=> kr; rewrite P'E kr.
have Q'1 k : (k < r1)%N -> Qf k = u k by move=> kr; rewrite QfE ifT ?Q'E ?kr //; lia.
have iP i i' : (i < r1)%N -> (i' < r1)%N -> P' i = P' i' -> i = i'.
  by move=> ir ir'; rewrite !P'1 //; apply: sin; lia.
have iQ i i' : (i < r1)%N -> (i' < r1)%N -> Qf i = Qf i' -> i = i'.
  by move=> ir ir'; rewrite !Q'1 //; apply: uin; lia.
(* the second quadrant *)
have hH k j : (k < r1)%N -> (j < n1)%N -> sub 0 n2 X (s k) j = 0.
  by move=> kr jn; rewrite /sub add0n e2 ?kr //; lia.
have Y0 i j : (i < n1)%N -> (j < n2)%N -> Y i j = X i j.
  by move=> iN jn; rewrite /Y memoE restoreD_miss ?at_out ?jn ?orbT //; right; lia.
have YD k j : (k < r1)%N -> (s k + j + 1 < n1)%N -> Y (s k) (n2 + j)%N = D k j.
  by move=> kr h; rewrite /Y memoE -P'1 // restoreD_hit // P'1.
have Y2 k j : (r1 <= k < n1)%N -> (s k + j + 1 < n1)%N -> Y (s k) (n2 + j)%N = X2 (s k) j.
  move=> kr h; rewrite /Y memoE restoreD_miss.
    by rewrite /at_ leq_addr subn0 addKn.
  by left=> t tr; rewrite P'1 //; apply/eqP => e; have := sin t k; lia.
have Y3 i j : (n1 <= i)%N -> (j < n2)%N -> Y i j = X i j.
  by move=> iN jn; rewrite /Y memoE restoreD_miss ?at_out ?jn ?orbT //; right; lia.
have hI i l : (i < n2)%N -> (l < r1)%N -> sub n1 0 Y i (u l) = 0.
  move=> iN lr; have ul := ult l; rewrite /sub add0n Y3 ?leq_addr ?e3 ?lr //; lia.
set Z := memo N N _.
have Z0 i j : (i < n1)%N -> Z i j = Y i j.
  by move=> iN; rewrite /Z memoE restoreE_miss ?at_out ?iN //; right; lia.
have ZE i k : (k < r1)%N -> (i + u k + 1 < n2)%N -> Z (n1 + i)%N (u k) = E i k.
  by move=> kr h; rewrite /Z memoE -Q'1 // restoreE_hit // Q'1.
have Z3 i l : (r1 <= l < n2)%N -> (i + u l + 1 < n2)%N -> Z (n1 + i)%N (u l) = X3 i (u l).
  move=> kr h; rewrite /Z memoE restoreE_miss.
    by rewrite /at_ leq_addr subn0 addKn.
  by left=> t tr; rewrite Q'1 //; apply/eqP => e; have := uin t l; lia.
have Pf2 k : (k < r2)%N -> Pf (r1 + k)%N = P2 k.
  by move=> kr; rewrite PfE ifT ?P'E ?ifF ?addKn //; lia.
have B : bru d N A Z Pf Qf (r1 + r2 + r3).
  rewrite hN; apply: (@bru_combine F d n1 n2 A x D E (sub 0 n2 X) (sub n1 0 Y) X2 X3 Z s u P2 Q2 P3 Q3 Pf Qf r1 r2 r3) => //.
  - move=> k j kn jn; rewrite /sub add0n e2 //; case: (ltnP k r1) => kr.
      rewrite addr0 -eD //; rewrite -?[RHS](eq_rsum) //.
      by apply: eq_rsum => t tr; rewrite DE.
    rewrite X7A; last by lia.
    have := eF (k - r1)%N j; rewrite subnKC // => -> //; last by lia.
    rewrite addrC; apply/esym; rewrite (@eq_rsum _ r1 _ (fun t => x k t * phA d bk N N n1 n2 r1 P1 Q1 x t (n2 + j)%N)) ?subrK //.
    by move=> t tr; rewrite DE // /Lo ifT //; lia.
  - move=> i l iN ln; have ul := ult l ln; rewrite /sub add0n Y3 ?leq_addr // e3 //; case: (ltnP l r1) => lr.
      rewrite addr0 -eE //.
      by apply: eq_rsum => t tr; rewrite EE.
    rewrite X7A; last by lia.
    have := eG i (l - r1)%N; rewrite subnKC // => -> //; last by lia.
    rewrite addrC; apply/esym; rewrite (@eq_rsum _ r1 _ (fun t => phA d bk N N n1 n2 r1 P1 Q1 x (n1 + i)%N t * x t l)) ?subrK //.
    by move=> t tr; rewrite EE // /Up ifT //; lia.
  - by move=> k l kn ln; rewrite Z0 ?Y0 ?e1 ?X7A ?qA //; [lia|apply: slt|apply: ult|apply: slt].
  - by move=> k j kr h; rewrite Z0 ?YD //; apply: slt; lia.
  - by move=> k j kr h; rewrite Z0 ?Y2 //; apply: slt; lia.
  - by move=> k kr; rewrite PfE ifT ?P'1 //; lia.
  - move=> k kr; rewrite QfE ifT ?Q'E; last by lia.
    rewrite ifF; last by lia.
    by rewrite ifT ?addKn //; lia.
  - by move=> k kr; rewrite PfE ifF ?ifT ?addKn //; lia.
  - by move=> k kr; rewrite QfE ifF ?addKn //; lia.
have r12 : (r1 + r2 <= n1)%N.
  apply: (@inj_leq _ _ Pf).
    move=> k kr; rewrite PfE kr P'E; case: ifP => kr1; first by apply: slt; lia.
    by have := @b_lt _ _ _ _ _ _ _ _ b2 (k - r1)%N; lia.
  by move=> j k jr kr; apply: (b_P B); lia.
have frY : frame N N Y A.
  move=> i j ij; rewrite /Y memoE restoreD_miss; last first.
    case: (ltnP i N) => iN; first by right; lia.
    left=> k kr; rewrite P'1 //; have := slt k; lia.
  by rewrite (@atK _ 0 n2 n1 n1) // ifF ?frX ?X7f //; lia.
split=> //=.
- move=> i j ij; rewrite /Z memoE restoreE_miss; last first.
    case: (ltnP j N) => jN; first by right; lia.
    left=> k kr; rewrite Q'1 //; have := ult k; lia.
  by rewrite (@atK _ n1 0 n2 n2) // ifF ?frY //; lia.
- have B3 : (r1 + r2 + r3 <= N)%N.
    by apply: (@inj_leq _ _ Pf) (b_P B) => k kr; have := b_lt B kr; lia.
  move=> y yN; rewrite PfE ifF ?ifF; try lia.
  rewrite oP3; last by lia.
  rewrite P'E ifF; last by lia.
  rewrite oP2; last by lia.
  rewrite PE ifF; last by lia.
  by congr P0; lia.
- move=> y yN; rewrite QfE ifF; last by lia.
  rewrite oQ3; last by lia.
  rewrite Q'E ifF ?ifF; try lia.
  rewrite oQ2; last by lia.
  rewrite QE ifF; last by lia.
  by congr Q0; lia.
Qed.

End Rec.
