(** * The algebra of the recursion of LTBruhatGen *)
From mathcomp Require Import all_ssreflect all_algebra zify ring.
From Verif Require Import Grid Perm_model Perm_spec Perm_proofs Tri_model Tri_spec Tri_proofs.
From Verif Require Import Pluq_model Pluq_spec Pluq_idx Pluq_combine Pluq_rank Bruhat_spec.
Set Implicit Arguments.
Unset Strict Implicit.
Unset Printing Implicit Defensive.
Import GRing.Theory.
Local Open Scope ring_scope.

Section Comb.
Variable F : fieldType.
Implicit Types A X : grid F.

Lemma is_perm_surj n s x : is_perm n s -> (x < n)%N -> exists t, (t < n)%N /\ s t = x.
Proof. by move=> /perm_inv[t [[ht _] h _]] xn; exists (t x); split; [exact: ht|exact: h]. Qed.

Record bru (d : diag) (N : nat) A X (P Q : nat -> nat) (r : nat) : Prop := Bru {
  b_lt : forall k, (k < r)%N -> (P k + Q k + 1 < N)%N;
  b_P : forall j k, (j < r)%N -> (k < r)%N -> P j = P k -> j = k;
  b_Q : forall j k, (j < r)%N -> (k < r)%N -> Q j = Q k -> j = k;
  b_piv : forall k, (k < r)%N -> X (P k) (Q k) != 0;
  b_row : forall i, (i < N)%N -> (forall j, (j < N)%N -> A i j = 0) -> forall k, (k < r)%N -> P k != i;
  b_col : forall j, (j < N)%N -> (forall i, (i < N)%N -> A i j = 0) -> forall k, (k < r)%N -> Q k != j;
  b_law : forall i j, (i + j + 1 < N)%N ->
    A i j = rsum r (fun k => Lb (odiag d) N P Q X i k * Ub d N P Q X k j) }.

Variables (d : diag) (n1 n2 : nat).
Let N := (n1 + n2)%N.
Variables (A x D E H I X2 X3 Y : grid F).
Variables (s u P2 Q2 P3 Q3 P Q : nat -> nat) (r1 r2 r3 : nat).
Hypothesis h1 : fac d n1 n2 A x s u r1.
Hypothesis hD : forall k j, (k < n1)%N -> (j < n1)%N ->
  A (s k) (n2 + j)%N = rsum r1 (fun t => Lo d x k t * D t j) + H (s k) j.
Hypothesis hH : forall k j, (k < r1)%N -> (j < n1)%N -> H (s k) j = 0.
Hypothesis hE : forall i l, (i < n2)%N -> (l < n2)%N ->
  A (n1 + i)%N (u l) = rsum r1 (fun t => E i t * Up d x t l) + I i (u l).
Hypothesis hI : forall i l, (i < n2)%N -> (l < r1)%N -> I i (u l) = 0.
Hypothesis b2 : bru d n1 H X2 P2 Q2 r2.
Hypothesis b3 : bru d n2 I X3 P3 Q3 r3.
Hypothesis hY1 : forall k l, (k < n1)%N -> (l < n2)%N -> Y (s k) (u l) = x k l.
Hypothesis hYD : forall k j, (k < r1)%N -> (s k + j + 1 < n1)%N -> Y (s k) (n2 + j)%N = D k j.
Hypothesis hY2 : forall k j, (r1 <= k < n1)%N -> (s k + j + 1 < n1)%N -> Y (s k) (n2 + j)%N = X2 (s k) j.
Hypothesis hYE : forall i k, (k < r1)%N -> (i + u k + 1 < n2)%N -> Y (n1 + i)%N (u k) = E i k.
Hypothesis hY3 : forall i l, (r1 <= l < n2)%N -> (i + u l + 1 < n2)%N -> Y (n1 + i)%N (u l) = X3 i (u l).
Hypothesis hP1 : forall k, (k < r1)%N -> P k = s k.
Hypothesis hQ1 : forall k, (k < r1)%N -> Q k = u k.
Hypothesis hP2 : forall k, (k < r2)%N -> P (r1 + k)%N = P2 k.
Hypothesis hQ2 : forall k, (k < r2)%N -> Q (r1 + k)%N = (n2 + Q2 k)%N.
Hypothesis hP3 : forall k, (k < r3)%N -> P (r1 + r2 + k)%N = (n1 + P3 k)%N.
Hypothesis hQ3 : forall k, (k < r3)%N -> Q (r1 + r2 + k)%N = Q3 k.

Let r1n1 : (r1 <= n1)%N := f_RM h1.
Let r1n2 : (r1 <= n2)%N := f_RN h1.
Let slt k : (k < n1)%N -> (s k < n1)%N. Proof. exact: (f_s h1).1. Qed.
Let ult k : (k < n2)%N -> (u k < n2)%N. Proof. exact: (f_u h1).1. Qed.
Let sin j k : (j < n1)%N -> (k < n1)%N -> s j = s k -> j = k. Proof. exact: (f_s h1).2. Qed.
Let uin j k : (j < n2)%N -> (k < n2)%N -> u j = u k -> j = k. Proof. exact: (f_u h1).2. Qed.

(** rows and columns of the first pivots are not used again *)
Let sP2 j k : (j < r1)%N -> (k < r2)%N -> P2 k != s j.
Proof.
move=> jr kr; apply: (b_row b2) => //; first by apply: slt; lia.
by move=> l ln; rewrite hH.
Qed.
Let uQ3 j k : (j < r1)%N -> (k < r3)%N -> Q3 k != u j.
Proof.
move=> jr kr; apply: (b_col b3) => //; first by apply: ult; lia.
by move=> l ln; rewrite hI.
Qed.

(** the three kinds of pivots *)
Lemma piv_case k : (k < r1 + r2 + r3)%N ->
  [\/ (k < r1)%N, exists2 k2, (k2 < r2)%N & k = (r1 + k2)%N | exists2 k3, (k3 < r3)%N & k = (r1 + r2 + k3)%N].
Proof.
move=> kr; case: (ltnP k r1) => [H1|H1]; first by constructor 1.
case: (ltnP k (r1 + r2)) => H2; first by constructor 2; exists (k - r1)%N; lia.
by constructor 3; exists (k - (r1 + r2))%N; lia.
Qed.

Lemma hasP k (f : nat -> nat) c : reflect (exists2 j, (j < k)%N & f j = c) (has (fun j => f j == c) (iota 0 k)).
Proof.
apply: (iffP hasP) => [[j]|[j jk e]]; first by rewrite mem_iota => jk /eqP e; exists j.
by exists j; [rewrite mem_iota | apply/eqP].
Qed.

Lemma isNone_has k (f : nat -> nat) c : (forall j, (j < k)%N -> f j <> c) -> has (fun j => f j == c) (iota 0 k) = false.
Proof. by move=> h; apply/negP => /hasP[j jk e]; exact: (h j). Qed.

Lemma eq_has_iff k k' (f f' : nat -> nat) c c' :
  ((exists2 j, (j < k)%N & f j = c) <-> (exists2 j, (j < k')%N & f' j = c')) ->
  has (fun j => f j == c) (iota 0 k) = has (fun j => f' j == c') (iota 0 k').
Proof. by move=> [h h']; apply/hasP/hasP. Qed.

Lemma Ub1 k l : (k < r1)%N -> (l < n2)%N -> Ub d N P Q Y k (u l) = Up d x k l.
Proof.
move=> kr ln; rewrite /Ub hP1 ?hQ1 //.
have sk := slt (leq_trans kr r1n1); have ul := ult ln.
case: (ltnP l k) => lk.
  have -> : has (fun j => Q j == u l) (iota 0 k) by apply/hasP; exists l => //; rewrite hQ1 //; lia.
  by rewrite !andbF /Up ltnNge (ltnW lk) /= ifF //; lia.
have -> : has (fun j => Q j == u l) (iota 0 k) = false.
  by apply: isNone_has => j jk; rewrite hQ1 ?(ltn_trans jk) // => e; have := @uin j l; lia.
have -> : (u l + s k + 1 < N)%N by rewrite /N; lia.
case: (leqP (u k) (u l)) => [hu|hu] /=; last first.
  by apply/esym/eqP; apply/negPn/negP => h; have := f_up h1 kr ln h; lia.
rewrite hY1 //; last by lia.
move: lk; rewrite leq_eqVlt => /orP[/eqP <-|lk].
  by rewrite eqxx /Up ltnn eqxx /=; case: (d).
rewrite /Up lk ifF //; apply/negP => /andP[/eqP e _].
by have := @uin l k; lia.
Qed.

Lemma Lb1 k i : (k < r1)%N -> (i < n1)%N -> Lb (odiag d) N P Q Y (s i) k = Lo d x i k.
Proof.
move=> kr ln; rewrite /Lb hP1 ?hQ1 //.
have sk := ult (leq_trans kr r1n2); have ul := slt ln.
case: (ltnP i k) => lk.
  have -> : has (fun j => P j == s i) (iota 0 k) by apply/hasP; exists i => //; rewrite hP1 //; lia.
  by rewrite !andbF /Lo ltnNge (ltnW lk) /= ifF //; lia.
have -> : has (fun j => P j == s i) (iota 0 k) = false.
  by apply: isNone_has => j jk; rewrite hP1 ?(ltn_trans jk) // => e; have := @sin j i; lia.
have -> : (s i + u k + 1 < N)%N by rewrite /N; lia.
case: (leqP (s k) (s i)) => [hu|hu] /=; last first.
  by apply/esym/eqP; apply/negPn/negP => h; have := f_lo h1 ln kr h; lia.
rewrite hY1 //; last by lia.
move: lk; rewrite leq_eqVlt => /orP[/eqP <-|lk].
  by rewrite eqxx /Lo ltnn eqxx /=; case: (d).
rewrite /Lo lk ifF //; apply/negP => /andP[/eqP e _].
by have := @sin i k; lia.
Qed.

Lemma Ub1D k j : (k < r1)%N -> (s k + j + 1 < n1)%N -> Ub d N P Q Y k (n2 + j) = D k j.
Proof.
move=> kr h; rewrite /Ub hP1 ?hQ1 //; have uk := ult (leq_trans kr r1n2).
have -> : has (fun i => Q i == n2 + j)%N (iota 0 k) = false.
  apply: isNone_has => i ik; rewrite hQ1 ?(ltn_trans ik) //; have := @ult i; lia.
rewrite ifT ?hYD // ?ifF //; rewrite /N; lia.
Qed.
Lemma Ub1D0 k j : (k < r1)%N -> (n1 <= s k + j + 1)%N -> Ub d N P Q Y k (n2 + j) = 0.
Proof. by move=> kr h; rewrite /Ub hP1 // ifF // /N; lia. Qed.

Lemma Lb1E k i : (k < r1)%N -> (i + u k + 1 < n2)%N -> Lb (odiag d) N P Q Y (n1 + i) k = E i k.
Proof.
move=> kr h; rewrite /Lb hP1 ?hQ1 //; have sk := slt (leq_trans kr r1n1).
have -> : has (fun j => P j == n1 + i)%N (iota 0 k) = false.
  apply: isNone_has => j jk; rewrite hP1 ?(ltn_trans jk) //; have := @slt j; lia.
rewrite ifT ?hYE // ?ifF //; rewrite /N; lia.
Qed.
Lemma Lb1E0 k i : (k < r1)%N -> (n2 <= i + u k + 1)%N -> Lb (odiag d) N P Q Y (n1 + i) k = 0.
Proof. by move=> kr h; rewrite /Lb hQ1 // ifF // /N; lia. Qed.

(** pivots of the second call *)
Lemma Ub2_0 k c : (k < r2)%N -> (c < n2)%N -> Ub d N P Q Y (r1 + k) c = 0.
Proof. by move=> kr cn; rewrite /Ub hQ2 // ifF //; lia. Qed.

Lemma P2s k : (k < r2)%N -> exists2 t, (r1 <= t < n1)%N & P2 k = s t.
Proof.
move=> kr; have Pk : (P2 k < n1)%N by have := b_lt b2 kr; lia.
have [t [tn e]] := is_perm_surj (f_s h1) Pk; exists t => //; rewrite tn andbT leqNgt.
by apply/negP => tr; move: (sP2 tr kr); rewrite e eqxx.
Qed.
Lemma Q3u k : (k < r3)%N -> exists2 t, (r1 <= t < n2)%N & Q3 k = u t.
Proof.
move=> kr; have Pk : (Q3 k < n2)%N by have := b_lt b3 kr; lia.
have [t [tn e]] := is_perm_surj (f_u h1) Pk; exists t => //; rewrite tn andbT leqNgt.
by apply/negP => tr; move: (uQ3 tr kr); rewrite e eqxx.
Qed.

Lemma Ub2 k j : (k < r2)%N -> Ub d N P Q Y (r1 + k) (n2 + j) = Ub d n1 P2 Q2 X2 k j.
Proof.
move=> kr; rewrite /Ub hP2 ?hQ2 //.
have -> : has (fun i => Q i == n2 + j)%N (iota 0 (r1 + k)) = has (fun i => Q2 i == j) (iota 0 k).
  apply: eq_has_iff; split=> [[i ik e]|[i ik e]]; last by exists (r1 + i)%N; [lia | rewrite hQ2 ?e //; lia].
  case: (ltnP i r1) => ir; first by move: e; rewrite hQ1 //; have := @ult i; lia.
  by exists (i - r1)%N; [lia | move: e; rewrite -{1}(subnKC ir) hQ2; lia].
rewrite leq_add2l eqn_add2l.
have -> : (n2 + j + P2 k + 1 < N)%N = (j + P2 k + 1 < n1)%N by rewrite /N; lia.
case: ifP => // /and3P[_ h _]; congr (if _ then _ else _).
have [t tn e] := P2s kr; rewrite e hY2 //; lia.
Qed.

Lemma Lb2 k i : (k < r2)%N -> (r1 <= i < n1)%N -> Lb (odiag d) N P Q Y (s i) (r1 + k) = Lb (odiag d) n1 P2 Q2 X2 (s i) k.
Proof.
move=> kr /andP[ir iN]; rewrite /Lb hP2 ?hQ2 //.
have -> : has (fun j => P j == s i) (iota 0 (r1 + k)) = has (fun j => P2 j == s i) (iota 0 k).
  apply: eq_has_iff; split=> [[j jk e]|[j jk e]]; last by exists (r1 + j)%N; [lia | rewrite hP2 ?e //; lia].
  case: (ltnP j r1) => jr; first by move: e; rewrite hP1 // => /sin; lia.
  by exists (j - r1)%N; [lia | move: e; rewrite -{1}(subnKC jr) hP2; lia].
have -> : (s i + (n2 + Q2 k) + 1 < N)%N = (s i + Q2 k + 1 < n1)%N by rewrite /N; lia.
case: ifP => // /and3P[_ h _]; congr (if _ then _ else _).
by rewrite hY2 //; lia.
Qed.
Lemma Lb2_0 k i : (k < r2)%N -> (i < r1)%N -> Lb (odiag d) N P Q Y (s i) (r1 + k) = 0.
Proof.
move=> kr ir; rewrite /Lb ifF //; apply/negP => /and3P[_ _ /negP]; apply.
by apply/hasP; exists i; rewrite ?hP1 //; lia.
Qed.

(** pivots of the third call *)
Lemma Lb3_0 k i : (k < r3)%N -> (i < n1)%N -> Lb (odiag d) N P Q Y i (r1 + r2 + k) = 0.
Proof. by move=> kr cn; rewrite /Lb hP3 // ifF //; lia. Qed.

Lemma Lb3 k i : (k < r3)%N -> Lb (odiag d) N P Q Y (n1 + i) (r1 + r2 + k) = Lb (odiag d) n2 P3 Q3 X3 i k.
Proof.
move=> kr; rewrite /Lb hP3 ?hQ3 //.
have -> : has (fun j => P j == n1 + i)%N (iota 0 (r1 + r2 + k)) = has (fun j => P3 j == i) (iota 0 k).
  apply: eq_has_iff; split=> [[j jk e]|[j jk e]]; last by exists (r1 + r2 + j)%N; [lia | rewrite hP3 ?e //; lia].
  have jr : (j < r1 + r2 + r3)%N by lia.
  case: (piv_case jr) => [j1|[j2 j2r ej]|[j3 j3r ej]]; subst.
  - by move: e; rewrite hP1 //; have := @slt j; lia.
  - by move: e; rewrite hP2 //; have := b_lt b2 j2r; lia.
  - by exists j3; [lia | move: e; rewrite hP3 //; lia].
rewrite leq_add2l eqn_add2l.
have -> : (n1 + i + Q3 k + 1 < N)%N = (i + Q3 k + 1 < n2)%N by rewrite /N; lia.
case: ifP => // /and3P[_ h _]; congr (if _ then _ else _).
have [t tn e] := Q3u kr; rewrite e hY3 //; lia.
Qed.

Lemma Ub3 k l : (k < r3)%N -> (r1 <= l < n2)%N -> Ub d N P Q Y (r1 + r2 + k) (u l) = Ub d n2 P3 Q3 X3 k (u l).
Proof.
move=> kr /andP[ir iN]; rewrite /Ub hP3 ?hQ3 //.
have -> : has (fun j => Q j == u l) (iota 0 (r1 + r2 + k)) = has (fun j => Q3 j == u l) (iota 0 k).
  apply: eq_has_iff; split=> [[j jk e]|[j jk e]]; last by exists (r1 + r2 + j)%N; [lia | rewrite hQ3 ?e //; lia].
  have jr : (j < r1 + r2 + r3)%N by lia.
  case: (piv_case jr) => [j1|[j2 j2r ej]|[j3 j3r ej]]; subst.
  - by move: e; rewrite hQ1 // => /uin; lia.
  - by move: e; rewrite hQ2 //; have := ult iN; lia.
  - by exists j3; [lia | move: e; rewrite hQ3 //; lia].
have -> : (u l + (n1 + P3 k) + 1 < N)%N = (u l + P3 k + 1 < n2)%N by rewrite /N; lia.
case: ifP => // /and3P[_ h _]; congr (if _ then _ else _).
by rewrite hY3 //; lia.
Qed.
Lemma Ub3_0 k i : (k < r3)%N -> (i < r1)%N -> Ub d N P Q Y (r1 + r2 + k) (u i) = 0.
Proof.
move=> kr ir; rewrite /Ub ifF //; apply/negP => /and3P[_ _ /negP]; apply.
by apply/hasP; exists i; rewrite ?hQ1 //; lia.
Qed.

Lemma bru_combine : bru d N A Y P Q (r1 + r2 + r3).
Proof.
split.
- move=> k /piv_case[kr|[j jr ->]|[j jr ->]].
  + by rewrite hP1 // hQ1 //; have := @slt k; have := @ult k; rewrite /N; lia.
  + by rewrite hP2 // hQ2 //; have := b_lt b2 jr; rewrite /N; lia.
  + by rewrite hP3 // hQ3 //; have := b_lt b3 jr; rewrite /N; lia.
- move=> j k /piv_case[jr|[j2 jr ->]|[j3 jr ->]] /piv_case[kr|[k2 kr ->]|[k3 kr ->]];
    try rewrite (hP1 jr); try rewrite (hP2 jr); try rewrite (hP3 jr);
    try rewrite (hP1 kr); try rewrite (hP2 kr); try rewrite (hP3 kr).
  + by apply: sin; lia.
  + by move=> e; move: (sP2 jr kr); rewrite e eqxx.
  + by have := @slt j; lia.
  + by move=> e; move: (sP2 kr jr); rewrite e eqxx.
  + by move=> /(b_P b2 jr kr) ->.
  + by have := b_lt b2 jr; lia.
  + by have := @slt k; lia.
  + by have := b_lt b2 kr; lia.
  + by move=> /addnI/(b_P b3 jr kr) ->.
- move=> j k /piv_case[jr|[j2 jr ->]|[j3 jr ->]] /piv_case[kr|[k2 kr ->]|[k3 kr ->]];
    try rewrite (hQ1 jr); try rewrite (hQ2 jr); try rewrite (hQ3 jr);
    try rewrite (hQ1 kr); try rewrite (hQ2 kr); try rewrite (hQ3 kr).
  + by apply: uin; lia.
  + by have := @ult j; lia.
  + by move=> e; move: (uQ3 jr kr); rewrite e eqxx.
  + by have := @ult k; lia.
  + by move=> /addnI/(b_Q b2 jr kr) ->.
  + by have := b_lt b3 kr; lia.
  + by move=> e; move: (uQ3 kr jr); rewrite e eqxx.
  + by have := b_lt b3 jr; lia.
  + by move=> /(b_Q b3 jr kr) ->.
- move=> k /piv_case[kr|[j jr ->]|[j jr ->]].
  + by rewrite hP1 // hQ1 // hY1 ?(f_piv h1) //; lia.
  + have [t tn e] := P2s jr; have := b_lt b2 jr => hlt.
    by rewrite hP2 // hQ2 // e hY2 //; [rewrite -e (b_piv b2)|lia].
  + have [t tn e] := Q3u jr; have := b_lt b3 jr => hlt.
    by rewrite hP3 // hQ3 // e hY3 //; [rewrite -e (b_piv b3)|lia].
- move=> i iN A0.
  case: (ltnP i n1) => in1; last first.
    move=> k /piv_case[kr|[j jr ->]|[j jr ->]].
    + by rewrite hP1 //; have := @slt k; lia.
    + by rewrite hP2 //; have := b_lt b2 jr; lia.
    + rewrite hP3 //; apply/eqP => e.
      have : P3 j != (i - n1)%N; last by lia.
      have Et t : (t < r1)%N -> E (i - n1)%N t = 0.
        elim/ltn_ind: t => t IH tr.
        have := @hE (i - n1)%N t; rewrite subnKC // A0; last by have := @ult t; rewrite /N; lia.
        rewrite hI ?addr0; [|rewrite /N in iN; lia|lia].
        have -> : rsum r1 (fun t0 => E (i - n1)%N t0 * Up d x t0 t) = E (i - n1)%N t * Up d x t t.
          rewrite (@rsum_range _ r1 t 1) /= ?addn0 ?add0r //; first by rewrite addn1.
          move=> t' t'r; case: (ltnP t' t) => tt; first by rewrite IH ?mul0r //; lia.
          by move=> h; rewrite /Up ltnNge tt /= ifF ?mulr0 //; lia.
        move=> h; have {h} := h _ _; rewrite /Up ltnn eqxx => h.
        have /esym/eqP := h ltac:(rewrite /N in iN; lia) ltac:(lia).
        rewrite mulf_eq0; case/orP => [/eqP //|].
        by case: (d); rewrite ?oner_eq0 // (negbTE (f_piv h1 tr)).
      apply: (b_row b3) => //; first by rewrite /N in iN; lia.
      move=> c cn; have [l [ln <-]] := is_perm_surj (f_u h1) cn.
      have := @hE (i - n1)%N l; rewrite subnKC // A0; last by have := @ult l; rewrite /N; lia.
      rewrite rsum0 ?add0r => [h|t tr]; last by rewrite Et ?mul0r.
      by rewrite -h //; rewrite /N in iN; lia.
  have [k0 [k0n ek0]] := is_perm_surj (f_s h1) in1.
  have Lt t : (t < r1)%N -> Lo d x k0 t = 0.
    elim/ltn_ind: t => t IH tr.
    have := f_law h1 k0n (leq_trans tr r1n2); rewrite ek0 A0; last by have := @ult t; rewrite /N; lia.
    have -> : rsum r1 (fun t0 => Lo d x k0 t0 * Up d x t0 t) = Lo d x k0 t * Up d x t t.
      rewrite (@rsum_range _ r1 t 1) /= ?addn0 ?add0r //; first by rewrite addn1.
      move=> t' t'r; case: (ltnP t' t) => tt; first by rewrite IH ?mul0r //; lia.
      by move=> h; rewrite /Up ltnNge tt /= ifF ?mulr0 //; lia.
    move=> /esym/eqP; rewrite mulf_eq0 {1}/Up ltnn eqxx; case/orP => [/eqP //|].
    by case: (d); rewrite ?oner_eq0 // (negbTE (f_piv h1 tr)).
  move=> k /piv_case[kr|[j jr ->]|[j jr ->]].
  + rewrite hP1 //; apply/eqP => e; have ek : k = k0 by apply: sin; rewrite ?ek0 //; lia.
    have := Lt _ kr; rewrite ek /Lo ltnn eqxx => /eqP.
    by case: (d); rewrite ?oner_eq0 // -ek (negbTE (f_piv h1 kr)).
  + rewrite hP2 //; apply: (b_row b2) => // c cn.
    have := hD k0n cn; rewrite ek0 A0; last by rewrite /N; lia.
    by rewrite rsum0 ?add0r // => t tr; rewrite Lt ?mul0r.
  + by rewrite hP3 //; lia.
- move=> i iN A0.
  case: (ltnP i n2) => in2; last first.
    move=> k /piv_case[kr|[j jr ->]|[j jr ->]].
    + by rewrite hQ1 //; have := @ult k; lia.
    + rewrite hQ2 //; apply/eqP => e.
      have : Q2 j != (i - n2)%N; last by lia.
      have Et t : (t < r1)%N -> D t (i - n2)%N = 0.
        elim/ltn_ind: t => t IH tr.
        have := @hD t (i - n2)%N; rewrite subnKC // A0; last by have := @slt t; rewrite /N; lia.
        rewrite hH ?addr0; [|lia|rewrite /N in iN; lia].
        have -> : rsum r1 (fun t0 => Lo d x t t0 * D t0 (i - n2)%N) = Lo d x t t * D t (i - n2)%N.
          rewrite (@rsum_range _ r1 t 1) /= ?addn0 ?add0r //; first by rewrite addn1.
          move=> t' t'r; case: (ltnP t' t) => tt; first by rewrite IH ?mulr0 //; lia.
          by move=> h; rewrite /Lo ltnNge tt /= ifF ?mul0r //; lia.
        move=> h; have {h} := h _ _; rewrite /Lo ltnn eqxx => h.
        have /esym/eqP := h ltac:(lia) ltac:(rewrite /N in iN; lia).
        rewrite mulf_eq0; case/orP => [|/eqP //].
        by case: (d); rewrite ?oner_eq0 // (negbTE (f_piv h1 tr)).
      apply: (b_col b2) => //; first by rewrite /N in iN; lia.
      move=> c cn; have [l [ln <-]] := is_perm_surj (f_s h1) cn.
      have := @hD l (i - n2)%N; rewrite subnKC // A0; last by have := @slt l; rewrite /N; lia.
      rewrite rsum0 ?add0r => [h|t tr]; last by rewrite Et ?mulr0.
      by rewrite -h //; rewrite /N in iN; lia.
    + by rewrite hQ3 //; have := b_lt b3 jr; lia.
  have [k0 [k0n ek0]] := is_perm_surj (f_u h1) in2.
  have Ut t : (t < r1)%N -> Up d x t k0 = 0.
    elim/ltn_ind: t => t IH tr.
    have := f_law h1 (leq_trans tr r1n1) k0n; rewrite ek0 A0; last by have := @slt t; rewrite /N; lia.
    have -> : rsum r1 (fun t0 => Lo d x t t0 * Up d x t0 k0) = Lo d x t t * Up d x t k0.
      rewrite (@rsum_range _ r1 t 1) /= ?addn0 ?add0r //; first by rewrite addn1.
      move=> t' t'r; case: (ltnP t' t) => tt; first by rewrite IH ?mulr0 //; lia.
      by move=> h; rewrite /Lo ltnNge tt /= ifF ?mul0r //; lia.
    move=> /esym/eqP; rewrite mulf_eq0 {1}/Lo ltnn eqxx; case/orP => [|/eqP //].
    by case: (d); rewrite ?oner_eq0 // (negbTE (f_piv h1 tr)).
  move=> k /piv_case[kr|[j jr ->]|[j jr ->]].
  + rewrite hQ1 //; apply/eqP => e; have ek : k = k0 by apply: uin; rewrite ?ek0 //; lia.
    have := Ut _ kr; rewrite ek /Up ltnn eqxx => /eqP.
    by case: (d); rewrite ?oner_eq0 // -ek (negbTE (f_piv h1 kr)).
  + by rewrite hQ2 //; lia.
  + rewrite hQ3 //; apply: (b_col b3) => // c cn.
    have := hE cn k0n; rewrite ek0 A0; last by rewrite /N; lia.
    by rewrite rsum0 ?add0r // => t tr; rewrite Ut ?mulr0.
- move=> i j; rewrite /N => ij; rewrite !rsum_cat.
  case: (ltnP i n1) => in1; case: (ltnP j n2) => jn2.
  + have [k [kn ek]] := is_perm_surj (f_s h1) in1; have [l [ln el]] := is_perm_surj (f_u h1) jn2.
    rewrite -ek -el [X in _ + X + _]rsum0 ?[X in _ + X]rsum0 ?addr0.
    - by rewrite (f_law h1) //; apply: eq_rsum => t tr; rewrite Lb1 ?Ub1.
    - by move=> t tr; rewrite Lb3_0 ?mul0r // ek.
    - by move=> t tr; rewrite Ub2_0 ?mulr0 // el.
  + have [k [kn ek]] := is_perm_surj (f_s h1) in1.
    rewrite -ek [X in _ + X]rsum0 ?addr0; last by move=> t tr; rewrite Lb3_0 ?mul0r // ek.
    rewrite -(subnKC jn2) hD //; last by lia.
    congr (_ + _).
      apply: eq_rsum => t tr; rewrite Lb1 //.
      case: (ltnP (s t + (j - n2) + 1) n1) => h; first by rewrite Ub1D.
      have [->|/eqP nz] := Lo d x k t =P 0; first by rewrite !mul0r.
      by have := f_lo h1 kn tr nz; rewrite ek; lia.
    case: (ltnP k r1) => kr.
      by rewrite hH ?rsum0 //; [move=> t tr; rewrite Lb2_0 ?mul0r|lia].
    rewrite (b_law b2); last by rewrite ek; lia.
    by apply: eq_rsum => t tr; rewrite Lb2 ?kr // Ub2.
  + have [l [ln el]] := is_perm_surj (f_u h1) jn2.
    rewrite -el [X in _ + X + _]rsum0 ?addr0; last by move=> t tr; rewrite Ub2_0 ?mulr0 // el.
    rewrite -(subnKC in1) hE //; last by lia.
    congr (_ + _).
      apply: eq_rsum => t tr; rewrite Ub1 //.
      case: (ltnP (i - n1 + u t + 1) n2) => h; first by rewrite Lb1E.
      have [->|/eqP nz] := Up d x t l =P 0; first by rewrite !mulr0.
      by have := f_up h1 tr ln nz; rewrite el; lia.
    case: (ltnP l r1) => kr.
      by rewrite hI ?rsum0 //; [move=> t tr; rewrite Ub3_0 ?mulr0|lia].
    rewrite (b_law b3); last by rewrite el; lia.
    by apply: eq_rsum => t tr; rewrite Lb3 // Ub3 ?kr.
  + lia.
Qed.

End Comb.
