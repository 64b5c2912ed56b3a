(** * The algebra of the four-quadrant recursion of _PLUQ *)
From mathcomp Require Import all_ssreflect all_algebra zify ring.
From Verif Require Import Grid Perm_model Perm_spec Perm_proofs Tri_model Tri_spec Tri_proofs Pluq_spec Pluq_idx.
Set Implicit Arguments.
Unset Strict Implicit.
Unset Printing Implicit Defensive.
Import GRing.Theory.
Local Open Scope ring_scope.

Section Fac.
Variable F : fieldType.
Implicit Types A X : grid F.

(** [factors] and [ordered], with computable sums. *)
(** With [o], the order conditions of [ordered] hold too. *)
Record facg (o : bool) (d : diag) (M N : nat) A X (s u : nat -> nat) (R : nat) : Prop := Fac {
  f_s : is_perm M s; f_u : is_perm N u;
  f_RM : (R <= M)%N; f_RN : (R <= N)%N;
  f_piv : forall t, (t < R)%N -> X t t != 0;
  f_zero : forall k l, (R <= k < M)%N -> (R <= l < N)%N -> X k l = 0;
  f_law : forall k l, (k < M)%N -> (l < N)%N -> A (s k) (u l) = rsum R (fun t => Lo d X k t * Up d X t l);
  g_lo : o -> forall k t, (k < M)%N -> (t < R)%N -> Lo d X k t != 0 -> (s t <= s k)%N;
  g_up : o -> forall t l, (t < R)%N -> (l < N)%N -> Up d X t l != 0 -> (u t <= u l)%N;
  g_ms : o -> forall i j, (R <= i < j)%N -> (j < M)%N -> (s i < s j)%N;
  g_mu : o -> forall i j, (R <= i < j)%N -> (j < N)%N -> (u i < u j)%N }.

Notation fac := (facg true).

Lemma f_lo d M N A X s u R (h : fac d M N A X s u R) k t : (k < M)%N -> (t < R)%N -> Lo d X k t != 0 -> (s t <= s k)%N.
Proof. exact: (g_lo h isT). Qed.
Lemma f_up d M N A X s u R (h : fac d M N A X s u R) t l : (t < R)%N -> (l < N)%N -> Up d X t l != 0 -> (u t <= u l)%N.
Proof. exact: (g_up h isT). Qed.
Lemma f_ms d M N A X s u R (h : fac d M N A X s u R) i j : (R <= i < j)%N -> (j < M)%N -> (s i < s j)%N.
Proof. exact: (g_ms h isT). Qed.
Lemma f_mu d M N A X s u R (h : fac d M N A X s u R) i j : (R <= i < j)%N -> (j < N)%N -> (u i < u j)%N.
Proof. exact: (g_mu h isT). Qed.

Lemma facg_spec o d M N A X s u R : facg o d M N A X s u R -> factors d M N A X s u R.
Proof.
case=> *; split=> // k l kM lN.
by rewrite -(rsumE R (fun t => Lo d X k t * Up d X t l)); auto.
Qed.

Lemma fac_spec d M N A X s u R : fac d M N A X s u R -> factors d M N A X s u R /\ ordered d M N X s u R.
Proof.
move=> h; split; first exact: facg_spec h.
by split; [exact: f_lo h | exact: f_up h | exact: f_ms h | exact: f_mu h].
Qed.

Lemma dsum_lt R N s x : (R <= N)%N -> is_perm (N - R) s -> (x < N)%N -> (dsum R s x < N)%N.
Proof. by move=> RN H xN; have [H1 _] := dsum_perm RN H; exact: H1. Qed.

Lemma dsum_lo R s x : (x < R)%N -> dsum R s x = x.
Proof. by rewrite /dsum => ->. Qed.
Lemma dsum_hi R s x : (R <= x)%N -> dsum R s x = (R + s (x - R))%N.
Proof. by rewrite /dsum ltnNge => ->. Qed.
Lemma dsum_addn R s x : dsum R s (R + x) = (R + s x)%N.
Proof. by rewrite dsum_hi ?leq_addr // addKn. Qed.
Lemma dsum_ge R s x : (R <= x)%N -> (R <= dsum R s x)%N.
Proof. by move=> H; rewrite dsum_hi // leq_addr. Qed.

Variables (o : bool) (d : diag) (M N M2 N2 : nat).
Hypotheses (M2M : (M2 <= M)%N) (N2N : (N2 <= N)%N).
Let M3 := (M - M2)%N.
Let N3 := (N - N2)%N.
Variables (A x1 x2 x3 x4 D E G1 F1 H I O W Z : grid F).
Variables (s1 u1 s2 u2 s3 u3 s4 u4 : nat -> nat) (R1 R2 R3 R4 : nat).

Hypothesis h1 : facg o d M2 N2 A x1 s1 u1 R1.
Hypothesis hD : forall t l, (t < R1)%N -> (l < N3)%N -> rsum R1 (fun s => Lo d x1 t s * D s l) = A (s1 t) (N2 + l)%N.
Hypothesis hE : forall k t, (k < M3)%N -> (t < R1)%N -> rsum R1 (fun s => E k s * Up d x1 s t) = A (M2 + k)%N (u1 t).
Hypothesis hF : forall k l, (k < M2 - R1)%N -> (l < N3)%N ->
  F1 k l = A (s1 (R1 + k)%N) (N2 + l)%N - rsum R1 (fun t => x1 (R1 + k)%N t * D t l).
Hypothesis hG : forall k l, (k < M3)%N -> (l < N2 - R1)%N ->
  G1 k l = A (M2 + k)%N (u1 (R1 + l)%N) - rsum R1 (fun t => E k t * x1 t (R1 + l)%N).
Hypothesis hH : forall k l, (k < M3)%N -> (l < N3)%N ->
  H k l = A (M2 + k)%N (N2 + l)%N - rsum R1 (fun t => E k t * D t l).
Hypothesis h2 : facg o d (M2 - R1) N3 F1 x2 s2 u2 R2.
Hypothesis h3 : facg o d M3 (N2 - R1) G1 x3 s3 u3 R3.
Hypothesis hI : forall k t, (k < M3)%N -> (t < R2)%N ->
  rsum R2 (fun s => I k s * Up d x2 s t) = H (s3 k) (u2 t).
Hypothesis hO : forall t l, (t < R3)%N -> (l < N3 - R2)%N ->
  rsum R3 (fun s => Lo d x3 t s * O s l) = H (s3 t) (u2 (R2 + l)%N) - rsum R2 (fun s => I t s * x2 s (R2 + l)%N).
Hypothesis hW : forall k l, (k < M3 - R3)%N -> (l < N3 - R2)%N ->
  W k l = H (s3 (R3 + k)%N) (u2 (R2 + l)%N) - rsum R2 (fun s => I (R3 + k)%N s * x2 s (R2 + l)%N)
     - rsum R3 (fun s => x3 (R3 + k)%N s * O s l).
Hypothesis h4 : facg o d (M3 - R3) (N3 - R2) W x4 s4 u4 R4.

Hypothesis z1 : forall k l, (k < M2)%N -> (l < N2)%N -> Z k l = x1 (dsum R1 s2 k) (dsum R1 u3 l).
Hypothesis z2 : forall k l, (k < M2)%N -> (l < N3)%N -> Z k (N2 + l)%N =
  if (k < R1)%N then D k (u2 (dsum R2 u4 l)) else x2 (k - R1)%N (dsum R2 u4 l).
Hypothesis z3 : forall k l, (k < M3)%N -> (l < N2)%N -> Z (M2 + k)%N l =
  if (l < R1)%N then E (s3 (dsum R3 s4 k)) l else x3 (dsum R3 s4 k) (l - R1)%N.
Hypothesis z4 : forall k l, (k < M3)%N -> (l < N3)%N -> Z (M2 + k)%N (N2 + l)%N =
  if (l < R2)%N then I (dsum R3 s4 k) l
  else if (k < R3)%N then O k (u4 (l - R2)%N) else x4 (k - R3)%N (l - R2)%N.

(** Labels of the rows and columns before the final block exchanges. *)
Definition rho k := if (k < M2)%N then s1 (dsum R1 s2 k) else (M2 + s3 (dsum R3 s4 (k - M2)))%N.
Definition gam l := if (l < N2)%N then u1 (dsum R1 u3 l) else (N2 + u2 (dsum R2 u4 (l - N2)))%N.

Definition L1 k t := if (k < M2)%N then Lo d x1 (dsum R1 s2 k) t else E (s3 (dsum R3 s4 (k - M2)%N)) t.
Definition U1 t l := if (l < N2)%N then Up d x1 t (dsum R1 u3 l) else D t (u2 (dsum R2 u4 (l - N2)%N)).
Definition L2 k t := if (k < M2)%N then (if (k < R1)%N then 0 else Lo d x2 (k - R1)%N t) else I (dsum R3 s4 (k - M2)%N) t.
Definition U2 t l := if (l < N2)%N then 0 else Up d x2 t (dsum R2 u4 (l - N2)%N).
Definition L3 k t := if (k < M2)%N then 0 else Lo d x3 (dsum R3 s4 (k - M2)%N) t.
Definition U3 t l := if (l < N2)%N then (if (l < R1)%N then 0 else Up d x3 t (l - R1)%N)
  else if (l - N2 < R2)%N then 0 else O t (u4 (l - N2 - R2)%N).
Definition L4 k t := if (k < M2)%N then 0 else if (k - M2 < R3)%N then 0 else Lo d x4 (k - M2 - R3)%N t.
Definition U4 t l := if (l < N2)%N then 0 else if (l - N2 < R2)%N then 0 else Up d x4 t (l - N2 - R2)%N.

Let S2 : is_perm (M2 - R1) s2 := f_s h2.
Let S4 : is_perm (M3 - R3) s4 := f_s h4.
Let T3 : is_perm (N2 - R1) u3 := f_u h3.
Let T4 : is_perm (N3 - R2) u4 := f_u h4.

Lemma rLo0 R X k (g : nat -> F) : (R <= k)%N -> rsum R (fun t => Lo d X k t * g t) = rsum R (fun t => X k t * g t).
Proof. by move=> Rk; apply: eq_rsum => t tR; rewrite /Lo ifT //; lia. Qed.
Lemma rUp0 R X l (g : nat -> F) : (R <= l)%N -> rsum R (fun t => g t * Up d X t l) = rsum R (fun t => g t * X t l).
Proof. by move=> Rk; apply: eq_rsum => t tR; rewrite /Up ifT //; lia. Qed.

Lemma law k l : (k < M)%N -> (l < N)%N ->
  A (rho k) (gam l) = rsum R1 (fun t => L1 k t * U1 t l) + rsum R2 (fun t => L2 k t * U2 t l)
    + rsum R3 (fun t => L3 k t * U3 t l) + rsum R4 (fun t => L4 k t * U4 t l).
Proof.
move=> kM lN; rewrite /rho /gam /L1 /U1 /L2 /U2 /L3 /U3 /L4 /U4.
have R1M := f_RM h1; have R1N := f_RN h1; have R2M := f_RM h2; have R2N := f_RN h2.
have R3M := f_RM h3; have R3N := f_RN h3; have R4M := f_RM h4; have R4N := f_RN h4.
have r00 R (f : nat -> F) : rsum R (fun t => f t * 0) = 0 by apply: rsum0 => t _; rewrite mulr0.
have r01 R (f : nat -> F) : rsum R (fun t => 0 * f t) = 0 by apply: rsum0 => t _; rewrite mul0r.
case: (ltnP k M2) => kM2; case: (ltnP l N2) => lN2.
- have k1 := dsum_lt R1M S2 kM2; have l1 := dsum_lt R1N T3 lN2.
  by rewrite (f_law h1) // r00 !r01 !addr0.
- set l' := dsum R2 u4 (l - N2)%N.
  have l1 : (l' < N3)%N by apply: dsum_lt => //; rewrite /N3; lia.
  have l2 : (u2 l' < N3)%N by apply: (f_u h2).1.
  rewrite !r01 !addr0; case: (ltnP k R1) => kR1.
    by rewrite dsum_lo // r01 addr0 hD.
  have s2k : (s2 (k - R1) < M2 - R1)%N by apply: S2.1; lia.
  rewrite dsum_hi // rLo0 ?leq_addr // -(f_law h2) ?hF //; first by rewrite addrC subrK.
  lia.
- set k' := dsum R3 s4 (k - M2)%N.
  have k1 : (k' < M3)%N by apply: dsum_lt => //; rewrite /M3; lia.
  have k2 : (s3 k' < M3)%N by apply: (f_s h3).1.
  rewrite !r00 !addr0; case: (ltnP l R1) => lR1.
    by rewrite dsum_lo // r00 addr0 hE.
  have u3l : (u3 (l - R1) < N2 - R1)%N by apply: T3.1; lia.
  rewrite dsum_hi // rUp0 ?leq_addr // -(f_law h3) ?hG //; first by rewrite addrC subrK.
  lia.
- set k' := dsum R3 s4 (k - M2)%N; set l' := dsum R2 u4 (l - N2)%N.
  have k0 : (k - M2 < M3)%N by rewrite /M3; lia.
  have l0 : (l - N2 < N3)%N by rewrite /N3; lia.
  have k1 : (k' < M3)%N by apply: dsum_lt.
  have k2 : (s3 k' < M3)%N by apply: (f_s h3).1.
  have l1 : (l' < N3)%N by apply: dsum_lt.
  have l2 : (u2 l' < N3)%N by apply: (f_u h2).1.
  have -> : A (M2 + s3 k')%N (N2 + u2 l')%N = rsum R1 (fun t => E (s3 k') t * D t (u2 l')) + H (s3 k') (u2 l').
    by rewrite hH // addrC subrK.
  rewrite -!addrA; congr (_ + _).
  case: (ltnP (l - N2) R2) => lR2.
    by rewrite r00 r00 !addr0 hI // /l' dsum_lo.
  have u4l : (u4 (l - N2 - R2) < N3 - R2)%N by apply: T4.1; lia.
  have l'E : l' = (R2 + u4 (l - N2 - R2))%N by rewrite /l' dsum_hi.
  rewrite rUp0 ?l'E ?leq_addr //.
  case: (ltnP (k - M2) R3) => kR3.
    have k'E : k' = (k - M2)%N by rewrite /k' dsum_lo.
    by rewrite r01 addr0 k'E hO // addrC subrK.
  have s4k : (s4 (k - M2 - R3) < M3 - R3)%N by apply: S4.1; lia.
  have k'E : k' = (R3 + s4 (k - M2 - R3))%N by rewrite /k' dsum_hi.
  rewrite rLo0 ?k'E ?leq_addr // -(f_law h4) ?hW //; [|lia..].
  by rewrite -k'E -l'E; ring.
Qed.


Notation rk := (R1 + R2 + R3 + R4)%N.
Notation Sx := (Pluq_idx.Sx M2 R1 R2 R3 R4).
Notation Tx := (Pluq_idx.Tx N2 R1 R2 R3 R4).
Definition Yx k l := Z (Sx k) (Tx l).
Let a1 : (R1 + R2 <= M2)%N. Proof. by move: (f_RM h1) (f_RM h2); clear; lia. Qed.
Let a2 : (M2 + R3 + R4 <= M)%N. Proof. by move: M2M (f_RM h3) (f_RM h4); rewrite /M3; clear; lia. Qed.
Let b1 : (R1 + R3 <= N2)%N. Proof. by move: (f_RN h1) (f_RN h3); clear; lia. Qed.
Let b2 : (N2 + R2 + R4 <= N)%N. Proof. by move: N2N (f_RN h2) (f_RN h4); rewrite /N3; clear; lia. Qed.
Let Scas k : (k < M)%N -> _ := Sx_cases a1 a2 b1 b2 (k := k).
Let Tcas k : (k < N)%N -> _ := Tx_cases a1 a2 b1 b2 (k := k).

Lemma z3' k l : (M2 <= k < M)%N -> (l < N2)%N -> Z k l =
  if (l < R1)%N then E (s3 (dsum R3 s4 (k - M2))) l else x3 (dsum R3 s4 (k - M2)) (l - R1)%N.
Proof. by move=> H1 H2; have {1}-> : k = (M2 + (k - M2))%N by [lia]; rewrite z3 //; rewrite /M3; lia. Qed.
Lemma z2' k l : (k < M2)%N -> (N2 <= l < N)%N -> Z k l =
  if (k < R1)%N then D k (u2 (dsum R2 u4 (l - N2))) else x2 (k - R1)%N (dsum R2 u4 (l - N2)).
Proof. by move=> H1 H2; have {1}-> : l = (N2 + (l - N2))%N by [lia]; rewrite z2 //; rewrite /N3; lia. Qed.
Lemma z4' k l : (M2 <= k < M)%N -> (N2 <= l < N)%N -> Z k l =
  if (l - N2 < R2)%N then I (dsum R3 s4 (k - M2)) (l - N2)%N
  else if (k - M2 < R3)%N then O (k - M2)%N (u4 (l - N2 - R2)%N) else x4 (k - M2 - R3)%N (l - N2 - R2)%N.
Proof.
move=> H1 H2; have {1}-> : k = (M2 + (k - M2))%N by lia.
by have {1}-> : l = (N2 + (l - N2))%N by [lia]; rewrite z4 //; rewrite ?/M3 ?/N3; lia.
Qed.

Let TxA k : (k < R1)%N -> Tx k = k := Tx1 a1 a2 b1 b2 (k := k).
Let TxB t : (t < R2)%N -> Tx (R1 + t) = (N2 + t)%N.
Proof. by move=> H1; rewrite (Tx2 a1 a2 b1 b2) ?addKn //; lia. Qed.
Let TxC t : (t < R3)%N -> Tx (R1 + R2 + t) = (R1 + t)%N.
Proof. by move=> H1; rewrite (Tx3 a1 a2 b1 b2) ?addKn //; lia. Qed.
Let TxD t : (t < R4)%N -> Tx (R1 + R2 + R3 + t) = (N2 + R2 + t)%N.
Proof. by move=> H1; rewrite (Tx4 a1 a2 b1 b2) ?addKn //; lia. Qed.
Let SxA k : (k < R1 + R2)%N -> Sx k = k := Sx1 M2 R3 R4 (k := k).
Let SxB t : (t < R3 + R4)%N -> Sx (R1 + R2 + t) = (M2 + t)%N.
Proof. by move=> H1; rewrite (Sx2 a1 a2 b1 b2) ?addKn //; lia. Qed.

Lemma Lo1 k t : (k < M)%N -> (t < R1)%N -> Lo d Yx k t = L1 (Sx k) t.
Proof.
move=> kM tR; have tT := TxA tR; have e3 : dsum R1 u3 t = t by apply: dsum_lo.
have tN : (t < N2)%N by lia.
rewrite {1}/Lo /Yx tT /L1.
have [[kR kS]|H'] : (k < R1)%N /\ Sx k = k \/ (R1 <= k)%N /\ (R1 <= Sx k)%N.
  by case: (Scas kM) => -[]; lia.
- have e2 : dsum R1 s2 k = k by apply: dsum_lo.
  have kM2 : (k < M2)%N by lia.
  rewrite kS kM2 e2 /Lo; case: ltnP => kt; first by rewrite z1 ?e2 ?e3.
  by case: eqP => // tk; case: (d) => //; rewrite TxA // z1 // ?e2 -?tk ?e3.
- case: H' => kR kS; rewrite ifT; last by lia.
  case: ltnP => SM.
    by rewrite z1 ?e3 // /Lo ifT //; have := dsum_ge s2 kS; lia.
  by rewrite z3' ?tR //; have := Sx_lt a1 a2 b1 b2 kM; lia.
Qed.

Lemma Lo2 k t : (k < M)%N -> (t < R2)%N -> Lo d Yx k (R1 + t) = L2 (Sx k) t.
Proof.
move=> kM tR; have tT := TxB tR; have e3 : dsum R2 u4 t = t by apply: dsum_lo.
have tN : (N2 <= N2 + t < N)%N by lia.
rewrite {1}/Lo /Yx tT /L2.
have [[kR kS]|H'] : (k < R1 + R2)%N /\ Sx k = k \/ (R1 + R2 <= k)%N /\ (R1 + R2 <= Sx k)%N.
  by case: (Scas kM) => -[]; lia.
- have kM2 : (k < M2)%N by lia.
  rewrite kS kM2 /Lo; case: (ltnP k R1) => kR1.
    by rewrite !ifF //; lia.
  rewrite (_ : (R1 + t < k)%N = (t < k - R1)%N); last by lia.
  rewrite (_ : (R1 + t == k)%N = (t == k - R1)%N); last by lia.
  case: ltnP => kt; first by rewrite z2' // addKn e3 ifF //; lia.
  case: eqP => // tk; case: (d) => //.
  have kE : k = (R1 + t)%N by lia.
  by rewrite kE tT z2' // ?addKn ?e3 ?ifF //; lia.
- case: H' => kR kS; rewrite ifT; last by lia.
  case: ltnP => SM.
    rewrite z2' // addKn e3 ifF; last by lia.
    by rewrite ifF ?/Lo ?ifT //; lia.
  by rewrite z4' ?addKn ?tR //; have := Sx_lt a1 a2 b1 b2 kM; lia.
Qed.

Lemma Lo3 k t : (k < M)%N -> (t < R3)%N -> Lo d Yx k (R1 + R2 + t) = L3 (Sx k) t.
Proof.
move=> kM tR; have tT := TxC tR.
have tN : (R1 + t < N2)%N by lia.
have tS : Sx (R1 + R2 + t) = (M2 + t)%N by apply: SxB; lia.
have e2 : dsum R3 s4 t = t by apply: dsum_lo.
rewrite {1}/Lo /Yx tT /L3.
case: (ltngtP (R1 + R2 + t) k) => kt.
- case: ltnP => kM2.
    have [kS kR] : (R1 + R2 <= Sx k)%N /\ (R1 + R2 + R3 + R4 <= k)%N by case: (Scas kM) => -[]; lia.
    rewrite z1 // (f_zero h1) // dsum_ge ?leq_addr //=; [|lia|].
      exact: (dsum_lt (f_RM h1) S2).
    exact: (dsum_lt (f_RN h1) T3).
  rewrite z3' // ?ifF ?addKn //; [|lia|by have := Sx_lt a1 a2 b1 b2 kM; lia].
  have kS : (t < Sx k - M2)%N by case: (Scas kM) => -[]; lia.
  by rewrite /Lo ifT // /dsum; case: (ltnP _ R3) => *; lia.
- have [kR|kR] := ltnP k (R1 + R2); first by rewrite SxA // ifT //; lia.
  have kS : Sx k = (M2 + (k - (R1 + R2)))%N.
    by rewrite -SxB ?subnKC //; lia.
  rewrite kS ifF ?addKn; last by lia.
  by rewrite dsum_lo ?/Lo ?ifF //; lia.
- rewrite -kt tS ifF ?addKn; last by lia.
  rewrite e2 tT z3' ?ifF ?addKn // ?e2; [|lia..].
  by rewrite /Lo ltnn eqxx.
Qed.

Lemma Lo4 k t : (k < M)%N -> (t < R4)%N -> Lo d Yx k (R1 + R2 + R3 + t) = L4 (Sx k) t.
Proof.
move=> kM tR; have tT := TxD tR.
have tN : (N2 + R2 + t < N)%N by lia.
have tS : Sx (R1 + R2 + R3 + t) = (M2 + R3 + t)%N by rewrite -!addnA [(R1 + _)%N]addnA SxB; lia.
rewrite {1}/Lo /Yx tT /L4.
case: (ltngtP (R1 + R2 + R3 + t) k) => kt.
- case: ltnP => kM2.
    have [kS kR] : (R1 + R2 <= Sx k)%N /\ (R1 + R2 + R3 + R4 <= k)%N by case: (Scas kM) => -[]; lia.
    rewrite z2' //; [|lia]; rewrite ifF; [|lia].
    rewrite -addnA addKn dsum_addn (f_zero h2) //; [lia|].
    have : (u4 t < N3 - R2)%N by apply: (f_u h4).1; rewrite /N3; lia.
    rewrite /N3; lia.
  have kS : (t < Sx k - M2 - R3)%N by case: (Scas kM) => -[]; lia.
  rewrite z4'; [|by have := Sx_lt a1 a2 b1 b2 kM; lia|lia].
  rewrite -addnA !addKn !ifF; [|lia..].
  by rewrite /Lo ifT.
- have [kR|kR] := ltnP k (R1 + R2); first by rewrite SxA // ifT //; lia.
  have kS : Sx k = (M2 + (k - (R1 + R2)))%N.
    by rewrite -SxB ?subnKC //; lia.
  rewrite kS ifF ?addKn; last by lia.
  by case: ifP => //; rewrite /Lo => H'; rewrite !ifF //; lia.
- rewrite -kt tS ifF; last by lia.
  rewrite -addnA addKn ifF; last by lia.
  rewrite tT z4' -?addnA; [|lia..].
  rewrite !addKn !ifF; [|lia..].
  by rewrite /Lo ltnn eqxx.
Qed.

Lemma Up1 l t : (l < N)%N -> (t < R1)%N -> Up d Yx t l = U1 t (Tx l).
Proof.
move=> lN tR; have tS : Sx t = t by apply: SxA; lia.
have e3 : dsum R1 s2 t = t by apply: dsum_lo.
have tM : (t < M2)%N by lia.
rewrite {1}/Up /Yx tS /U1.
have [[kR kS]|H'] : (l < R1)%N /\ Tx l = l \/ (R1 <= l)%N /\ (R1 <= Tx l)%N.
  by case: (Tcas lN) => -[]; lia.
- have e2 : dsum R1 u3 l = l by apply: dsum_lo.
  have kM2 : (l < N2)%N by lia.
  rewrite kS kM2 e2 /Up; case: ltnP => kt; first by rewrite z1 ?e2 ?e3.
  by case: eqP => // tk; case: (d) => //; rewrite TxA // z1 // ?e3 ?tk ?e2.
- case: H' => kR kS; rewrite ifT; last by lia.
  case: ltnP => SM.
    by rewrite z1 ?e3 // /Up ifT //; have := dsum_ge u3 kS; lia.
  by rewrite z2' ?tR //; have := Tx_lt a1 a2 b1 b2 lN; lia.
Qed.

Lemma Up2 l t : (l < N)%N -> (t < R2)%N -> Up d Yx (R1 + t) l = U2 t (Tx l).
Proof.
move=> lN tR; have tT := TxB tR; have tS : Sx (R1 + t) = (R1 + t)%N by apply: SxA; lia.
have tM : (R1 + t < M2)%N by lia.
have e2 : dsum R2 u4 t = t by apply: dsum_lo.
rewrite {1}/Up /Yx tS /U2.
case: (ltngtP (R1 + t) l) => lt.
- case: ltnP => lN2.
    have lS : (R1 <= Tx l)%N by case: (Tcas lN) => -[]; lia.
    rewrite z1 // (f_zero h1) // dsum_ge ?leq_addr //=.
      exact: (dsum_lt (f_RM h1) S2).
    exact: (dsum_lt (f_RN h1) T3).
  rewrite z2' // ?ifF ?addKn //; [|lia|by have := Tx_lt a1 a2 b1 b2 lN; lia].
  have kS : (t < Tx l - N2)%N by case: (Tcas lN) => -[]; lia.
  by rewrite /Up ifT // /dsum; case: (ltnP _ R2) => *; lia.
- have [kR|kR] := ltnP l R1; first by rewrite TxA // ifT //; lia.
  have kS : Tx l = (N2 + (l - R1))%N by rewrite -TxB ?subnKC //; lia.
  rewrite kS ifF ?addKn; last by lia.
  by rewrite dsum_lo ?/Up ?ifF //; lia.
- rewrite -lt tT ifF ?addKn; last by lia.
  rewrite e2 z2' ?ifF ?addKn // ?e2; [|lia..].
  by rewrite /Up ltnn eqxx.
Qed.

Lemma Up3 l t : (l < N)%N -> (t < R3)%N -> Up d Yx (R1 + R2 + t) l = U3 t (Tx l).
Proof.
move=> lN tR; have tT := TxC tR; have tS : Sx (R1 + R2 + t) = (M2 + t)%N by apply: SxB; lia.
have tM : (M2 <= M2 + t < M)%N by lia.
have e2 : dsum R3 s4 t = t by apply: dsum_lo.
rewrite {1}/Up /Yx tS /U3.
case: (ltngtP (R1 + R2 + t) l) => lt.
- case: ltnP => lN2.
    have lS : (R1 + t < Tx l)%N by case: (Tcas lN) => -[]; lia.
    rewrite z3' // addKn e2 !ifF; [|lia..].
    by rewrite /Up ifT //; lia.
  have lS : (N2 + R2 <= Tx l)%N by case: (Tcas lN) => -[]; lia.
  rewrite z4' // ?addKn; [|by have := Tx_lt a1 a2 b1 b2 lN; lia].
  by rewrite ifF ?[in RHS]ifF ?tR //; lia.
- have [kR|kR] := ltnP l R1; first by rewrite TxA // ifT // ?kR //; lia.
  have [lR|lR] := ltnP l (R1 + R2).
    have kS : Tx l = (N2 + (l - R1))%N by rewrite -TxB ?subnKC //; lia.
    by rewrite kS ifF ?addKn ?ifT //; lia.
  have kS : Tx l = (R1 + (l - (R1 + R2)))%N by rewrite -TxC ?subnKC //; lia.
  rewrite kS ifT ?ifF ?addKn; [|lia..].
  by rewrite /Up !ifF //; lia.
- rewrite -lt tT ifT ?ifF ?addKn; [|lia..].
  rewrite z3' ?ifF ?addKn // ?e2; [|lia..].
  by rewrite /Up ltnn eqxx.
Qed.

Lemma Up4 l t : (l < N)%N -> (t < R4)%N -> Up d Yx (R1 + R2 + R3 + t) l = U4 t (Tx l).
Proof.
move=> lN tR; have tT := TxD tR.
have tS : Sx (R1 + R2 + R3 + t) = (M2 + R3 + t)%N by rewrite -!addnA [(R1 + _)%N]addnA SxB; lia.
have tM : (M2 <= M2 + R3 + t < M)%N by lia.
rewrite {1}/Up /Yx tS /U4.
case: (ltngtP (R1 + R2 + R3 + t) l) => lt.
- case: ltnP => lN2.
    have lS : (R1 + R3 <= Tx l)%N by case: (Tcas lN) => -[]; lia.
    rewrite z3' // -addnA addKn dsum_addn ifF; [|lia].
    rewrite (f_zero h3) //; [|lia].
    have : (s4 t < M3 - R3)%N by apply: (f_s h4).1; rewrite /M3; lia.
    rewrite /M3; lia.
  have lS : (N2 + R2 + t < Tx l)%N by case: (Tcas lN) => [[]|[]|[]|[[]|[]]]; lia.
  rewrite z4' //; [|by have := Tx_lt a1 a2 b1 b2 lN; lia].
  rewrite -addnA addKn !ifF ?addKn; [|lia..].
  by rewrite /Up ifT //; lia.
- have [kR|kR] := ltnP l R1; first by rewrite TxA // ifT // ?kR //; lia.
  have [lR|lR] := ltnP l (R1 + R2).
    have kS : Tx l = (N2 + (l - R1))%N by rewrite -TxB ?subnKC //; lia.
    by rewrite kS ifF ?addKn ?ifT //; lia.
  have [lR'|lR'] := ltnP l (R1 + R2 + R3).
    have kS : Tx l = (R1 + (l - (R1 + R2)))%N by rewrite -TxC ?subnKC //; lia.
    by rewrite kS ifT //; lia.
  have kS : Tx l = (N2 + R2 + (l - (R1 + R2 + R3)))%N by rewrite -TxD ?subnKC //; lia.
  rewrite kS !ifF; [|lia..].
  by rewrite /Up !ifF //; lia.
- rewrite -lt tT !ifF; [|lia..].
  rewrite z4' -?addnA; [|lia..].
  rewrite !addKn !ifF; [|lia..].
  by rewrite /Up ltnn eqxx.
Qed.

Lemma rho_perm : is_perm M rho.
Proof.
split=> [i iM|i j iM jM]; rewrite /rho.
  case: (ltnP i M2) => iM2; first by apply: (leq_trans _ M2M); apply: (f_s h1).1; apply: (dsum_lt (f_RM h1) S2).
  have : (s3 (dsum R3 s4 (i - M2)) < M3)%N.
    by apply: (f_s h3).1; apply: (dsum_lt (f_RM h3) S4); rewrite /M3; lia.
  by rewrite /M3; lia.
have b0 k : (k < M2)%N -> (s1 (dsum R1 s2 k) < M2)%N.
  by move=> kM; apply: (f_s h1).1; apply: (dsum_lt (f_RM h1) S2).
case: (ltnP i M2) => iM2; case: (ltnP j M2) => jM2.
- by apply: (perm_comp (f_s h1) (dsum_perm (f_RM h1) S2)).2.
- by have := b0 _ iM2; lia.
- by have := b0 _ jM2; lia.
- move/eqP; rewrite eqn_add2l => /eqP /((perm_comp (f_s h3) (dsum_perm (f_RM h3) S4)).2).
  by rewrite /M3; lia.
Qed.

Lemma gam_perm : is_perm N gam.
Proof.
split=> [i iM|i j iM jM]; rewrite /gam.
  case: (ltnP i N2) => iM2; first by apply: (leq_trans _ N2N); apply: (f_u h1).1; apply: (dsum_lt (f_RN h1) T3).
  have : (u2 (dsum R2 u4 (i - N2)) < N3)%N.
    by apply: (f_u h2).1; apply: (dsum_lt (f_RN h2) T4); rewrite /N3; lia.
  by rewrite /N3; lia.
have b0 k : (k < N2)%N -> (u1 (dsum R1 u3 k) < N2)%N.
  by move=> kM; apply: (f_u h1).1; apply: (dsum_lt (f_RN h1) T3).
case: (ltnP i N2) => iM2; case: (ltnP j N2) => jM2.
- by apply: (perm_comp (f_u h1) (dsum_perm (f_RN h1) T3)).2.
- by have := b0 _ iM2; lia.
- by have := b0 _ jM2; lia.
- move/eqP; rewrite eqn_add2l => /eqP /((perm_comp (f_u h2) (dsum_perm (f_RN h2) T4)).2).
  by rewrite /N3; lia.
Qed.

Let ms d' M' N' A' X' s' u' R' i j : facg o d' M' N' A' X' s' u' R' -> o -> (R' <= i <= j)%N -> (j < M')%N -> (s' i <= s' j)%N.
Proof.
move=> h oT /andP[Ri ij] jM; case: (ltngtP i j) ij => // [ij|->] _ //.
by apply: ltnW; apply: (g_ms h oT) => //; rewrite Ri.
Qed.
Let mu d' M' N' A' X' s' u' R' i j : facg o d' M' N' A' X' s' u' R' -> o -> (R' <= i <= j)%N -> (j < N')%N -> (u' i <= u' j)%N.
Proof.
move=> h oT /andP[Ri ij] jM; case: (ltngtP i j) ij => // [ij|->] _ //.
by apply: ltnW; apply: (g_mu h oT) => //; rewrite Ri.
Qed.

Lemma rho_lo k : (k < M2)%N -> (rho k < M2)%N.
Proof. by move=> kM; rewrite /rho kM; apply: (f_s h1).1; apply: (dsum_lt (f_RM h1) S2). Qed.
Lemma rho_hi k : (M2 <= k)%N -> (M2 <= rho k)%N.
Proof. by rewrite /rho ltnNge => ->; exact: leq_addr. Qed.
Lemma gam_lo k : (k < N2)%N -> (gam k < N2)%N.
Proof. by move=> kM; rewrite /gam kM; apply: (f_u h1).1; apply: (dsum_lt (f_RN h1) T3). Qed.
Lemma gam_hi k : (N2 <= k)%N -> (N2 <= gam k)%N.
Proof. by rewrite /gam ltnNge => ->; exact: leq_addr. Qed.

Lemma ordL1 k t : o -> (k < M)%N -> (t < R1)%N -> L1 k t != 0 -> (rho t <= rho k)%N.
Proof.
move=> oT kM tR; have tM : (t < M2)%N by lia.
case: (ltnP k M2) => kM2; last by have := rho_lo tM; have := rho_hi kM2; lia.
rewrite /L1 /rho kM2 tM (dsum_lo _ tR); apply: (g_lo h1 oT) => //.
exact: (dsum_lt (f_RM h1) S2).
Qed.
Lemma ordL2 k t : o -> (k < M)%N -> (t < R2)%N -> L2 k t != 0 -> (rho (R1 + t) <= rho k)%N.
Proof.
move=> oT kM tR; have tM : (R1 + t < M2)%N by lia.
case: (ltnP k M2) => kM2; last by have := rho_lo tM; have := rho_hi kM2; lia.
rewrite /L2 /rho kM2 tM dsum_addn; case: ltnP => kR; first by rewrite eqxx.
move=> /(g_lo h2 oT) H'; have {}H' : (s2 t <= s2 (k - R1))%N by apply: H' => //; lia.
rewrite dsum_hi //; apply: (ms h1 oT); first by lia.
by have : (s2 (k - R1) < M2 - R1)%N by [apply: S2.1; lia]; lia.
Qed.
Lemma ordL3 k t : o -> (k < M)%N -> (t < R3)%N -> L3 k t != 0 -> (rho (M2 + t) <= rho k)%N.
Proof.
move=> oT kM tR; rewrite /L3 /rho; case: ltnP => kM2; first by rewrite eqxx.
rewrite ifF ?addKn; last by lia.
rewrite leq_add2l (dsum_lo _ tR); apply: (g_lo h3 oT) => //.
by apply: (dsum_lt (f_RM h3) S4); rewrite /M3; lia.
Qed.
Lemma ordL4 k t : o -> (k < M)%N -> (t < R4)%N -> L4 k t != 0 -> (rho (M2 + R3 + t) <= rho k)%N.
Proof.
move=> oT kM tR; rewrite /L4 /rho; case: ltnP => kM2; first by rewrite eqxx.
rewrite (ifF _ _ (_ : (M2 + R3 + t < M2)%N = false)); last by lia.
rewrite leq_add2l -addnA addKn dsum_addn; case: ltnP => kR; first by rewrite eqxx.
move=> /(g_lo h4 oT) H'; have {}H' : (s4 t <= s4 (k - M2 - R3))%N by apply: H' => //; rewrite /M3; lia.
rewrite dsum_hi //; apply: (ms h3 oT); first by lia.
by have : (s4 (k - M2 - R3) < M3 - R3)%N by [apply: S4.1; rewrite /M3; lia]; lia.
Qed.

Lemma ordU1 l t : o -> (l < N)%N -> (t < R1)%N -> U1 t l != 0 -> (gam t <= gam l)%N.
Proof.
move=> oT kM tR; have tM : (t < N2)%N by lia.
case: (ltnP l N2) => kM2; last by have := gam_lo tM; have := gam_hi kM2; lia.
rewrite /U1 /gam kM2 tM (dsum_lo _ tR); apply: (g_up h1 oT) => //.
exact: (dsum_lt (f_RN h1) T3).
Qed.
Lemma ordU2 l t : o -> (l < N)%N -> (t < R2)%N -> U2 t l != 0 -> (gam (N2 + t) <= gam l)%N.
Proof.
move=> oT kM tR; rewrite /U2 /gam; case: ltnP => kM2; first by rewrite eqxx.
rewrite ifF ?addKn; last by lia.
rewrite leq_add2l (dsum_lo _ tR); apply: (g_up h2 oT) => //.
by apply: (dsum_lt (f_RN h2) T4); rewrite /N3; lia.
Qed.
Lemma ordU3 l t : o -> (l < N)%N -> (t < R3)%N -> U3 t l != 0 -> (gam (R1 + t) <= gam l)%N.
Proof.
move=> oT kM tR; have tM : (R1 + t < N2)%N by lia.
case: (ltnP l N2) => kM2; last by have := gam_lo tM; have := gam_hi kM2; lia.
rewrite /U3 /gam kM2 tM dsum_addn; case: ltnP => kR; first by rewrite eqxx.
move=> /(g_up h3 oT) H'; have {}H' : (u3 t <= u3 (l - R1))%N by apply: H' => //; lia.
rewrite dsum_hi //; apply: (mu h1 oT); first by lia.
by have : (u3 (l - R1) < N2 - R1)%N by [apply: T3.1; lia]; lia.
Qed.
Lemma ordU4 l t : o -> (l < N)%N -> (t < R4)%N -> U4 t l != 0 -> (gam (N2 + R2 + t) <= gam l)%N.
Proof.
move=> oT kM tR; rewrite /U4 /gam; case: ltnP => kM2; first by rewrite eqxx.
rewrite (ifF _ _ (_ : (N2 + R2 + t < N2)%N = false)); last by lia.
rewrite leq_add2l -addnA addKn dsum_addn; case: ltnP => kR; first by rewrite eqxx.
move=> /(g_up h4 oT) H'; have {}H' : (u4 t <= u4 (l - N2 - R2))%N by apply: H' => //; rewrite /N3; lia.
rewrite dsum_hi //; apply: (mu h2 oT); first by lia.
by have : (u4 (l - N2 - R2) < N3 - R2)%N by [apply: T4.1; rewrite /N3; lia]; lia.
Qed.

(** The index t among the pivots, by group. *)
Lemma grp t : (t < rk)%N -> [\/ (t < R1)%N, exists2 t', (t' < R2)%N & t = (R1 + t')%N,
  exists2 t', (t' < R3)%N & t = (R1 + R2 + t')%N | exists2 t', (t' < R4)%N & t = (R1 + R2 + R3 + t')%N].
Proof.
move=> tr; case: (ltnP t R1) => g1; first exact: Or41.
case: (ltnP t (R1 + R2)) => g2; first by apply: Or42; exists (t - R1)%N; lia.
case: (ltnP t (R1 + R2 + R3)) => g3; first by apply: Or43; exists (t - (R1 + R2))%N; lia.
by apply: Or44; exists (t - (R1 + R2 + R3))%N; lia.
Qed.

Let tS3 t : (t < R3)%N -> Sx (R1 + R2 + t) = (M2 + t)%N.
Proof. by move=> tR; apply: SxB; lia. Qed.
Let tS4 t : (t < R4)%N -> Sx (R1 + R2 + R3 + t) = (M2 + R3 + t)%N.
Proof. by move=> tR; rewrite -!addnA [(R1 + _)%N]addnA SxB; lia. Qed.

Lemma combine : facg o d M N A Yx (fun k => rho (Sx k)) (fun l => gam (Tx l)) rk.
Proof.
have SM k : (k < M)%N -> (Sx k < M)%N by exact: (Sx_lt a1 a2 b1 b2).
have TN k : (k < N)%N -> (Tx k < N)%N by exact: (Tx_lt a1 a2 b1 b2).
split.
- by apply: perm_comp rho_perm _; apply: exch_perm; lia.
- by apply: perm_comp gam_perm _; apply: perm_comp; apply: exch_perm; lia.
- lia.
- lia.
- move=> t /grp[tR|[t' tR ->]|[t' tR ->]|[t' tR ->]]; rewrite /Yx.
  + by rewrite TxA // SxA ?z1 ?dsum_lo ?(f_piv h1) //; lia.
  + rewrite TxB // SxA ?z2 //; [|rewrite /N3; lia|lia|lia].
    by rewrite ltnNge leq_addr /= addKn dsum_lo // (f_piv h2).
  + rewrite TxC // tS3 // z3; [|rewrite /M3; lia|lia].
    by rewrite ltnNge leq_addr /= addKn dsum_lo // (f_piv h3).
  + rewrite TxD // tS4 // -!addnA z4; [|rewrite /M3; lia|rewrite /N3; lia].
    by rewrite !ltnNge !leq_addr /= !addKn (f_piv h4).
- move=> k l /andP[kR kM] /andP[lR lN]; rewrite /Yx.
  have kS : (R1 + R2 <= Sx k < M2)%N || (M2 + R3 + R4 <= Sx k < M)%N by case: (Scas kM) => -[]; lia.
  have lT : (R1 + R3 <= Tx l < N2)%N || (N2 + R2 + R4 <= Tx l < N)%N.
    by case: (Tcas lN) => [[]|[]|[]|[[]|[]]]; lia.
  case/orP: kS => kS; case/orP: lT => lT.
  + rewrite z1 ?(f_zero h1) //; [..|lia|lia].
      by rewrite dsum_ge ?(dsum_lt (f_RM h1) S2) //; lia.
    by rewrite dsum_ge ?(dsum_lt (f_RN h1) T3) //; lia.
  + rewrite z2' ?ifF; [|lia..]; rewrite (f_zero h2) //; first by lia.
    by rewrite dsum_ge ?(dsum_lt (f_RN h2) T4) //; rewrite ?/N3; lia.
  + rewrite z3' ?ifF; [|lia..]; rewrite (f_zero h3) //; last by lia.
    by rewrite dsum_ge ?(dsum_lt (f_RM h3) S4) //; rewrite ?/M3; lia.
  + rewrite z4' ?ifF; [|lia..]; rewrite (f_zero h4) //; rewrite ?/M3 ?/N3; lia.
- move=> k l kM lN; rewrite law ?SM ?TN // !rsum_cat.
  congr (_ + _ + _ + _); apply: eq_rsum => t tR.
  + by rewrite Lo1 ?Up1.
  + by rewrite Lo2 ?Up2.
  + by rewrite Lo3 ?Up3.
  + by rewrite Lo4 ?Up4.
- move=> oT k t kM /grp[tR|[t' tR ->]|[t' tR ->]|[t' tR ->]].
  + by rewrite Lo1 // [Sx t]SxA ?(leq_trans tR) ?leq_addr //; apply: ordL1; rewrite ?SM.
  + by rewrite Lo2 // [Sx (_ + _)%N]SxA ?ltn_add2l //; apply: ordL2; rewrite ?SM.
  + by rewrite Lo3 // tS3 //; apply: ordL3; rewrite ?SM.
  + by rewrite Lo4 // tS4 //; apply: ordL4; rewrite ?SM.
- move=> oT t l /grp[tR|[t' tR ->]|[t' tR ->]|[t' tR ->]] lN.
  + by rewrite Up1 // [Tx t]TxA //; apply: ordU1; rewrite ?TN.
  + by rewrite Up2 // TxB //; apply: ordU2; rewrite ?TN.
  + by rewrite Up3 // TxC //; apply: ordU3; rewrite ?TN.
  + by rewrite Up4 // TxD //; apply: ordU4; rewrite ?TN.
- move=> oT i j ij jM; have iM : (i < M)%N by lia.
  have kj : (R1 + R2 <= Sx j < M2)%N || (M2 + R3 + R4 <= Sx j < M)%N by case: (Scas jM) => -[]; lia.
  have ki : (R1 + R2 <= Sx i < M2)%N || (M2 + R3 + R4 <= Sx i < M)%N by case: (Scas iM) => -[]; lia.
  have Sij : (Sx i < Sx j)%N by rewrite /Pluq_idx.Sx /exch; repeat case: ifP => ?; lia.
  case/orP: ki => ki; last first.
    rewrite /rho !ifF ?ltn_add2l; [|lia..].
    rewrite !dsum_hi; [|lia..]; apply: (g_ms h3 oT).
    + by rewrite leq_addr ltn_add2l /=; apply: (g_ms h4 oT); rewrite ?/M3; lia.
    + by have : (s4 (Sx j - M2 - R3) < M3 - R3)%N by [apply: S4.1; rewrite /M3; lia]; lia.
  case/orP: kj => kj; last first.
    by apply: (@leq_trans M2); [apply: rho_lo | apply: rho_hi]; lia.
  rewrite /rho !ifT; [|lia..].
  rewrite !dsum_hi; [|lia..]; apply: (g_ms h1 oT).
  + by rewrite leq_addr ltn_add2l /=; apply: (g_ms h2 oT); lia.
  + by have : (s2 (Sx j - R1) < M2 - R1)%N by [apply: S2.1; lia]; lia.
- move=> oT i j ij jM; have iM : (i < N)%N by lia.
  have kj : (R1 + R3 <= Tx j < N2)%N || (N2 + R2 + R4 <= Tx j < N)%N by case: (Tcas jM) => [[]|[]|[]|[[]|[]]]; lia.
  have ki : (R1 + R3 <= Tx i < N2)%N || (N2 + R2 + R4 <= Tx i < N)%N by case: (Tcas iM) => [[]|[]|[]|[[]|[]]]; lia.
  have Tij : (Tx i < Tx j)%N.
    have [H1 H2] : (rk <= i)%N /\ (i < j)%N by lia.
    case: (ltnP j (N2 + R2 + R4)) => jr.
      by rewrite !(Tx5 a1 a2 b1 b2); lia.
    rewrite [Tx j](Tx6 a1 a2 b1 b2) //; case: (ltnP i (N2 + R2 + R4)) => ir.
      by rewrite (Tx5 a1 a2 b1 b2); lia.
    by rewrite (Tx6 a1 a2 b1 b2).
  case/orP: ki => ki; last first.
    rewrite /gam !ifF ?ltn_add2l; [|lia..].
    rewrite !dsum_hi; [|lia..]; apply: (g_mu h2 oT).
    + by rewrite leq_addr ltn_add2l /=; apply: (g_mu h4 oT); rewrite ?/N3; lia.
    + by have : (u4 (Tx j - N2 - R2) < N3 - R2)%N by [apply: T4.1; rewrite /N3; lia]; lia.
  case/orP: kj => kj; last first.
    by apply: (@leq_trans N2); [apply: gam_lo | apply: gam_hi]; lia.
  rewrite /gam !ifT; [|lia..].
  rewrite !dsum_hi; [|lia..]; apply: (g_mu h1 oT).
  + by rewrite leq_addr ltn_add2l /=; apply: (g_mu h3 oT); lia.
  + by have : (u3 (Tx j - R1) < N2 - R1)%N by [apply: T3.1; lia]; lia.
Qed.

End Fac.

Notation fac := (facg true).
