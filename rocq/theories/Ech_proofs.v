(** * Elimination laws and accessors *)
From mathcomp Require Import all_ssreflect all_algebra zify.
From Verif Require Import Grid Perm_model Perm_spec Perm_proofs Tri_model Tri_spec Tri_proofs Trmm_proofs Trtri_proofs.
From Verif Require Import Pluq_model Pluq_spec Pluq_proofs Pluq_rank Api_model Ludiv_model Ludiv_proofs Ech_model Ech_spec.
Set Implicit Arguments.
Unset Strict Implicit.
Unset Printing Implicit Defensive.
Import GRing.Theory.
Local Open Scope ring_scope.

Section Ech.
Variable F : fieldType.
Implicit Types A X Y T E : grid F.

(** ** Sums over a permutation *)

Lemma rsum_delta n a (G : nat -> F) : (a < n)%N -> rsum n (fun k => (a == k)%:R * G k) = G a.
Proof. by move=> an; rewrite -(rsum_sel G an); apply: eq_rsum => k _; rewrite eq_sym. Qed.

Lemma rsum_perm n s (f : nat -> F) : is_perm n s -> rsum n (fun i => f (s i)) = rsum n f.
Proof.
case=> hs si; rewrite !rsumE.
pose t (i : 'I_n) := Ordinal (hs i (ltn_ord i)).
rewrite [RHS](reindex_inj (h := t)) //= => i j [h]; apply: val_inj; exact: si h.
Qed.

(** ** The elimination law *)

(** The transformation: columns below R from X, identity beyond. *)
Definition Tm (R : nat) X : grid F := fun k j => if (j < R)%N then X k j else (k == j)%:R.

Definition elim (M N : nat) A X E (s u : nat -> nat) (R : nat) : Prop :=
  [/\ is_perm M s /\ is_perm N u, (R <= M)%N /\ (R <= N)%N,
      forall k l, (k < M)%N -> (l < N)%N ->
        rsum M (fun j => Tm R X k j * A (s j) (u l)) = if (k < R)%N then E k l else 0,
      mx R R E \in unitmx &
      forall k l, (k < R)%N -> (l < N)%N -> E k k != 0 /\ (E k l != 0 -> (u k <= u l)%N)].

Lemma Tm_sum M R X k (G : nat -> F) : (R <= M)%N -> (k < M)%N ->
  rsum M (fun j => Tm R X k j * G j) = rsum R (fun j => X k j * G j) + (if (k < R)%N then 0 else G k).
Proof.
move=> RM kM; rewrite -{1}(subnKC RM) rsum_cat; congr (_ + _).
  by apply: eq_rsum => j jR; rewrite /Tm jR.
case: ltnP => kR.
  by apply: rsum0 => j jM; rewrite /Tm ifF; [have -> : (k == (R + j)%N) = false by lia | lia]; rewrite mul0r.
rewrite -{2}(subnKC kR) -(@rsum_delta (M - R) (k - R) (fun j => G (R + j)%N)); last lia.
apply: eq_rsum => j jM; rewrite /Tm ifF; last lia.
by congr (_%:R * _); lia.
Qed.

Lemma elim_unit M N A X E s u R : elim M N A X E s u R -> mx M M (Tm R X) \in unitmx.
Proof.
case=> -[ps pu] [RM RN] law Eu _.
pose Ei := invmx (mx R R E); pose g : grid F := fun i j => if insub i is Some i' then (if insub j is Some j' then Ei i' j' else 0) else 0.
have gE : mx R R g = Ei by apply/matrixP => i j; rewrite mxE /g !valK.
pose W : grid F := fun j k => rsum R (fun l => A (s j) (u l) * g l k).
pose B : grid F := fun j k => if (k < R)%N then (if (j < R)%N then W j k else W j k) else (j == k)%:R.
apply: (@mulmx1_unit _ _ _ (mx M M B) _).1; rewrite mxM; apply/matrixP => i k; rewrite !mxE.
rewrite (Tm_sum _ (fun j => B j k)) //.
have [kR|kR] := ltnP k R.
  have W' j : B j k = W j k by rewrite /B kR; case: ifP.
  rewrite (eq_rsum (g := fun j => X i j * W j k)) => [|j _]; last by rewrite W'.
  rewrite W'.
  have -> : rsum R (fun j => X i j * W j k) + (if (i < R)%N then 0 else W i k) =
    rsum M (fun j => Tm R X i j * W j k) by rewrite Tm_sum.
  have -> : rsum M (fun j => Tm R X i j * W j k) =
     rsum R (fun l => rsum M (fun j => Tm R X i j * A (s j) (u l)) * g l k).
    rewrite /W !rsumE; transitivity (\sum_(j < M) \sum_(l < R) (Tm R X i j * (A (s j) (u l) * g l k))).
      by apply: eq_bigr => j _; rewrite rsumE big_distrr.
    rewrite exchange_big; apply: eq_bigr => l _; rewrite rsumE big_distrl.
    by apply: eq_bigr => j _; rewrite /= mulrA.
  rewrite (eq_rsum (g := fun l => (if (i < R)%N then E i l else 0) * g l k)) => [|l lR]; last first.
    by rewrite law //; lia.
  case iR : (i < R)%N; last first.
    rewrite rsum0 => [|l _]; last by rewrite mul0r.
    by rewrite (_ : (i == k) = false) //; apply/eqP => ik; move: kR; rewrite -ik iR.
  have := mulmxV Eu; rewrite -/Ei -gE mxM => /matrixP /(_ (Ordinal iR) (Ordinal kR)); rewrite !mxE => ->.
  by congr (_%:R).
rewrite rsum0 ?add0r => [|j jR]; last by rewrite /B ifF; [have -> : (j == k :> nat) = false by lia | lia]; rewrite mulr0.
case: (ltnP i R) => iR; last by rewrite /B ifF //; lia.
by have -> : (i == k) = false by apply/eqP => ik; move: kR; rewrite -ik; lia.
Qed.

(** ** From the elimination law to the echelon form and its transformation *)

Lemma elim_final M N A X E s u R tau T E' :
  elim M N A X E s u R -> is_perm M tau -> (forall i, (i < R)%N -> (tau i < R)%N) -> (forall i, (R <= i)%N -> tau i = i) ->
  (forall t t', (t < t' < R)%N -> (u (tau t) < u (tau t'))%N) ->
  (forall i j, (i < M)%N -> (j < M)%N -> T i (s j) = Tm R X (tau i) j) ->
  (forall i l, (i < M)%N -> (l < N)%N -> E' i (u l) = if (i < R)%N then E (tau i) l else 0) ->
  [/\ mx M M T \in unitmx, mx M M T *m mx M N A = mx M N E' &
      echelon_at M N R (fun t => u (tau t)) E'].
Proof.
move=> he pt tR tge inc hT hE; have := elim_unit he; case: he => -[ps pu] [RM RN] law _ ord Tu.
have onto l : (l < N)%N -> exists2 l', (l' < N)%N & u l' = l.
  by have [v [[vN _] uv vu]] := perm_inv pu => lN; exists (v l); [exact: vN | exact: uv].
have TA i l : (i < M)%N -> (l < N)%N -> rsum M (fun j => T i j * A j l) = E' i l.
  move=> iM lN; have [l' l'N <-] := onto l lN; rewrite hE //.
  rewrite -(rsum_perm (fun j => T i j * A j (u l')) ps).
  rewrite (eq_rsum (g := fun j => Tm R X (tau i) j * A (s j) (u l'))) => [|j jM]; last by rewrite hT.
  rewrite law //; last exact: (proj1 pt).
  by case: (ltnP i R) => iR; [rewrite tR | rewrite tge // ltnNge iR].
split.
- have [sv [[svM _] ssv svs]] := perm_inv ps; have [tv [[tvM tvi] ttv tvt]] := perm_inv pt.
  have -> : mx M M T = mx M M (fun i j => (j == tau i)%:R) *m mx M M (Tm R X) *m mx M M (fun i j => (i == sv j)%:R).
    rewrite !mxM; apply: eq_mx => i j iM jM.
    rewrite -{1}(ssv j jM) hT //; last exact: svM.
    rewrite (eq_rsum (g := fun k => (k == sv j)%:R * Tm R X (tau i) k)) => [|k kM].
      by rewrite rsum_sel //; exact: svM.
    rewrite mulrC; congr (_ * _); rewrite rsum_sel //; exact: (proj1 pt).
  rewrite !unitmx_mul Tu andbT /=; apply/andP; split.
    apply: (@mulmx1_unit _ _ _ (mx M M (fun i j => (i == tau j)%:R)) _).1.
    rewrite mxM; apply/matrixP => i j; rewrite !mxE.
    rewrite (eq_rsum (g := fun k => (k == tau i)%:R * (k == tau j)%:R)) //.
    rewrite rsum_sel; last exact: (proj1 pt).
    suff -> : (tau i == tau j) = (i == j) by [].
    by apply/eqP/eqP => [h|->] //; apply: val_inj; exact: (proj2 pt) h.
  apply: (@mulmx1_unit _ _ _ (mx M M (fun i j => (j == sv i)%:R)) _).1.
  rewrite mxM; apply/matrixP => i j; rewrite !mxE.
  rewrite (eq_rsum (g := fun k => (k == s i)%:R * (j == sv k :> nat)%:R)) => [|k kM].
    rewrite rsum_sel; last exact: (proj1 ps).
    by rewrite svs // eq_sym.
  suff -> : (i == sv k :> nat) = (k == s i) by [].
  by apply/eqP/eqP => [->|->]; rewrite ?ssv ?svs.
- by rewrite mxM; apply: eq_mx => i l iM lN; rewrite TA.
split=> //.
- by move=> t tR'; apply: (proj1 pu); have := tR t tR'; lia.
- move=> t tR'; have ht := tR t tR'; have h := ord (tau t) (tau t) ht; split.
    by rewrite hE ?tR'; [apply: (h _).1; lia | lia | lia].
  move=> j jp; have jN : (j < N)%N by have := (proj1 pu) (tau t); lia.
  have [l lN jE] := onto j jN; rewrite -jE hE ?tR' //; last lia.
  by apply/eqP; apply: contraLR jp => /(proj2 (ord _ _ ht lN)); rewrite jE -leqNgt.
move=> i j /andP[iR iM] jN; have [l lN <-] := onto j jN; rewrite hE // ifF //; lia.
Qed.

(** ** Laws from a factorisation *)

Definition lu (M N : nat) A X (s u : nat -> nat) (R : nat) : Prop :=
  [/\ is_perm M s /\ is_perm N u, (R <= M)%N /\ (R <= N)%N,
      forall t, (t < R)%N -> X t t != 0,
      forall k l, (k < M)%N -> (l < N)%N -> A (s k) (u l) = rsum R (fun t => Lo Unit X k t * Up Unit X t l) &
      forall k l, (k < R)%N -> (l < N)%N -> Up Unit X k l != 0 -> (u k <= u l)%N].

(** Y is the inverse of the lower factor completed by the identity. *)
Definition linv (M R : nat) X Y : Prop :=
  forall k j, (k < M)%N -> (j < R)%N ->
    rsum R (fun t => Y k t * Lo Unit X t j) + (if (k < R)%N then 0 else Lo Unit X k j) = (k == j)%:R.

Lemma sum_exch a b (f : nat -> F) (g : nat -> nat -> F) (h : nat -> F) :
  rsum a (fun i => f i * rsum b (fun t => g i t * h t)) = rsum b (fun t => rsum a (fun i => f i * g i t) * h t).
Proof.
rewrite !rsumE; transitivity (\sum_(i < a) \sum_(t < b) (f i * g i t * h t)).
  by apply: eq_bigr => i _; rewrite rsumE big_distrr /=; apply: eq_bigr => t _; rewrite mulrA.
by rewrite exchange_big; apply: eq_bigr => t _; rewrite rsumE big_distrl.
Qed.

Lemma up_unit R X : mx R R (Up Unit X) \in unitmx.
Proof.
apply: upper_unit => [i j /andP[ji jR]|i iR]; rewrite /Up.
  by rewrite ifF ?ifF //; lia.
by rewrite ltnn eqxx oner_eq0.
Qed.

Lemma rsum_neq0 n (f : nat -> F) : rsum n f != 0 -> exists2 t, (t < n)%N & f t != 0.
Proof.
elim: n => [|n IH] /=; first by rewrite eqxx.
have [->|fn] := eqVneq (f n) 0; last by move=> _; exists n.
by rewrite addr0 => /IH [t tn ft]; exists t => //; lia.
Qed.

Lemma lu_elim M N A X Y s u R : lu M N A X s u R -> linv M R X Y -> elim M N A Y (Up Unit X) s u R.
Proof.
case=> ps [RM RN] dg law ord inv; split=> //; last 2 first.
- exact: up_unit.
- by move=> k l kR lN; split; [rewrite /Up ltnn eqxx oner_neq0 | exact: ord].
move=> k l kM lN; rewrite (Tm_sum _ (fun j => A (s j) (u l))) //.
rewrite (eq_rsum (g := fun j => Y k j * rsum R (fun t => Lo Unit X j t * Up Unit X t l))) => [|j jR]; last first.
  by rewrite law //; lia.
rewrite sum_exch law //.
have -> : (if (k < R)%N then 0 else rsum R (fun t => Lo Unit X k t * Up Unit X t l)) =
  rsum R (fun t => (if (k < R)%N then 0 else Lo Unit X k t) * Up Unit X t l).
  by case: ifP => // _; rewrite rsum0 // => t _; rewrite mul0r.
rewrite -rsumD (eq_rsum (g := fun t => (k == t)%:R * Up Unit X t l)) => [|t tR]; last first.
  by rewrite -mulrDl inv.
case: ltnP => kR; first by rewrite rsum_delta.
by rewrite rsum0 // => t tR; rewrite (_ : (k == t) = false) ?mul0r //; lia.
Qed.

(** The reduced form: V inverts the leading block of the upper factor. *)
Lemma lu_elim_red M N A X Y V Z s u R : lu M N A X s u R -> linv M R X Y ->
  (forall k l, (k < R)%N -> (l < R)%N -> rsum R (fun t => V k t * Up Unit X t l) = (k == l)%:R) ->
  (forall k j, (k < M)%N -> (j < R)%N -> Z k j = if (k < R)%N then rsum R (fun t => V k t * Y t j) else Y k j) ->
  elim M N A Z (fun k l => rsum R (fun t => V k t * Up Unit X t l)) s u R.
Proof.
move=> hl inv hV hZ; have [ps [RM RN] law _ ord] := lu_elim hl inv.
case: hl => _ _ _ _ ordU.
have VU : mx R R V *m mx R R (Up Unit X) = 1%:M.
  by rewrite mxM; apply/matrixP => i j; rewrite !mxE hV.
(* V k t is nonzero only when u k <= u t *)
have ordV k l : (k < R)%N -> (l < R)%N -> V k l != 0 -> (u k <= u l)%N.
  move=> kR; have [b lb] : exists b, (u l <= b)%N by exists (u l).
  elim: b l lb => [|b IH] l lb lR.
    case: (leqP (u k) (u l)) => // ukl; move/negP; case.
    have kl : (k == l) = false by apply/eqP => kl; move: ukl; rewrite kl ltnn.
    have := hV k l kR lR; rewrite kl (eq_rsum (g := fun t => (t == l)%:R * V k t)) => [|t tR]; last first.
      case: eqP => [->|tl]; first by rewrite /Up ltnn eqxx mulrC.
      rewrite mul0r; have [->|Un] := eqVneq (Up Unit X t l) 0; first by rewrite mulr0.
      have := ordU t l tR (leq_trans lR RN) Un => h; case: tl; apply: (proj2 (proj2 ps)); lia.
    by rewrite rsum_sel // => ->.
  case: (leqP (u k) (u l)) => // ukl; move/negP; case.
  have kl : (k == l) = false by apply/eqP => kl; move: ukl; rewrite kl ltnn.
  have := hV k l kR lR; rewrite kl (eq_rsum (g := fun t => (t == l)%:R * V k t)) => [|t tR]; last first.
    case: eqP => [->|tl]; first by rewrite /Up ltnn eqxx mulrC.
    rewrite mul0r; have [->|Un] := eqVneq (Up Unit X t l) 0; first by rewrite mulr0.
    have h := ordU t l tR (leq_trans lR RN) Un.
    have tl' : (u t != u l)%N by apply/eqP => e; apply: tl; apply: (proj2 (proj2 ps)) => //; lia.
    have [->|Vn] := eqVneq (V k t) 0; first by rewrite mul0r.
    by have := IH t; rewrite tR Vn => /(_ _ isT isT); lia.
  by rewrite rsum_sel // => ->.
split=> //.
- move=> k l kM lN; rewrite (Tm_sum _ (fun j => A (s j) (u l))) //.
  have Lk t : (t < M)%N -> rsum R (fun j => Y t j * A (s j) (u l)) + (if (t < R)%N then 0 else A (s t) (u l)) =
      if (t < R)%N then Up Unit X t l else 0.
    by move=> tM; rewrite -law // (Tm_sum _ (fun j => A (s j) (u l))).
  rewrite (eq_rsum (g := fun j => (if (k < R)%N then rsum R (fun t => V k t * Y t j) else Y k j) * A (s j) (u l))); last first.
    by move=> j jR; rewrite hZ.
  case: (ltnP k R) (Lk k kM) => kR // _; rewrite addr0.
  rewrite -(sum_exch R R (V k) Y (fun j => A (s j) (u l))).
  apply: eq_rsum => t tR; congr (_ * _); have := Lk t; rewrite tR addr0 => -> //; lia.
- by have := VU; rewrite mxM => ->; exact: unitmx1.
move=> k l kR lN; split; first by rewrite hV // eqxx oner_neq0.
move=> /rsum_neq0 [t tR]; rewrite mulf_eq0 negb_or => /andP[V0 U0].
exact: leq_trans (ordV _ _ kR tR V0) (ordU _ _ tR lN U0).
Qed.
End Ech.
