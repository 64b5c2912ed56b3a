(** * Ranks and matrix form of a Bruhat generator, LTQSorder, the extraction of the factors *)
From mathcomp Require Import all_ssreflect all_algebra zify ring.
From Verif Require Import Grid Perm_model Perm_spec Perm_proofs Tri_model Tri_spec Tri_proofs.
From Verif Require Import Pluq_model Pluq_spec Pluq_rank.
From Verif Require Import Bruhat_model Bruhat_spec Bruhat_combine Bruhat_proofs.
Set Implicit Arguments.
Unset Strict Implicit.
Unset Printing Implicit Defensive.
Import GRing.Theory.
Local Open Scope ring_scope.

Section Rank.
Variable F : fieldType.
Implicit Types A X L U : grid F.

Lemma tri_rank m n r A L U (P Q : nat -> nat) :
  (forall i j, (i < m)%N -> (j < n)%N -> A i j = rsum r (fun k => L i k * U k j)) ->
  (forall i k, (i < m)%N -> (k < r)%N -> L i k != 0 -> (P k <= i)%N) ->
  (forall k j, (k < r)%N -> (j < n)%N -> U k j != 0 -> (Q k <= j)%N) ->
  (forall j k, (j < k < r)%N -> L (P j) k = 0) -> (forall j k, (j < k < r)%N -> U k (Q j) = 0) ->
  (forall k, (k < r)%N -> (P k < m)%N -> (Q k < n)%N -> L (P k) k != 0 /\ U k (Q k) != 0) ->
  \rank (mx m n A) = nlead P Q r m n.
Proof.
move=> law hL hU tL tU piv.
set T := filter (fun k => (P k < m) && (Q k < n))%N (iota 0 r).
rewrite /nlead -size_filter -/T; set c := size T.
pose tt k := nth 0%N T k.
have ttT k : (k < c)%N -> [/\ (tt k < r)%N, (P (tt k) < m)%N & (Q (tt k) < n)%N].
  by move=> kc; have := mem_nth 0%N kc; rewrite -/(tt k) mem_filter mem_iota add0n => /andP[/andP[-> ->] /andP[_ ->]].
have ttS : sorted ltn T by apply: sorted_filter; [exact: ltn_trans | exact: iota_ltn_sorted].
have ttlt a b : (b < c)%N -> (a < b)%N -> (tt a < tt b)%N.
  move=> bc ab; apply: (sorted_ltn_nth ltn_trans 0%N ttS) => //; rewrite inE //; exact: ltn_trans bc.
have sumT (G : nat -> F) : (forall t, (t < r)%N -> t \notin T -> G t = 0) -> \sum_(t < r) G t = \sum_(k < c) G (tt k).
  move=> z; rewrite -(big_mkord xpredT G) (bigID (fun t => t \in T)) /= [X in _ + X]big1_seq ?addr0; last first.
    by move=> t /andP[tT]; rewrite mem_index_iota => /andP[_ tR]; exact: z.
  rewrite -big_filter.
  have -> : [seq t <- index_iota 0 r | t \in T] = T.
    by rewrite /T /index_iota subn0; apply: eq_in_filter => t tR; rewrite mem_filter tR andbT.
  by rewrite (big_nth 0%N) big_mkord.
have TE t : (t < r)%N -> (t \in T) = ((P t < m) && (Q t < n))%N by move=> tR; rewrite mem_filter mem_iota leq0n add0n tR !andbT.
have {}sumT i j : (i < m)%N -> (j < n)%N -> A i j = rsum c (fun k => L i (tt k) * U (tt k) j).
  move=> im jn; rewrite law // !rsumE; apply: (sumT (fun k => L i k * U k j)) => t tR; rewrite TE // => tT.
  case: (eqVneq (L i t) 0) => [->|l0]; first by rewrite mul0r.
  case: (eqVneq (U t j) 0) => [->|u0]; first by rewrite mulr0.
  by have := hL _ _ im tR l0; have := hU _ _ tR jn u0; lia.
clearbody tt c; clear T ttS TE.
apply/eqP; rewrite eqn_leq; apply/andP; split.
- have -> : mx m n A = mx m c (fun i k => L i (tt k)) *m mx c n (fun k j => U (tt k) j).
    by rewrite mxM; apply: eq_mx => i j iM jN; rewrite sumT.
  apply: leq_trans (mxrankM_maxl _ _) _; exact: rank_leq_col.
- apply: (rank_ge (S := mx c m (fun i k => (k == P (tt i))%:R)) (T := mx n c (fun k j => (k == Q (tt j))%:R))).
  rewrite mx_sel; [|by move=> i /ttT[]|by move=> i /ttT[]].
  have -> : mx c c (fun i j => A (P (tt i)) (Q (tt j))) =
     mx c c (fun i k => L (P (tt i)) (tt k)) *m mx c c (fun k j => U (tt k) (Q (tt j))).
    by rewrite mxM; apply: eq_mx => i j /ttT[iR pi _] /ttT[jR _ qj]; rewrite sumT.
  rewrite unitmx_mul; apply/andP; split.
  + apply: lower_unit => [i j /andP[ij jc]|i ic]; last by have [h1 h2 h3] := ttT _ ic; case: (piv _ h1 h2 h3).
    by apply: tL; rewrite ttlt //; case: (ttT _ jc).
  + apply: upper_unit => [i j /andP[ij jc]|i ic]; last by have [h1 h2 h3] := ttT _ ic; case: (piv _ h1 h2 h3).
    by apply: tU; rewrite ttlt //; case: (ttT _ jc).
Qed.

Variables (d : diag) (N r : nat) (A X : grid F) (P Q : nat -> nat).
Hypothesis b : bru d N A X P Q r.

Lemma Lb_piv e k : (k < r)%N -> Lb e N P Q X (P k) k = if e is Unit then 1 else X (P k) (Q k).
Proof.
move=> kr; rewrite /Lb leqnn (b_lt b kr) isNone_has ?eqxx /=; first by case: e.
by move=> j jk /(b_P b (ltn_trans jk kr) kr); lia.
Qed.
Lemma Ub_piv e k : (k < r)%N -> Ub e N P Q X k (Q k) = if e is Unit then 1 else X (P k) (Q k).
Proof.
move=> kr; rewrite /Ub leqnn (addnC (Q k)) (b_lt b kr) isNone_has ?eqxx /=; first by case: e.
by move=> j jk /(b_Q b (ltn_trans jk kr) kr); lia.
Qed.
Lemma Lb_tri e j k : (j < k)%N -> Lb e N P Q X (P j) k = 0.
Proof. by move=> jk; rewrite /Lb ifF //; apply/negP => /and3P[_ _ /negP]; apply; apply/hasP; exists j. Qed.
Lemma Ub_tri e j k : (j < k)%N -> Ub e N P Q X k (Q j) = 0.
Proof. by move=> jk; rewrite /Ub ifF //; apply/negP => /and3P[_ _ /negP]; apply; apply/hasP; exists j. Qed.

Lemma bru_rank m n : (m + n <= N)%N -> \rank (mx m n A) = nlead P Q r m n.
Proof.
move=> mn; apply: (@tri_rank m n r A (Lb (odiag d) N P Q X) (Ub d N P Q X)).
- by move=> i j im jn; apply: (b_law b); lia.
- by move=> i k im kr; rewrite /Lb; case: ifP => [/and3P[]|]; rewrite ?eqxx.
- by move=> k j kr jn; rewrite /Ub; case: ifP => [/and3P[]|]; rewrite ?eqxx.
- by move=> j k /andP[jk _]; exact: Lb_tri.
- by move=> j k /andP[jk _]; exact: Ub_tri.
- by move=> k kr _ _; rewrite Lb_piv // Ub_piv //; have := b_piv b kr; case: (d) => h; split=> //; exact: oner_neq0.
Qed.

Lemma sum_if (f : nat -> F) (p : nat -> nat) k : (k < r)%N -> (forall j k, (j < r)%N -> (k < r)%N -> p j = p k -> j = k) ->
  \sum_(j < r) (if p j == p k then f j else 0) = f k.
Proof.
move=> kr inj; rewrite (bigD1 (Ordinal kr)) //= eqxx big1 ?addr0 // => j /negP ne.
by rewrite ifF //; apply/eqP => e; apply: ne; apply/eqP/val_inj; exact: inj e.
Qed.

Lemma bru_mx i j : (i + j + 1 < N)%N -> let L := Lmat (odiag d) N r P Q X in let U := Umat d N r P Q X in
  \sum_(a < N) \sum_(c < N) L i a * (Rmat F r P Q c a * U c j) = A i j.
Proof.
move=> ij L U; rewrite (b_law b ij) rsumE.
have PN k : (k < r)%N -> (P k < N)%N by move=> kr; have := b_lt b kr; lia.
have QN k : (k < r)%N -> (Q k < N)%N by move=> kr; have := b_lt b kr; lia.
transitivity (\sum_(k < r) \sum_(a < N) \sum_(c < N) L i a * (((P k == c) && (Q k == a))%:R * U c j)).
  rewrite [RHS]exchange_big; apply: eq_bigr => a _ /=; rewrite [RHS]exchange_big; apply: eq_bigr => c _ /=.
  by rewrite -mulr_sumr -mulr_suml.
apply: eq_bigr => k _.
rewrite (bigD1 (Ordinal (QN _ (ltn_ord k)))) //= [X in _ + X]big1 ?addr0; last first.
  move=> a ne; rewrite big1 // => c _.
  have -> : (Q k == a) = false by apply/negP => /eqP e; move/negP: ne; apply; apply/eqP/val_inj.
  by rewrite andbF mul0r mulr0.
rewrite (bigD1 (Ordinal (PN _ (ltn_ord k)))) //= [X in _ + X]big1 ?addr0; last first.
  move=> a ne.
  have -> : (P k == a) = false by apply/negP => /eqP e; move/negP: ne; apply; apply/eqP/val_inj.
  by rewrite mul0r mulr0.
rewrite !eqxx /= mul1r; congr (_ * _).
- exact: (@sum_if (Lb (odiag d) N P Q X i) Q k (ltn_ord k) (b_Q b)).
- exact: (@sum_if (fun t => Ub d N P Q X t j) P k (ltn_ord k) (b_P b)).
Qed.

(** ** The order *)
Lemma marks n (p : nat -> nat) x : iteri n (fun i a => upd1 a (p i) true) (fun=> false) x = has (fun k => p k == x) (iota 0 n).
Proof.
elim: n => // n IH; rewrite iteriS /upd1 -addn1 iotaD has_cat /= add0n orbF -IH eq_sym.
by case: eqP; rewrite ?orbT ?orbF.
Qed.

Lemma nlead_row a c : nlead P Q r a.+1 c = (nlead P Q r a c + count (fun k => (P k == a) && (Q k < c)%N) (iota 0 r))%N.
Proof.
rewrite /nlead -count_predUI [X in (_ + X)%N](@eq_count _ _ xpred0) ?count_pred0 ?addn0.
  by apply: eq_count => k /=; lia.
by move=> k /=; lia.
Qed.
Lemma nlead_col a c : nlead P Q r a c.+1 = (nlead P Q r a c + count (fun k => (P k < a)%N && (Q k == c)) (iota 0 r))%N.
Proof.
rewrite /nlead -count_predUI [X in (_ + X)%N](@eq_count _ _ xpred0) ?count_pred0 ?addn0.
  by apply: eq_count => k /=; lia.
by move=> k /=; lia.
Qed.

Lemma count_one (p : nat -> nat) x : (forall j k, (j < r)%N -> (k < r)%N -> p j = p k -> j = k) ->
  count (fun k => p k == x) (iota 0 r) = nat_of_bool (has (fun k => p k == x) (iota 0 r)).
Proof.
move=> inj; case: hasP => [[k kr <-]|no]; last first.
  by rewrite (@eq_in_count _ _ xpred0) ?count_pred0 // => k; rewrite mem_iota => kr /=; apply/eqP => e; apply: no; exists k.
rewrite (@eq_in_count _ _ (pred1 k)); last first.
  move=> j; rewrite mem_iota => jr /=; apply/eqP/eqP => [e|->] //; exact: inj e.
by rewrite count_uniq_mem ?iota_uniq // mem_iota add0n kr.
Qed.

Lemma nlead0 c : nlead P Q r 0 c = 0%N.
Proof. by rewrite /nlead (@eq_count _ _ xpred0) ?count_pred0 // => k /=; lia. Qed.

Lemma ltqs_inv rows cols (st : nat) n :
  (forall x, rows x = has (fun k => P k == x) (iota 0 r)) -> (forall x, cols x = has (fun k => Q k == x) (iota 0 r)) ->
  (0 < N)%N -> (n < N)%N -> st = nlead P Q r 1 (N - 1) ->
  iteri n (fun k => ltqs_step N rows cols k.+1) (Some (st, st)) =
  Some (\max_(i < n.+1) nlead P Q r i.+1 (N - 1 - i), nlead P Q r n.+1 (N - 1 - n))%N.
Proof.
move=> hr hc N0 nN ->; elim: n nN => [|n IH] nN; first by rewrite /= big_ord_recl big_ord0 subn0 maxn0.
rewrite iteriS IH; last by lia.
set M := \max_(i < n.+1) _; rewrite /ltqs_step [in RHS]big_ord_recr /= -/M.
have E1 : (N - 1 - n = (N - 1 - n.+1).+1)%N by lia.
set t := nlead P Q r n.+1 (N - 1 - n).
have e1 : (if rows n.+1 then t.+1 else t) = nlead P Q r n.+2 (N - 1 - n).
  rewrite nlead_row -/t hr.
  have -> : count (fun k => (P k == n.+1) && (Q k < N - 1 - n)%N) (iota 0 r) = nat_of_bool (has (fun k => P k == n.+1) (iota 0 r)).
    rewrite -(count_one _ (b_P b)); apply: eq_in_count => k; rewrite mem_iota => kr /=.
    by have := @b_lt _ _ _ _ _ _ _ _ b k; case: eqP => //=; lia.
  by case: has; rewrite ?addn1 ?addn0.
rewrite e1 hc.
have e2 : nlead P Q r n.+2 (N - 1 - n) = (nlead P Q r n.+2 (N - 1 - n.+1) + has (fun k => Q k == N - 1 - n.+1)%N (iota 0 r))%N.
  rewrite E1 nlead_col; congr (_ + _)%N; rewrite -(count_one _ (b_Q b)).
  apply: eq_in_count => k; rewrite mem_iota => kr /=.
  by have := @b_lt _ _ _ _ _ _ _ _ b k; case: (Q k =P _) => //=; rewrite ?andbT ?andbF; lia.
by rewrite e2; case: has; rewrite ?addn1 ?addn0.
Qed.

Lemma LTQSorder_ok : (0 < N)%N -> LTQSorder N r P Q = Some (qs_order N A).
Proof.
move=> N0; rewrite /LTQSorder eqn0Ngt N0 /=.
set rows := iteri r _ _; set cols := iteri r (fun i a => upd1 a (Q i) true) _.
have hr x : rows x = has (fun k => P k == x) (iota 0 r) by apply: marks.
have hc x : cols x = has (fun k => Q k == x) (iota 0 r) by apply: marks.
have -> : (if rows 0%N then (1, 1) else (0, 0))%N = (nlead P Q r 1 (N - 1), nlead P Q r 1 (N - 1)).
  rewrite nlead_row nlead0 add0n hr.
  have -> : count (fun k => (P k == 0%N) && (Q k < N - 1)%N) (iota 0 r) = nat_of_bool (has (fun k => P k == 0%N) (iota 0 r)).
    rewrite -(count_one _ (b_P b)); apply: eq_in_count => k; rewrite mem_iota => kr /=.
    by have := @b_lt _ _ _ _ _ _ _ _ b k; case: eqP => //=; lia.
  by case: has.
rewrite (@ltqs_inv rows cols _ (N - 1)) //=; last by lia.
rewrite /qs_order subn1 prednK //; congr Some; apply: eq_bigr => i _.
by rewrite bru_rank //; have := ltn_ord i; lia.
Qed.

End Rank.
