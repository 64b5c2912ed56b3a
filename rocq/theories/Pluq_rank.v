(** * From a PLUQ factorisation to ranks *)
From mathcomp Require Import all_ssreflect all_algebra zify ring.
From Verif Require Import Grid Perm_model Perm_spec Perm_proofs Perm_mx_proofs Tri_model Tri_spec Tri_proofs.
From Verif Require Import Pluq_model Pluq_spec.
Set Implicit Arguments.
Unset Strict Implicit.
Unset Printing Implicit Defensive.
Import GRing.Theory.
Local Open Scope ring_scope.

Lemma perm_inv n s : is_perm n s -> exists t, [/\ is_perm n t,
  forall x, (x < n)%N -> s (t x) = x & forall x, (x < n)%N -> t (s x) = x].
Proof.
move=> [sn inj].
pose f (x : 'I_n) : 'I_n := Ordinal (sn x (ltn_ord x)).
have fi : injective f by move=> x y /(congr1 val) /= e; apply: val_inj; apply: inj (ltn_ord x) (ltn_ord y) e.
pose t x := if insub x is Some y then val (invF fi y) else x.
have tE x (xn : (x < n)%N) : t x = invF fi (Ordinal xn) by rewrite /t insubT.
have st x : (x < n)%N -> s (t x) = x.
  by move=> xn; rewrite tE; have /(congr1 val) := f_invF fi (Ordinal xn).
exists t; split=> //; last first.
  move=> x xn; rewrite (tE _ (sn x xn)).
  have -> : Ordinal (sn x xn) = f (Ordinal xn) by apply: val_inj.
  by rewrite invF_f.
split=> [x xn|x y xn yn e]; first by rewrite tE.
by rewrite -(st x) // e st.
Qed.

Section Rank.
Variable F : fieldType.
Implicit Types A X : grid F.

Lemma rank_ge m n c (A : 'M[F]_(m, n)) (S : 'M_(c, m)) (T : 'M_(n, c)) :
  S *m A *m T \in unitmx -> (c <= \rank A)%N.
Proof.
rewrite -row_full_unit /row_full => /eqP <-.
by apply: leq_trans (mxrankM_maxl _ _) _; exact: mxrankM_maxr.
Qed.

Lemma rsum_sel n a (G : nat -> F) : (a < n)%N -> rsum n (fun k => (k == a)%:R * G k) = G a.
Proof.
have H m : rsum m (fun k => (k == a)%:R * G k) = if (a < m)%N then G a else 0.
  elim: m => [|m IH] //=; rewrite IH ltnS; case: ltngtP => [am|am|<-]; rewrite ?mul0r ?addr0 ?mul1r ?add0r //.
by move=> an; rewrite H an.
Qed.

Lemma mx_sel m n c d' A f g : (forall i, (i < c)%N -> (f i < m)%N) -> (forall j, (j < d')%N -> (g j < n)%N) ->
  mx c m (fun i k => (k == f i)%:R) *m mx m n A *m mx n d' (fun k j => (k == g j)%:R) =
  mx c d' (fun i j => A (f i) (g j)).
Proof.
move=> fm gn; rewrite !mxM; apply: eq_mx => i j ic jd.
rewrite -(rsum_sel (A (f i)) (gn _ jd)); apply: eq_rsum => k kn; rewrite mulrC; congr (_ * _).
by rewrite rsum_sel //; exact: fm.
Qed.

Lemma lower_unit n A : (forall i j, (i < j < n)%N -> A i j = 0) -> (forall i, (i < n)%N -> A i i != 0) ->
  mx n n A \in unitmx.
Proof.
move=> z p; rewrite unitmxE det_trig; last first.
  by apply/is_trig_mxP => i j ij; rewrite mxE z // ij /=.
by rewrite unitfE; apply/prodf_neq0 => i _; rewrite mxE p.
Qed.

Lemma upper_unit n A : (forall i j, (j < i < n)%N -> A i j = 0) -> (forall i, (i < n)%N -> A i i != 0) ->
  mx n n A \in unitmx.
Proof.
move=> z p; rewrite -unitmx_tr.
have -> : (mx n n A)^T = mx n n (fun i j => A j i) by apply/matrixP => i j; rewrite !mxE.
by apply: lower_unit => [i j ij|i ic]; [apply: z | apply: p].
Qed.

(** The rank of a window cut by any conditions under which only the selected
    pivots matter. *)
Lemma sel_rank d M N A X s u R (p q : pred nat) : factors d M N A X s u R ->
  (forall k t, (k < M)%N -> (t < R)%N -> p (s k) -> Lo d X k t != 0 -> p (s t)) ->
  (forall t l, (t < R)%N -> (l < N)%N -> q (u l) -> Up d X t l != 0 -> q (u t)) ->
  \rank (mx M N (fun i j => if p i && q j then A i j else 0)) =
  count (fun t => p (s t) && q (u t)) (iota 0 R).
Proof.
move=> [[ps pu] [RM RN] piv _ law] hp hq.
have [sv [psv svK _]] := perm_inv ps; have [uv [puv uvK _]] := perm_inv pu.
set T := filter (fun t => p (s t) && q (u t)) (iota 0 R).
rewrite -size_filter -/T; set c := size T.
pose tt k := nth 0%N T k.
have ttT k : (k < c)%N -> [/\ (tt k < R)%N, p (s (tt k)) & q (u (tt k))].
  by move=> kc; have := mem_nth 0%N kc; rewrite -/(tt k) mem_filter mem_iota add0n => /andP[/andP[-> ->] /andP[_ ->]].
have ttS : sorted ltn T by apply: sorted_filter; [exact: ltn_trans | exact: iota_ltn_sorted].
have ttlt a b : (b < c)%N -> (a < b)%N -> (tt a < tt b)%N.
  move=> bc ab; apply: (sorted_ltn_nth ltn_trans 0%N ttS) => //; rewrite inE //; exact: ltn_trans bc.
have sumT (G : nat -> F) : (forall t, (t < R)%N -> t \notin T -> G t = 0) -> \sum_(t < R) G t = \sum_(k < c) G (tt k).
  move=> z; rewrite -(big_mkord xpredT G) (bigID (fun t => t \in T)) /= [X in _ + X]big1_seq ?addr0; last first.
    by move=> t /andP[tT]; rewrite mem_index_iota => /andP[_ tR]; exact: z.
  rewrite -big_filter.
  have -> : [seq t <- index_iota 0 R | t \in T] = T.
    by rewrite /T /index_iota subn0; apply: eq_in_filter => t tR; rewrite mem_filter tR andbT.
  by rewrite (big_nth 0%N) big_mkord.
have TE t : (t < R)%N -> (t \in T) = p (s t) && q (u t) by move=> tR; rewrite mem_filter mem_iota leq0n add0n tR !andbT.
have {}sumT (G : nat -> F) : (forall t, (t < R)%N -> ~~ (p (s t) && q (u t)) -> G t = 0) -> \sum_(t < R) G t = \sum_(k < c) G (tt k).
  by move=> h; apply: sumT => t tR; rewrite TE //; exact: h.
clearbody tt c; clear T ttS TE.
have sR t : (t < R)%N -> (s t < M)%N by move=> tR; apply: (proj1 ps); exact: leq_trans tR RM.
have uR t : (t < R)%N -> (u t < N)%N by move=> tR; apply: (proj1 pu); exact: leq_trans tR RN.
apply/eqP; rewrite eqn_leq; apply/andP; split.
- have -> : mx M N (fun i j => if p i && q j then A i j else 0) =
     mx M c (fun i k => if p i then Lo d X (sv i) (tt k) else 0) *m mx c N (fun k j => if q j then Up d X (tt k) (uv j) else 0).
    rewrite mxM; apply: eq_mx => i j iM jN; rewrite rsumE.
    have [sv1 sv2] := (proj1 psv i iM, svK i iM); have [uv1 uv2] := (proj1 puv j jN, uvK j jN).
    case pi : (p i); last by rewrite big1 // => k _; rewrite mul0r.
    case qj : (q j); last by rewrite big1 // => k _; rewrite mulr0.
    rewrite /= -{1}sv2 -{1}uv2 law //.
    apply: (sumT (fun t => Lo d X (sv i) t * Up d X t (uv j))) => t tR tT.
    case: (eqVneq (Lo d X (sv i) t) 0) => [->|l0]; first by rewrite mul0r.
    case: (eqVneq (Up d X t (uv j)) 0) => [->|u0]; first by rewrite mulr0.
    by move: tT; rewrite (hp (sv i)) ?sv2 // (hq _ (uv j)) ?uv2.
  apply: leq_trans (mxrankM_maxl _ _) _; exact: rank_leq_col.
- apply: (rank_ge (S := mx c M (fun i k => (k == s (tt i))%:R)) (T := mx N c (fun k j => (k == u (tt j))%:R))).
  rewrite mx_sel; [|by move=> i /ttT[/sR]|by move=> i /ttT[/uR]].
  have -> : mx c c (fun i j => if p (s (tt i)) && q (u (tt j)) then A (s (tt i)) (u (tt j)) else 0) =
     mx c c (fun i k => Lo d X (tt i) (tt k)) *m mx c c (fun k j => Up d X (tt k) (tt j)).
    rewrite mxM; apply: eq_mx => i j /ttT[iR pi _] /ttT[jR _ qj]; rewrite pi qj /=; rewrite rsumE law; [|exact: leq_trans iR RM|exact: leq_trans jR RN].
    apply: (sumT (fun t => Lo d X (tt i) t * Up d X t (tt j))) => t tR tT.
    case: (eqVneq (Lo d X (tt i) t) 0) => [->|l0]; first by rewrite mul0r.
    case: (eqVneq (Up d X t (tt j)) 0) => [->|u0]; first by rewrite mulr0.
    by move: tT; rewrite (hp (tt i) t (leq_trans iR RM) tR pi l0) (hq t (tt j) tR (leq_trans jR RN) qj u0).
  rewrite unitmx_mul; apply/andP; split.
  + apply: lower_unit => [i j ij|i ic]; last first.
      by rewrite /Lo ltnn eqxx; case: (d); rewrite ?oner_neq0 // piv //; case: (ttT _ ic).
    by case/andP: ij => ij jc; have h := ttlt _ _ jc ij; rewrite /Lo ltnNge (ltnW h) gtn_eqF.
  + apply: upper_unit => [i j ij|i ic]; last first.
      by rewrite /Up ltnn eqxx; case: (d); rewrite ?oner_neq0 // piv //; case: (ttT _ ic).
    by case/andP: ij => ij jc; have h := ttlt _ _ jc ij; rewrite /Up ltnNge (ltnW h) gtn_eqF.
Qed.

Lemma factors_rank d M N A X s u R : factors d M N A X s u R -> \rank (mx M N A) = R.
Proof.
move=> h; have := sel_rank (p := xpredT) (q := xpredT) h; move=> /(_ (fun _ _ _ _ _ _ => isT) (fun _ _ _ _ _ _ => isT)).
by rewrite count_predT size_iota => <-; congr (\rank _); apply: eq_mx.
Qed.

Lemma rank_mask m n M N A : (m <= M)%N -> (n <= N)%N ->
  \rank (mx M N (fun a b => if (a < m)%N && (b < n)%N then A a b else 0)) = \rank (mx m n A).
Proof.
move=> mM nN; set B := mx M N _.
have R1 : (\rank (mx m n A) <= \rank B)%N.
  have -> : mx m n A = mx m M (fun i k => (k == i)%:R) *m B *m mx N n (fun k j => (k == j)%:R).
    rewrite mx_sel => [|i im|j jn]; first by apply: eq_mx => i j -> ->.
    - exact: leq_trans im mM.
    - exact: leq_trans jn nN.
  by apply: leq_trans (mxrankM_maxl _ _) _; exact: mxrankM_maxr.
apply/eqP; rewrite eqn_leq R1 andbT.
have -> : B = mx M m (fun i k => (k == i)%:R) *m mx m n A *m mx n N (fun k j => (k == j)%:R).
  rewrite !mxM; apply: eq_mx => i j iM jN.
  case: (ltnP i m) => im /=; last first.
    rewrite rsum0 // => k kn; rewrite rsum0 ?mul0r // => k' km.
    by rewrite ltn_eqF ?mul0r //; exact: leq_trans km im.
  case: (ltnP j n) => jn; last by rewrite rsum0 // => k kn; rewrite ltn_eqF ?mulr0 //; exact: leq_trans kn jn.
  rewrite -(rsum_sel (A i) jn); apply: eq_rsum => k kn; rewrite mulrC; congr (_ * _).
  by rewrite (rsum_sel (fun t => A t k)).
by apply: leq_trans (mxrankM_maxl _ _) _; exact: mxrankM_maxr.
Qed.

(** The rank of every leading sub-matrix is the number of pivots in it. *)
Lemma lead_rank d M N A X s u R i j : factors d M N A X s u R -> ordered d M N X s u R ->
  (i <= M)%N -> (j <= N)%N -> \rank (mx i j A) = npiv s u R i j.
Proof.
move=> h [hs hu _ _] iM jN; rewrite -(rank_mask _ iM jN).
apply: (sel_rank (p := fun x => (x < i)%N) (q := fun x => (x < j)%N) h).
- by move=> k t kM tR ki l0; apply: leq_ltn_trans ki; exact: hs.
- by move=> t l tR lN lj u0; apply: leq_ltn_trans lj; exact: hu.
Qed.

(** Product form, with the matrices of the transposition lists. *)
Lemma factors_mx d M N A X P Q R : is_lapack M P -> is_lapack N Q ->
  factors d M N A X (sigma P 0 M) (sigma Q 0 N) R ->
  mx M N A = (Pmx F M P 0 M)^T *m Lmx d M R X *m Umx d R N X *m Pmx F N Q 0 N.
Proof.
move=> lP lQ [[ps pu] [RM RN] piv _ law].
have lt n p : is_lapack n p -> forall i, (0 <= i < n)%N -> (p i < n)%N.
  by move=> h i /andP[_ iN]; case/andP: (h _ iN).
have [_ oP] := Pmx_orth F (leqnn M) (lt _ _ lP); have [_ oQ] := Pmx_orth F (leqnn N) (lt _ _ lQ).
have E : Pmx F M P 0 M *m mx M N A *m (Pmx F N Q 0 N)^T = Lmx d M R X *m Umx d R N X.
  rewrite (PmxE _ (leqnn M) (lt _ _ lP)) (PmxE _ (leqnn N) (lt _ _ lQ)) selmx_mul; last exact: (proj1 ps).
  rewrite mul_selmxT; last exact: (proj1 pu).
  by rewrite /Lmx /Umx mxM; apply: eq_mx => k l kM lN; rewrite law // rsumE.
by rewrite -(mulmxA _ (Lmx d M R X)) -E !mulmxA oP mul1mx -mulmxA oQ mulmx1.
Qed.

End Rank.
