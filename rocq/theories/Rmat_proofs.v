(** * Proofs about the random matrices *)
From mathcomp Require Import all_ssreflect all_algebra zify ring.
From Verif Require Import Grid Perm_model Perm_spec Perm_proofs Perm_mx_proofs Tri_model Tri_spec Tri_proofs Trtri_proofs.
From Verif Require Import Pluq_model Pluq_spec Pluq_rank Prof_proofs Bruhat_spec Rmat_model.
Set Implicit Arguments.
Unset Strict Implicit.
Unset Printing Implicit Defensive.
Import GRing.Theory.
Local Open Scope ring_scope.

Lemma RandInt_in a b x : (a < b)%N -> (a <= RandInt a b x < b)%N.
Proof. by move=> ab; rewrite /RandInt; have := ltn_pmod x (_ : 0 < b - a)%N; lia. Qed.

Lemma RandomIndexSubsetP N R x P : (R <= N)%N ->
  exists P', RandomIndexSubset N R x P = Some P' /\
  [/\ forall k, (k < R)%N -> (P' k < N)%N, forall k l, (k < R)%N -> (l < R)%N -> P' k = P' l -> k = l &
      forall k, (R <= k)%N -> P' k = P k].
Proof.
move=> RN; rewrite /RandomIndexSubset ltnNge RN /=; eexists; split; first by [].
set f := fun i st => _.
suff H i : (i <= R)%N -> let st := iteri i f (P, id) in
    [/\ forall a, (i <= a < N)%N -> (st.2 a < N)%N, forall a b, (i <= a < N)%N -> (i <= b < N)%N -> st.2 a = st.2 b -> a = b,
        forall k, (k < i)%N -> (st.1 k < N)%N, forall k l, (k < i)%N -> (l < i)%N -> st.1 k = st.1 l -> k = l &
        (forall k a, (k < i)%N -> (i <= a < N)%N -> st.1 k != st.2 a) /\ forall k, (i <= k)%N -> st.1 k = P k].
  by have [_ _ h3 h4 [_ h6]] := H R (leqnn _).
elim: i => [|i IH] iR /=; first by split=> //= a /andP[].
have [h1 h2 h3 h4 [h5 h6]] := IH (ltnW iR); move: (iteri i f _) h1 h2 h3 h4 h5 h6 => [p q] /= h1 h2 h3 h4 h5 h6.
have iN : (i < N)%N by lia.
set j := RandInt _ _ _; have hj : (i <= j < N)%N by apply: RandInt_in.
split=> /=.
- by move=> a ha; rewrite /upd1; case: eqP => _; apply: h1; lia.
- move=> a b ha hb; rewrite /upd1; case: eqP => ea; case: eqP => eb; subst; rewrite // ?ea ?eb //.
  + by move/(h2 i b) => E; have := E ltac:(lia) ltac:(lia); lia.
  + by move/(h2 a i) => E; have := E ltac:(lia) ltac:(lia); lia.
  + by apply: h2; lia.
- by move=> k ki; rewrite /upd1; case: eqP => ek; [apply: h1 | apply: h3; lia].
- move=> k l ki li; rewrite /upd1; case: eqP => ek; case: eqP => el; first by lia.
  + by move=> E; have := h5 l j ltac:(lia) hj; rewrite -E eqxx.
  + by move=> E; have := h5 k j ltac:(lia) hj; rewrite E eqxx.
  + by apply: h4; lia.
- split=> [k a ki ha|k ik]; last by rewrite /upd1 ifF ?h6 //; [lia|apply/negP => /eqP; lia].
  rewrite /upd1; case: (k =P i) => ek; case: (a =P j) => ea.
  + by apply/eqP => /(h2 j i hj) E; have := E ltac:(lia); lia.
  + by apply/eqP => /(h2 j a hj) E; have := E ltac:(lia); lia.
  + by apply: h5; lia.
  + by apply: h5; lia.
Qed.

Lemma RandomPermutationE N x P i : RandomPermutation N x P i = if (i < N)%N then (i + RandInt 0 (N - i) (x i))%N else P i.
Proof.
rewrite /RandomPermutation; set f := fun i P => _.
suff H n : iteri n f P i = if (i < n)%N then (i + RandInt 0 (N - i) (x i))%N else P i by [].
elim: n => [|n IH] //; rewrite iteriS /f /= /upd1; case: eqP => [->|ne]; first by rewrite ltnSn.
by rewrite IH; have -> : (i < n.+1)%N = (i < n)%N by lia.
Qed.

Lemma RandomPermutation_lapack N x P : is_lapack N (RandomPermutation N x P).
Proof.
move=> i iN; rewrite RandomPermutationE iN.
by have := @RandInt_in 0 (N - i) (x i) ltac:(lia); lia.
Qed.

Lemma RandomRankProfileMatrixP M N R x y rows cols : (R <= M)%N -> (R <= N)%N ->
  exists rows' cols', RandomRankProfileMatrix M N R x y rows cols = Some (rows', cols') /\
  [/\ forall k, (k < R)%N -> (rows' k < M)%N /\ (cols' k < N)%N,
      forall k l, (k < R)%N -> (l < R)%N -> rows' k = rows' l -> k = l &
      forall k l, (k < R)%N -> (l < R)%N -> cols' k = cols' l -> k = l].
Proof.
move=> RM RN; rewrite /RandomRankProfileMatrix.
have [p [-> [p1 p2 _]]] := RandomIndexSubsetP x rows RM.
have [q [-> [q1 q2 _]]] := RandomIndexSubsetP y cols RN.
by exists p, q; split=> //; split=> // k kR; split; [exact: p1 | exact: q1].
Qed.

Section Rank.
Variable F : fieldType.
Implicit Types A L U G : grid F.

(** Column a starts at p a, the starts are distinct. *)
Lemma lead_unit c (M : 'M[F]_c) (p : 'I_c -> nat) : injective p -> (forall a, M a a != 0) ->
  (forall a b, M b a != 0 -> (p a <= p b)%N) -> M \in unitmx.
Proof.
move=> pi d l; rewrite -row_free_unit -kermx_eq0; apply/rowV0P => v /sub_kermxP vM.
apply/eqP/negP => /negP v0.
have [a0 ha0] : exists a, v 0 a != 0.
  by apply/existsP; apply: contraR v0 => /existsPn h; apply/eqP/rowP => a; rewrite mxE; apply/eqP; have := h a; rewrite negbK.
case: (@arg_maxnP _ a0 (fun a => v 0 a != 0) p ha0) => a ha hmax.
move/matrixP: vM => /(_ 0 a); rewrite !mxE (bigD1 a) //= big1 ?addr0; last first.
  move=> b ba; case: (eqVneq (v 0 b) 0) => [->|vb]; first by rewrite mul0r.
  case: (eqVneq (M b a) 0) => [->|mb]; first by rewrite mulr0.
  by case/negP: ba; apply/eqP/pi/eqP; rewrite eqn_leq; apply/andP; split; [exact: hmax | exact: l].
by move/eqP; rewrite mulf_eq0 (negbTE ha) (negbTE (d a)).
Qed.

Lemma lead_rank m n r A L U (P Q : nat -> nat) :
  (forall i j, (i < m)%N -> (j < n)%N -> A i j = rsum r (fun k => L i k * U k j)) ->
  (forall i k, (i < m)%N -> (k < r)%N -> L i k != 0 -> (P k <= i)%N) ->
  (forall k j, (k < r)%N -> (j < n)%N -> U k j != 0 -> (Q k <= j)%N) ->
  (forall k l, (k < r)%N -> (l < r)%N -> P k = P l -> k = l) -> (forall k l, (k < r)%N -> (l < r)%N -> Q k = Q l -> k = l) ->
  (forall k, (k < r)%N -> (P k < m)%N -> (Q k < n)%N -> L (P k) k != 0 /\ U k (Q k) != 0) ->
  \rank (mx m n A) = nlead P Q r m n.
Proof.
move=> law hL hU iP iQ piv.
set T := filter (fun k => (P k < m) && (Q k < n))%N (iota 0 r).
rewrite /nlead -size_filter -/T; set c := size T.
pose tt k := nth 0%N T k.
have ttT k : (k < c)%N -> [/\ (tt k < r)%N, (P (tt k) < m)%N & (Q (tt k) < n)%N].
  by move=> kc; have := mem_nth 0%N kc; rewrite -/(tt k) mem_filter mem_iota add0n => /andP[/andP[-> ->] /andP[_ ->]].
have ttI a b : (a < c)%N -> (b < c)%N -> tt a = tt b -> a = b.
  by move=> ac bc /eqP; rewrite nth_uniq ?filter_uniq ?iota_uniq // => /eqP.
have sumT (G : nat -> F) : (forall t, (t < r)%N -> t \notin T -> G t = 0) -> \sum_(t < r) G t = \sum_(k < c) G (tt k).
  move=> z; rewrite -(big_mkord xpredT G) (bigID (fun t => t \in T)) /= [X in _ + X]big1_seq ?addr0; last first.
    by move=> t /andP[tT]; rewrite mem_index_iota => /andP[_ tR]; exact: z.
  rewrite -big_filter.
  have -> : [seq t <- index_iota 0 r | t \in T] = T.
    by rewrite /T /index_iota subn0; apply: eq_in_filter => t tR; rewrite mem_filter tR andbT.
  by rewrite (big_nth 0%N) big_mkord.
have TE t : (t < r)%N -> (t \in T) = ((P t < m) && (Q t < n))%N by move=> tR; rewrite mem_filter mem_iota leq0n add0n tR !andbT.
have {}sumT i j : (i < m)%N -> (j < n)%N -> A i j = rsum c (fun k => L i (tt k) * U (tt k) j).
  move=> im jn; rewrite law // !rsumE; apply: (sumT (fun k => L i k * U k j)) => t tR; rewrite TE // => tT.
  case: (eqVneq (L i t) 0) => [->|l0]; first by rewrite mul0r.
  case: (eqVneq (U t j) 0) => [->|u0]; first by rewrite mulr0.
  by have := hL _ _ im tR l0; have := hU _ _ tR jn u0; lia.
clearbody tt c; clear T TE.
apply/eqP; rewrite eqn_leq; apply/andP; split.
- have -> : mx m n A = mx m c (fun i k => L i (tt k)) *m mx c n (fun k j => U (tt k) j).
    by rewrite mxM; apply: eq_mx => i j iM jN; rewrite sumT.
  apply: leq_trans (mxrankM_maxl _ _) _; exact: rank_leq_col.
- apply: (rank_ge (S := mx c m (fun i k => (k == P (tt i))%:R)) (T := mx n c (fun k j => (k == Q (tt j))%:R))).
  rewrite mx_sel; [|by move=> i /ttT[]|by move=> i /ttT[]].
  have -> : mx c c (fun i j => A (P (tt i)) (Q (tt j))) =
     mx c c (fun i k => L (P (tt i)) (tt k)) *m mx c c (fun k j => U (tt k) (Q (tt j))).
    by rewrite mxM; apply: eq_mx => i j /ttT[iR pi _] /ttT[jR _ qj]; rewrite sumT.
  rewrite unitmx_mul; apply/andP; split.
  + apply: (lead_unit (p := fun i : 'I_c => P (tt i))) => [a b E|a|a b].
    * have [a1 _ _] := ttT a (ltn_ord a); have [b1 _ _] := ttT b (ltn_ord b).
      by apply: val_inj; apply: (ttI _ _ (ltn_ord a) (ltn_ord b)); exact: (iP _ _ a1 b1 E).
    * by rewrite mxE; have [a1 a2 a3] := ttT a (ltn_ord a); case: (piv _ a1 a2 a3).
    * by rewrite mxE; apply: hL; [case: (ttT b (ltn_ord b)) | case: (ttT a (ltn_ord a))].
  + rewrite -unitmx_tr; apply: (lead_unit (p := fun i : 'I_c => Q (tt i))) => [a b E|a|a b].
    * have [a1 _ _] := ttT a (ltn_ord a); have [b1 _ _] := ttT b (ltn_ord b).
      by apply: val_inj; apply: (ttI _ _ (ltn_ord a) (ltn_ord b)); exact: (iQ _ _ a1 b1 E).
    * by rewrite !mxE; have [a1 a2 a3] := ttT a (ltn_ord a); case: (piv _ a1 a2 a3).
    * by rewrite !mxE; apply: hU; [case: (ttT a (ltn_ord a)) | case: (ttT b (ltn_ord b))].
Qed.

End Rank.
