(** * The echelon permutation of a Bruhat generator *)
From mathcomp Require Import all_ssreflect all_algebra zify.
From Verif Require Import Grid Perm_model Perm_spec Bruhat_spec Bidiag_model.
Set Implicit Arguments.
Unset Strict Implicit.
Unset Printing Implicit Defensive.

Lemma iteri_upd_miss (T : Type) n (f : nat -> nat) (g : nat -> T) a x : (forall t, t < n -> f t <> x) ->
  iteri n (fun t a => upd1 a (f t) (g t)) a x = a x.
Proof.
elim: n => // n IH h; rewrite iteriS /upd1 ifF; first by apply: IH => t tn; apply: h; lia.
by apply/eqP => e; apply: (h n).
Qed.

Lemma iteri_upd_hit (T : Type) n (f : nat -> nat) (g : nat -> T) a t :
  (forall i j, i < n -> j < n -> f i = f j -> i = j) ->
  t < n -> iteri n (fun t a => upd1 a (f t) (g t)) a (f t) = g t.
Proof.
elim: n => // n IH inj tn; rewrite iteriS /upd1; case: eqP => [e|ne].
  by congr g; apply/esym; apply: inj.
apply: IH => [i j iN jn|]; first by apply: inj; lia.
by have tn' : t <> n by [move=> e; apply: ne; rewrite e]; lia.
Qed.

Lemma sorted_index s x : sorted ltn s -> x \in s -> index x s = count (fun y => y < x) s.
Proof.
elim: s => // a s IH; rewrite /= (path_sortedE ltn_trans) inE => /andP[/allP al so].
case: (a =P x) => [e _|ne /orP[/eqP e|xs]]; last 2 first.
- by case: ne.
- by rewrite (al _ xs) IH.
rewrite e ltnn add0n; apply/esym/eqP; rewrite -leqn0 leqNgt -has_count; apply/hasPn => y ys.
by have := al y ys; rewrite e; lia.
Qed.

Section Ech.
Variables (N R : nat) (P Q M0 : nat -> nat).
Hypothesis PN : forall k, k < R -> P k < N.
Hypothesis QN : forall k, k < R -> Q k < N.
Hypothesis Pi : forall j k, j < R -> k < R -> P j = P k -> j = k.
Hypothesis Qi : forall j k, j < R -> k < R -> Q j = Q k -> j = k.

Let cnt k := count (fun j => P j < P k) (iota 0 R).
Let Ps := sort leq [seq P i | i <- iota 0 R].
Let Pinv := iteri R (fun i p => upd1 p (P i) i) (fun=> 0).
Let g i := Q (Pinv (nth 0 Ps i)).
Let isp x := has (fun k => Q k == x) (iota 0 R).

Lemma szPs : size Ps = R. Proof. by rewrite size_sort size_map size_iota. Qed.

Lemma Psmem x : reflect (exists2 k, k < R & x = P k) (x \in Ps).
Proof.
rewrite mem_sort; apply: (iffP mapP) => -[k h e]; exists k => //; move: h; rewrite mem_iota; lia.
Qed.

Lemma Puniq : uniq [seq P i | i <- iota 0 R].
Proof.
by rewrite map_inj_in_uniq ?iota_uniq // => i j; rewrite !mem_iota => hi hj; apply: Pi; lia.
Qed.

Lemma Ps_sorted : sorted ltn Ps.
Proof. by rewrite ltn_sorted_uniq_leq sort_uniq Puniq (sort_sorted leq_total). Qed.

Lemma cntE k : k < R -> nth 0 Ps (cnt k) = P k /\ cnt k < R.
Proof.
move=> kR; have m : P k \in Ps by apply/Psmem; exists k.
have e : index (P k) Ps = cnt k.
  rewrite (sorted_index Ps_sorted m) /Ps /cnt.
  by rewrite (permP (permEl (perm_sort _ _))) count_map; apply: eq_count.
by rewrite -e nth_index // -[X in _ < X]szPs index_mem.
Qed.

Lemma PinvE k : k < R -> Pinv (P k) = k.
Proof. by move=> kR; rewrite /Pinv (iteri_upd_hit _ _ Pi). Qed.

Lemma gE k : k < R -> g (cnt k) = Q k.
Proof. by move=> kR; rewrite /g (cntE kR).1 PinvE. Qed.

Lemma cnt_surj i : i < R -> exists2 k, k < R & cnt k = i.
Proof.
move=> iR; have : nth 0 Ps i \in Ps by rewrite mem_nth ?szPs.
move=> /Psmem[k kR e]; exists k => //; apply/eqP.
rewrite -(nth_uniq 0 (s := Ps)) ?szPs ?(cntE kR).2 ?sort_uniq ?Puniq //.
by rewrite (cntE kR).1 e.
Qed.

Lemma g_inj i j : i < R -> j < R -> g i = g j -> i = j.
Proof.
move=> iR jR; have [k kR <-] := cnt_surj iR; have [l lR <-] := cnt_surj jR.
by rewrite !gE // => /Qi ->.
Qed.

Lemma cnt_lt j k : j < R -> k < R -> (cnt j < cnt k) = (P j < P k).
Proof.
move=> jR kR; apply/idP/idP => h; rewrite ltnNge; apply/negP => le.
  by move: h; rewrite ltnNge => /negP; apply; apply: sub_count => x /=; lia.
have: cnt j = cnt k by apply/eqP; rewrite eqn_leq le andbT; apply: sub_count => x /=; lia.
by move=> e; have := (cntE jR).1; rewrite e (cntE kR).1; lia.
Qed.

Let st1 := iteri R (fun i st => (upd1 st.1 (g i) i, upd1 st.2 (g i) true)) (M0, fun=> false).

Lemma st1E : st1.1 =1 iteri R (fun i a => upd1 a (g i) i) M0 /\ st1.2 =1 isp.
Proof.
have E n : iteri n (fun i st => (upd1 st.1 (g i) i, upd1 st.2 (g i) true)) (M0, fun=> false) =
   (iteri n (fun i a => upd1 a (g i) i) M0, iteri n (fun i a => upd1 a (g i) true) (fun=> false)).
  by elim: n => // n IH; rewrite !iteriS IH.
rewrite /st1 E; split=> // x /=; rewrite /isp.
case: hasP => [[k]|no].
  rewrite mem_iota => /andP[_ kR] /eqP <-; rewrite -gE //.
  by rewrite (iteri_upd_hit _ _ g_inj) // (cntE kR).2.
rewrite iteri_upd_miss // => i iR e; apply: no; have [k kR ek] := cnt_surj iR.
by exists k; rewrite ?mem_iota // -e -ek gE.
Qed.

Let nonp x := count (fun y => ~~ isp y) (iota 0 x).

Lemma nonpS x : nonp x.+1 = nonp x + ~~ isp x.
Proof. by rewrite /nonp -addn1 iotaD count_cat /= add0n addn0. Qed.

Lemma nonp_mono x y : x <= y -> nonp x <= nonp y.
Proof. by move=> xy; rewrite -(subnKC xy) /nonp iotaD count_cat leq_addr. Qed.

Lemma loop2 n : let st := iteri n (fun i s => if st1.2 i then s else (upd1 s.1 i s.2, s.2.+1)) (st1.1, R) in
  st.2 = R + nonp n /\ forall x, st.1 x = if (x < n) && ~~ isp x then R + nonp x else st1.1 x.
Proof.
elim: n => [|n [IH1 IH2]]; first by rewrite /nonp /= addn0.
rewrite iteriS st1E.2 nonpS; case: ifP => h; split=> [|x].
- by rewrite IH1 addn0.
- rewrite IH2; case: (x =P n) => [->|ne]; first by rewrite h !andbF.
  by have -> : (x < n.+1) = (x < n) by lia.
- by rewrite /= IH1 addn1 addnS.
- rewrite /= /upd1 IH1 IH2; case: (x =P n) => [->|ne]; first by rewrite ltnSn h.
  by have -> : (x < n.+1) = (x < n) by lia.
Qed.

Lemma bruhat2echelonE x : bruhat2echelon N R P Q M0 x =
  if (x < N) && ~~ isp x then R + nonp x else iteri R (fun i a => upd1 a (g i) i) M0 x.
Proof. by have [_ h] := loop2 N; rewrite -st1E.1 -h. Qed.

Lemma nonpN : R + nonp N = N.
Proof.
have: count isp (iota 0 N) = R.
  rewrite -size_filter -[RHS](size_iota 0 R) -(size_map Q).
  apply: perm_size; apply: uniq_perm.
  - by rewrite filter_uniq ?iota_uniq.
  - by rewrite map_inj_in_uniq ?iota_uniq // => i j; rewrite !mem_iota => hi hj; apply: Qi; lia.
  move=> x; rewrite mem_filter mem_iota add0n /=; apply/andP/mapP => [[/hasP[k kR /eqP e] _]|[k kR e]].
    by exists k.
  rewrite e; split; last by apply: QN; move: kR; rewrite mem_iota; lia.
  by apply/hasP; exists k.
move=> e; have := count_predC isp (iota 0 N); rewrite e size_iota => {2}<-.
by congr addn.
Qed.

Lemma echelon_piv k : k < R -> bruhat2echelon N R P Q M0 (Q k) = cnt k.
Proof.
move=> kR; rewrite bruhat2echelonE ifF; first by rewrite -gE // (iteri_upd_hit _ _ g_inj) // (cntE kR).2.
by apply/negP => /andP[_ /hasP]; apply; exists k; rewrite ?mem_iota.
Qed.

Lemma echelon_out x : N <= x -> bruhat2echelon N R P Q M0 x = M0 x.
Proof.
move=> Nx; rewrite bruhat2echelonE ltnNge Nx /= iteri_upd_miss // => i iR.
by have [k kR <-] := cnt_surj iR; rewrite gE // => e; have := QN kR; lia.
Qed.

Lemma echelon_perm : is_perm N (bruhat2echelon N R P Q M0).
Proof.
have RN := nonpN.
have pivP x : isp x -> exists2 k, k < R & x = Q k.
  by move=> /hasP[k]; rewrite mem_iota => h /eqP <-; exists k => //; lia.
have pv x : isp x -> bruhat2echelon N R P Q M0 x < R.
  by move=> /pivP[k kR ->]; rewrite echelon_piv // (cntE kR).2.
have np x : x < N -> ~~ isp x -> bruhat2echelon N R P Q M0 x = R + nonp x.
  by move=> xN h; rewrite bruhat2echelonE xN h.
split=> [i iN|i j iN jN].
  case: (boolP (isp i)) => h; first by have := pv i h; lia.
  by rewrite np //; have := nonp_mono iN; rewrite nonpS h; lia.
case: (boolP (isp i)) => hi; case: (boolP (isp j)) => hj.
- move: hi hj => /pivP[k kR ->] /pivP[l lR ->]; rewrite !echelon_piv // => e.
  by congr Q; apply: Pi => //; rewrite -(cntE kR).1 e (cntE lR).1.
- by rewrite (np _ jN hj); have := pv i hi; lia.
- by rewrite (np _ iN hi); have := pv j hj; lia.
rewrite !np // => /addnI e; case: (ltngtP i j) => // ij.
  by have := nonp_mono ij; rewrite nonpS hi; lia.
by have := nonp_mono ij; rewrite nonpS hj; lia.
Qed.

Lemma echelon_ok : let M := bruhat2echelon N R P Q M0 in
  [/\ is_perm N M, forall x, N <= x -> M x = M0 x,
      forall k, k < R -> M (Q k) < R /\ M (Q k) = count (fun j => P j < P k) (iota 0 R),
      forall i, i < R -> exists2 k, k < R & M (Q k) = i &
      forall j k, j < R -> k < R -> (M (Q j) < M (Q k)) = (P j < P k)].
Proof.
split; [exact: echelon_perm|exact: echelon_out|..] => [k kR|i iR|j k jR kR].
- split; last exact: echelon_piv.
  by rewrite echelon_piv // (cntE kR).2.
- by have [k kR e] := cnt_surj iR; exists k => //; rewrite echelon_piv.
- by rewrite !echelon_piv // cnt_lt.
Qed.

End Ech.
