(** * Compress, then expand *)
From mathcomp Require Import all_ssreflect all_algebra zify.
From Verif Require Import Grid Perm_model Perm_spec Perm_proofs Tri_model Tri_spec Tri_proofs Pluq_model.
From Verif Require Import Bruhat_model Bruhat_spec Bruhat_proofs Bidiag_model Bidiag_spec Bidiag_echelon Bidiag_fold.
Set Implicit Arguments.
Unset Strict Implicit.
Unset Printing Implicit Defensive.
Import GRing.Theory.
Local Open Scope ring_scope.

Section Round.
Variable F : fieldType.
Implicit Types A C X : grid F.
Variables (up : bool) (bk N s r : nat) (P Q : nat -> nat) (A : grid F).
Hypothesis bk0 : (0 < bk)%N.
Hypothesis r0 : (0 < r)%N.
Hypothesis piv : lt_pivots N r P Q.
Hypothesis ord : qs_pivots N s r P Q.
Hypothesis shape : bruhat_shape up N r P Q A.

Let outer := if up then Q else P.
Let inner := if up then P else Q.

Lemma oi k : (k < r)%N -> (outer k + inner k + 1 < N)%N.
Proof. by move=> kr; have [h _ _] := piv; have := h k kr; rewrite /outer /inner; case: up; lia. Qed.
Lemma o_inj j k : (j < r)%N -> (k < r)%N -> outer j = outer k -> j = k.
Proof. by have [_ h1 h2] := piv; rewrite /outer; case: up; [exact: h2|exact: h1]. Qed.
Lemma i_inj j k : (j < r)%N -> (k < r)%N -> inner j = inner k -> j = k.
Proof. by have [_ h1 h2] := piv; rewrite /inner; case: up; [exact: h1|exact: h2]. Qed.

Variable M0 : nat -> nat.
Let M := memo1 N (bruhat2echelon N r outer inner M0).
Let mlap := math2lapack id M N.

Lemma ME : [/\ is_perm N M, forall x, (N <= x)%N -> M x = M0 x,
      forall k, (k < r)%N -> (M (inner k) < r)%N,
      forall i, (i < r)%N -> exists2 k, (k < r)%N & M (inner k) = i &
      forall j k, (j < r)%N -> (k < r)%N -> (M (inner j) < M (inner k))%N = (outer j < outer k)%N].
Proof.
have iN k : (k < r)%N -> (inner k < N)%N by move=> kr; have := oi kr; lia.
have [h1 h2 h3 h4 h5] := echelon_ok M0 iN o_inj i_inj.
split.
- by case: h1 => [a b]; split=> [i|i j]; rewrite /M !memo1E; [exact: a|exact: b].
- by move=> x; rewrite /M memo1E; exact: h2.
- by move=> k; rewrite /M memo1E => /h3[].
- by move=> i /h4[k kr e]; exists k => //; rewrite /M memo1E.
- by move=> j k; rewrite /M !memo1E; exact: h5.
Qed.

Lemma Mi_inj j k : (j < r)%N -> (k < r)%N -> M (inner j) = M (inner k) -> j = k.
Proof.
move=> jr kr e; have [_ _ _ _ h] := ME; apply: o_inj => //.
by have := h j k jr kr; have := h k j kr jr; rewrite e !ltnn; lia.
Qed.

Let pos := iteri r (fun i p => upd1 p (M (inner i)) (outer i)) (fun=> 0%N).
Let lst := iteri r (fun i p => upd1 p (M (inner i)) (N - 2 - inner i)%N) (fun=> 0%N).

Lemma posE k : (k < r)%N -> pos (M (inner k)) = outer k.
Proof. by move=> kr; rewrite /pos (iteri_upd_hit (f := fun i => M (inner i)) _ _ Mi_inj). Qed.
Lemma lstE k : (k < r)%N -> lst (M (inner k)) = (N - 2 - inner k)%N.
Proof. by move=> kr; rewrite /lst (iteri_upd_hit (f := fun i => M (inner i)) (fun i => N - 2 - inner i)%N _ Mi_inj). Qed.

Lemma H_leadS x y : (x < y < r)%N -> (pos x < pos y)%N.
Proof.
move=> xy; have [_ _ _ sj h] := ME.
have [j jr ej] : exists2 k, (k < r)%N & M (inner k) = x by apply: sj; lia.
have [k kr ek] : exists2 k, (k < r)%N & M (inner k) = y by apply: sj; lia.
by rewrite -ej -ek !posE // -(h j k) // ej ek; lia.
Qed.

Lemma H_leadL x : (x < r)%N -> (pos x <= lst x < N)%N.
Proof.
move=> xr; have [_ _ _ sj _] := ME; have [k kr <-] := sj x xr.
by rewrite posE // lstE //; have := oi kr; lia.
Qed.

Lemma rN : (r <= N)%N.
Proof.
have := @uniq_leq_size _ (map inner (iota 0 r)) (iota 0 N); rewrite size_map !size_iota; apply.
  by rewrite map_inj_in_uniq ?iota_uniq // => i j; rewrite !mem_iota => hi hj; apply: i_inj; lia.
by move=> x /mapP[k]; rewrite !mem_iota => kr ->; have := @oi k; lia.
Qed.

Lemma H_order c : (c < N)%N -> (count (fun x => pos x <= c <= lst x)%N (iota 0 r) <= s)%N.
Proof.
move=> cN.
have pe : perm_eq [seq M (inner k) | k <- iota 0 r] (iota 0 r).
  have [_ _ lt sj _] := ME; apply: uniq_perm; rewrite ?iota_uniq //.
    by rewrite map_inj_in_uniq ?iota_uniq // => i j; rewrite !mem_iota => hi hj; apply: Mi_inj; lia.
  move=> x; rewrite mem_iota add0n; apply/mapP/idP => [[k]|xr].
    by rewrite mem_iota => kr ->; apply: lt; lia.
  by have [k kr e] := sj x xr; exists k; rewrite ?mem_iota.
rewrite -(permP pe) count_map.
have -> : count (preim (fun k => M (inner k)) (fun x => pos x <= c <= lst x)%N) (iota 0 r) =
   count (fun k => (outer k <= c) && (inner k < N - 1 - c))%N (iota 0 r).
  apply: eq_in_count => k; rewrite mem_iota => h; have kr : (k < r)%N by lia.
  by rewrite /= posE // lstE //; have := oi kr; lia.
case: (leqP (N - 1) c) => hc.
  by rewrite (@eq_count _ _ pred0) ?count_pred0 // => k /=; lia.
have := ord; rewrite /qs_pivots /nlead /outer /inner; case: up => h.
  apply: leq_trans (h (N - 2 - c)%N _); last by lia.
  by apply: sub_count => k /=; lia.
apply: leq_trans (h c cN).
by apply: sub_count => k /=; lia.
Qed.

Lemma mlapE : is_lapack N mlap /\ forall x, (x < N)%N -> sigma mlap 0 N x = M x.
Proof. by have [p _ _ _ _] := ME; have [h1 [h2 _]] := math2lapackE id p. Qed.

Lemma sigV_lt y : (y < N)%N -> (sigmaV mlap 0 N y < N)%N.
Proof.
have [lap _] := mlapE; move=> yN; rewrite ltnNge; apply/negP => h.
have := lapackV_ge lap h => /(can_inj (@sigmaVK mlap 0 N)); lia.
Qed.

Let A' := if up then A else tr A.

(** the copy in echelon order *)
Lemma applyE : exists2 C, bd_applyP up bk N N mlap A = Some C &
  forall x c, (c < N)%N -> (x < N)%N -> (if up then C else tr C) x c = A' (sigmaV mlap 0 N x) c.
Proof.
have N0 : (0 < N)%N by have := rN; lia.
have [lap _] := mlapE.
rewrite /bd_applyP ifF; last first.
  apply/negP => /hasP[i]; rewrite mem_iota => hi /andP[_].
  have := lap i; case: up => h; last by rewrite mulnBl; nia.
  have h2 : ((mlap i).+1 * N <= N * N)%N by rewrite leq_mul2r; lia.
  by move: h2; rewrite mulSn; lia.
cbv zeta; pose G : grid F := fun i j => A ((i * N + j) %/ N)%N ((i * N + j) %% N)%N; rewrite -/G.
have GE i j : (j < N)%N -> G i j = A i j.
  by move=> jN; rewrite /G divnMDl // divn_small // addn0 modnMDl modn_small.
eexists; first reflexivity.
move=> x c cN xN; have sN y : (y < N)%N -> (sigmaV mlap 0 N y < N)%N by exact: sigV_lt.
rewrite /A'; case: up.
  by rewrite divnMDl // divn_small // addn0 modnMDl modn_small // applyPE // /applyP_entry cN GE.
by rewrite /tr divnMDl // divn_small // addn0 modnMDl modn_small // applyPE // /applyP_entry cN GE ?sN.
Qed.

Lemma roundtrip X0 K0 T0 A0 : exists b, bd_compress up bk N s r P Q A N X0 K0 M0 T0 = Some b /\
  [/\ ((bdgN b - 1) * s < r <= bdgN b * s)%N,
      forall i c, (if up then (2 * s <= i) || (N <= c) else (N <= i) || (2 * s <= c))%N -> bdgX b i c = X0 i c &
      exists2 A1, bd_expand up bk N s r A0 (bdgX b) (bdgN b) (bdgK b) (bdgM b) (bdgT b) = Some A1 &
        forall i j, (i < N)%N -> (j < N)%N -> A1 i j = A i j].
Proof.
have [C CE CV] := applyE; have [lap sE] := mlapE.
rewrite /bd_compress -/outer -/inner -/M -/mlap CE /=.
set C0 := memo N N _; rewrite -/pos -/lst.
have C0E x c : (x < N)%N -> (c < N)%N -> C0 x c = A' (sigmaV mlap 0 N x) c by move=> xN cN; rewrite /C0 memoE CV.
have supp x c : (x < N)%N -> (c < N)%N -> C0 x c != 0 -> (x < r)%N /\ (pos x <= c <= lst x)%N.
  move=> xN cN; rewrite C0E //; set y := sigmaV _ _ _ _ => nz; have yN : (y < N)%N by exact: sigV_lt.
  have xE : M y = x by rewrite -sE // /y sigmaVK.
  have [k [kr iy oc]] : exists k, [/\ (k < r)%N, inner k = y & (outer k <= c /\ c + y + 1 < N)%N].
    move: nz shape; rewrite /A' /inner /outer /bruhat_shape; case: up => nz sh.
      by have [k [kr [e1 e2] e3]] := sh y c yN cN nz; exists k; split=> //; lia.
    by have [k [kr [e1 e2] e3]] := sh c y cN yN nz; exists k; split=> //; lia.
  rewrite -xE -iy; have [_ _ lt _ _] := ME; split; first exact: lt.
  by rewrite posE // lstE //; lia.
have order := H_order; have leadS := H_leadS; have leadL := H_leadL; have rN := rN.
set X1 := fzero _ _ _.
have nb00 : (0 * s < r)%N by rewrite mul0n.
have fu : (r - 0 * s <= r)%N by lia.
have K00 : Kf N s r pos 0 = 0%N by [].
have [X2 [K2 [nb [BE [nbr _] KE Xf XD]]]] := bd_blocksE r0 rN leadS leadL order C0 X1 K0 nb00 fu.
rewrite mul0n K00 in BE; rewrite BE /=.
set T1 := iteri r _ T0.
have T1E x : (x < r)%N -> T1 x = x by move=> xr; rewrite /T1 (iteri_upd_hit (f := id)).
have I0 : slots N s r pos lst C0 1 (BdS C0 T1 lst) id.
  split=> [||||x xr] //=; last by apply: T1E; lia.
  by move=> t ts tr; rewrite mul1n; split=> //; lia.
have KE' j : (j <= nb)%N -> K2 j = Kf N s r pos j by move=> jn; rewrite KE jn.
have nbr1 : ((nb - 1) * s < r)%N by case/andP: nbr.
have [st [X3 [own [FE [[S1 own0] mv inj X3f XS]]]]] :=
  folds r0 rN leadS leadL supp order X2 nbr1 (leqnn (nb - 1)) KE' I0.
rewrite FE /=; eexists; split; first reflexivity; split=> //=.
  move=> i c h; have : (if up then X3 else tr X3) i c = (if up then X2 else tr X2) i c.
    by move: h; case: up => h; rewrite /tr X3f //; lia.
  have : (if up then X2 else tr X2) i c = (if up then X1 else tr X1) i c.
    move: h; case: up => h; rewrite /tr Xf //; lia.
  by move=> -> ->; rewrite /X1 /fzero /fill /tr; move: h; case: up => h; rewrite ifF //; lia.
rewrite /bd_expand ifF; last by lia.
have ownr b t : (b < nb - 1)%N -> (t < s)%N -> (own b t < r)%N.
  move=> bn ts; have [_ h] := inj b (ltnW bn); apply: h => //.
  have : (b.+1 * s <= (nb - 1) * s)%N by rewrite leq_mul2r bn orbT.
  by rewrite mulSn; lia.
have XS' b t c : (b < nb - 1)%N -> (t < s)%N -> (Kf N s r pos b.+1 <= c < Kf N s r pos b.+2)%N ->
  X3 (s + t)%N c = C0 (own b t) c by exact: XS.
have XD' j i c : (j < nb)%N -> (Kf N s r pos j <= c < Kf N s r pos j.+1)%N -> (i < s)%N -> (j * s + i < r)%N ->
  X3 i c = C0 (j * s + i)%N c.
  by move=> jn hc hi hr; rewrite X3f; [apply: XD | lia].
have EE := expandE r0 rN leadS leadL supp order nbr KE' own0 mv (fun b h => (inj b h).1) ownr XS' XD'.
have -> : (if up then if up then X3 else tr X3 else tr (if up then X3 else tr X3)) = X3 by case: up.
rewrite -/mlap; eexists; first reflexivity.
move=> i j iN jN; have Mi y : (y < N)%N -> (sigma mlap 0 N y < N)%N.
  by move=> yN; rewrite sE //; have [[h _] _ _ _ _] := ME; exact: h.
move: EE; rewrite /A' in C0E; move: C0E; case: up => C0E EE.
  by rewrite applyPE // /applyP_entry jN EE ?C0E ?sigmaK // Mi.
by rewrite applyPE // /applyP_entry iN /tr EE ?C0E ?sigmaK // Mi.
Qed.

End Round.
