(** * DenseToSSS: it stays in its scratch blocks only if the off-diagonal ranks allow it *)
From mathcomp Require Import all_ssreflect all_algebra zify.
From Verif Require Import Grid Perm_model Perm_spec Tri_model Tri_proofs Pluq_model Pluq_proofs Pluq_rank Api_model Ludiv_model.
From Verif Require Import Sss_model Sss_spec Bidiag_fold Sss_proofs Sss_prod Sss_dense Sssgen_model Sssgen_proofs Sssgen_up Sssgen_low Sssgen_thm.
Set Implicit Arguments.
Unset Strict Implicit.
Unset Printing Implicit Defensive.
Import GRing.Theory.
Local Open Scope ring_scope.

Section Conv.
Variables (F : fieldType) (bk thr N s : nat) (A : grid F).
Hypothesis bk0 : (0 < bk)%N.
Hypothesis s0 : (0 < s)%N.
Hypothesis sN : (s < N)%N.

Lemma coef (f : nat -> F) n (c : 'I_s -> F) (h : nat -> nat -> F) : (forall j, (j < n)%N -> f j = \sum_(l < s) c l * h l j) ->
  forall B : grid F, (forall l j, (l < s)%N -> (j < n)%N -> B l j = h l j) -> rowsp (s * 2) n B f.
Proof.
move=> hf B hB; exists (fun x => if insub x is Some i then c i else 0) => j jn.
rewrite hf // muln2 -addnn rsum_cat [X in _ = _ + X]rsum0; last first.
  by move=> x xs; case: insubP => [u|_]; rewrite ?mul0r // ltnNge leq_addr.
by rewrite addr0 rsumE; apply: eq_bigr => l _; rewrite valK hB.
Qed.

Lemma up_inv T b st st' : (b.+2 * s < N)%N -> upI N s A b st -> dts_up_step bk thr N s T b st = Some st' ->
  (\rank (mx (b.+2 * s) (N - b.+2 * s) (sub 0 (b.+2 * s) A)) <= s)%N.
Proof.
move=> bN; case: st => H U V W [hA _ hH _]; rewrite /dts_up_step.
have m1 : (b.+1 * s = b * s + s)%N by rewrite mulSn addnC.
have m2 : (b.+2 * s = b.+1 * s + s)%N by rewrite mulSn addnC.
have e2 : (s * (b + 2) = b.+2 * s)%N by rewrite mulnC addn2.
rewrite e2 (mulnC s b); set Wd := sub (b * s) _ H; set n := (N - b.+2 * s)%N.
case E : (PLUQ _ _ _ _ _ Wd) => [X p q r]; case: ltnP => // rs _.
have rE := split_rank bk0 E; apply: leq_trans rs; rewrite rE; apply: mxrankS.
apply: mx_rowsp => i i2; have [il|il] := ltnP i (b.+1 * s).
  apply: (@coef _ n (fun l => (rowv s U i *m Wprod s W (i %/ s) (b - i %/ s)) 0 l) (fun l j => H (b * s + l)%N (b.+2 * s + j)%N)) => // j jn.
  by rewrite /sub add0n hA //; rewrite /n in jn; lia.
exists (fun x => (x == i - b * s)%N%:R) => j jn; rewrite rsum_sel; last by lia.
have iE : (i %/ s = b.+1)%N by apply: blkE => //; lia.
by rewrite /Wd /sub add0n subnKC ?hH ?iE ?leqnn //; lia.
Qed.

Lemma low_inv T b st st' : (b.+2 * s < N)%N -> lowI N s A b st -> dts_low_step bk thr N s T b st = Some st' ->
  (\rank (mx (N - b.+2 * s) (b.+2 * s) (sub (b.+2 * s) 0 A)) <= s)%N.
Proof.
move=> bN; case: st => H P Q R [hA _ hH _]; rewrite /dts_low_step.
have m1 : (b.+1 * s = b * s + s)%N by rewrite mulSn addnC.
have m2 : (b.+2 * s = b.+1 * s + s)%N by rewrite mulSn addnC.
have e2 : (s * (b + 2) = b.+2 * s)%N by rewrite mulnC addn2.
rewrite e2 (mulnC s b); set Wd := sub _ (b * s) H; set n := (N - b.+2 * s)%N.
case E : (PLUQ _ _ _ _ _ Wd) => [X p q r]; case: ltnP => // rs _.
have rE := split_rank bk0 E; apply: leq_trans rs; rewrite rE -mxrank_tr -[X in (_ <= X)%N]mxrank_tr !mx_tr; apply: mxrankS.
apply: mx_rowsp => i i2; have [il|il] := ltnP i (b.+1 * s).
  apply: (@coef _ n (fun l => (Rprod s R (i %/ s) (b - i %/ s) *m colv s Q (i %/ s) (i %% s)) l 0) (fun l j => H (b.+2 * s + j)%N (b * s + l)%N)) => // j jn.
  rewrite /tr /sub add0n hA //; last by rewrite /n in jn; lia.
  by apply: eq_bigr => l _; rewrite mulrC.
exists (fun x => (x == i - b * s)%N%:R) => j jn; rewrite rsum_sel; last by lia.
have iE : (i %/ s = b.+1)%N by apply: blkE => //; lia.
have jE : (b.+2 <= (b.+2 * s + j) %/ s)%N by rewrite leq_divRL //; lia.
by rewrite /Wd /tr /sub add0n subnKC ?hH ?iE ?leqnn //; lia.
Qed.

Lemma up_conv T (U V W : grid F) m st : (m.+1 * s < N)%N ->
  oiter m (dts_up_step bk thr N s T) (dts_up0 bk thr N s A U V W) = Some st ->
  upI N s A m st /\ forall b, (0 < b)%N -> (b <= m.+1)%N -> (\rank (mx (b * s) (N - b * s) (sub 0 (b * s) A)) <= s)%N.
Proof.
elim: m st => [|m IH] st h /=.
  case=> <-; split; first exact: up_init.
  by move=> [|[|b]] // _ _; rewrite mul1n; apply: rank_leq_row.
have hm : (m.+1 * s < N)%N by move: h; rewrite mulSn; lia.
case E : (oiter m _ _) => [st1|] //; have [I1 R1] := IH st1 hm E => E'.
have rk := up_inv h I1 E'; have [st2 [E2 I2]] := @up_step F bk thr N s A bk0 s0 sN T m st1 h rk I1.
move: E' => /=; rewrite E2 => -[<-]; split=> // b b0; rewrite leq_eqVlt => /orP[/eqP->//|bm]; exact: R1.
Qed.

Lemma low_conv T (H0 P Q R : grid F) m st : (forall x j, (j %/ s <= x %/ s)%N -> H0 x j = A x j) -> (m.+1 * s < N)%N ->
  oiter m (dts_low_step bk thr N s T) (dts_low0 bk thr N s H0 P Q R) = Some st ->
  lowI N s A m st /\ forall b, (0 < b)%N -> (b <= m.+1)%N -> (\rank (mx (N - b * s) (b * s) (sub (b * s) 0 A)) <= s)%N.
Proof.
move=> hH0; elim: m st => [|m IH] st h /=.
  case=> <-; split; first exact: low_init.
  by move=> [|[|b]] // _ _; rewrite mul1n; apply: rank_leq_col.
have hm : (m.+1 * s < N)%N by move: h; rewrite mulSn; lia.
case E : (oiter m _ _) => [st1|] //; have [I1 R1] := IH st1 hm E => E'.
have rk := low_inv h I1 E'; have [st2 [E2 I2]] := @low_step F bk thr N s A bk0 s0 sN T m st1 h rk I1.
move: E' => /=; rewrite E2 => -[<-]; split=> // b b0; rewrite leq_eqVlt => /orP[/eqP->//|bm]; exact: R1.
Qed.

End Conv.

Theorem DenseToSSS_some (F : fieldType) (bk thr N s : nat) (A : grid F) g T T' g' : (0 < bk)%N -> (0 < s)%N ->
  DenseToSSS bk thr N s g A T T' = Some g' -> hankel_le s N A.
Proof.
move=> bk0 s0; rewrite /DenseToSSS gtn_eqF //; case: g => P Q R U V W D; cbv beta iota zeta.
set D1 := if (N %% s != 0)%N then _ else _; case: (ltnP s N) => sN; last by move=> _ b b0 bN; nia.
have N0 : (0 < N)%N by lia.
have [k0 kE lsb] := sss_kls s0 N0.
have k2 : (2 <= sss_k N s)%N by nia.
have ek : (sss_k N s - 2).+1 = (sss_k N s - 1)%N by lia.
have hm : ((sss_k N s - 2).+1 * s < N)%N by rewrite ek; move: (_ * s)%N kE => q; lia.
case E : (oiter _ _ _) => [[H U' V' W']|] //; have [[_ _ hH _] hU] := up_conv bk0 s0 sN hm E.
case E' : (oiter _ _ _) => [[H' P' Q' R']|] // _.
have hH0 x j : (j %/ s <= x %/ s)%N -> H x j = A x j by move=> xj; apply: hH; rewrite xj orbT.
have [_ hL] := low_conv bk0 s0 sN hH0 hm E'.
move=> b b0 bN; have bk1 : (b <= (sss_k N s - 2).+1)%N.
  rewrite ek leqNgt; apply/negP => lt; have : ((sss_k N s - 1).+1 * s <= b * s)%N by rewrite leq_mul2r lt orbT.
  by rewrite mulSn; move: (_ * s)%N (b * s)%N kE bN => q q'; lia.
by split; [exact: hU | exact: hL].
Qed.
