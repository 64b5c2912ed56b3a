(** * DenseToSSS: the generator it computes is the matrix *)
From mathcomp Require Import all_ssreflect all_algebra zify.
From Verif Require Import Grid Perm_model Perm_spec Tri_model Pluq_model Api_model Ludiv_model.
From Verif Require Import Sss_model Sss_spec Bidiag_fold Sss_proofs Sss_prod Sss_dense Sssgen_model Sssgen_proofs Sssgen_up Sssgen_low.
Set Implicit Arguments.
Unset Strict Implicit.
Unset Printing Implicit Defensive.
Import GRing.Theory.
Local Open Scope ring_scope.

Section Thm.
Variables (F : fieldType) (bk thr N s : nat) (A : grid F).
Hypothesis bk0 : (0 < bk)%N.
Hypothesis s0 : (0 < s)%N.

Lemma dts_diag (D : grid F) (D0 := iteri (N %/ s) (fun b D => at_ (b * s) 0 (fassign s s (sub (b * s) (b * s) A)) D) D)
    (D1 := if (N %% s != 0)%N then at_ (N %/ s * s) 0 (fassign (N %% s) (N %% s) (sub (N %/ s * s) (N %/ s * s) A)) D0 else D0) x j :
  (x < N)%N -> (j < N)%N -> (x %/ s = j %/ s)%N -> D1 x (j %% s)%N = A x j.
Proof.
move=> xN jN xj; have e := divn_eq N s; have r := ltn_pmod N s0.
have jE := divn_eq j s; have jm := ltn_pmod j s0; have xE := divn_eq x s; have xm := ltn_pmod x s0.
have full n : (n <= N %/ s)%N -> (x < n * s)%N ->
    iteri n (fun b D => at_ (b * s) 0 (fassign s s (sub (b * s) (b * s) A)) D) D x (j %% s)%N = A x j.
  elim: n => [|n IH] hn; first by rewrite mul0n ltn0.
  rewrite iteriS winE add0n jm andbT subn0 mulSn => hx.
  case: (boolP (n * s <= x < n * s + s)%N) => hy /=; last by apply: IH; lia.
  have yE : (x %/ s = n)%N by apply: blkE => //; rewrite mulSn; lia.
  rewrite /sub subnKC; last by lia.
  by rewrite [in RHS]jE -xj yE.
rewrite /D1 /D0; case: eqP => [r0|/eqP r0] /=; first by apply: full => //; move: e; rewrite r0; lia.
rewrite winE add0n subn0 /=.
have [h1|h1] := ltnP x (N %/ s * s); first by apply: full.
have xE' : (x %/ s = N %/ s)%N.
  apply: blkE => //; first by rewrite h1; rewrite mulSn; lia.
have jl : (j < N %/ s * s + N %% s)%N by rewrite -e.
rewrite -e xN /= ifT; last by move: jl; rewrite [in X in X -> _]jE -xj xE' ltn_add2l.
by rewrite /sub subnKC // [in RHS]jE -xj xE'.
Qed.

Theorem DenseToSSS_entry g T T' : hankel_le s N A -> exists g', DenseToSSS bk thr N s g A T T' = Some g' /\
  forall x j, (x < N)%N -> (j < N)%N -> sss_entry s (gP g') (gQ g') (gR g') (gU g') (gV g') (gW g') (gD g') x j = A x j.
Proof.
move=> hk; rewrite /DenseToSSS gtn_eqF //; case: g => P Q R U V W D; cbv beta iota zeta.
have hD x j := @dts_diag D x j; move: hD; set D1 := if _ then _ else _ => hD.
case: (ltnP s N) => sN; last first.
  eexists; split; first by [].
  move=> x j xN jN; rewrite /sss_entry !divn_small ?eqxx /=; try by lia.
  by apply: hD => //; rewrite !divn_small; lia.
have N0 : (0 < N)%N by lia.
have [k0 kE lsb] := sss_kls s0 N0.
have k2 : (2 <= sss_k N s)%N by nia.
have hm : ((sss_k N s - 2).+1 * s < N)%N.
  have ek : (sss_k N s - 2).+1 = (sss_k N s - 1)%N by lia.
  by rewrite ek; move: (_ * s)%N kE => q; lia.
have bl x : (x < N)%N -> (x %/ s <= (sss_k N s - 2).+1)%N.
  by move=> xN; rewrite -ltnS ltn_divLR //; move: kE; case: (sss_k N s) k2 => [|[|k]] // _; rewrite !subSS !subn0 => kE; rewrite mulSn; lia.
have [|st [-> ]] := @up_thm F bk thr N s A bk0 s0 sN T U V W _ _ hm; first by move=> b b0 bN; have [] := hk b b0 bN.
case: st => H U' V' W' [_ _ hH hU].
have [||st [-> ]] := @low_thm F bk thr N s A bk0 s0 sN H _ T' P Q R _ _ hm.
- by move=> x j xj; apply: hH; rewrite xj orbT.
- by move=> b b0 bN; have [] := hk b b0 bN.
case: st => H' P' Q' R' [_ _ _ hL].
eexists; split; first by [].
move=> x j xN jN; rewrite /sss_entry /=; case: eqP => [xj|/eqP xj]; first exact: hD.
case: ltnP => lt; first by apply: hL => //; apply: bl.
by apply: hU => //; [rewrite ltn_neqAle xj | apply: bl].
Qed.

Theorem DenseToSSS_dense g T T' A0 T1 T2 : (0 < N)%N -> hankel_le s N A ->
  exists g' A', [/\ DenseToSSS bk thr N s g A T T' = Some g',
    SSSToDense N s (gP g') (gQ g') (gR g') (gU g') (gV g') (gW g') (gD g') A0 T1 T2 = Some A' &
    forall x j, A' x j = if (x < N)%N && (j < N)%N then A x j else A0 x j].
Proof.
move=> N0 hk; have [g' [E h]] := DenseToSSS_entry g T T' hk.
have [A' [EA hA]] := denseE s0 N0 (gP g') (gQ g') (gR g') (gU g') (gV g') (gW g') (gD g') A0 T1 T2.
by exists g', A'; split=> // x j; rewrite hA; case: ifP => // /andP[xN jN]; exact: h.
Qed.

Theorem DenseToSSS_product g T T' t alpha B beta C T1 T2 : (s <= N)%N -> hankel_le s N A ->
  exists g' C', [/\ DenseToSSS bk thr N s g A T T' = Some g',
    productSSSxTS N t s alpha (gP g') (gQ g') (gR g') (gU g') (gV g') (gW g') (gD g') B beta C T1 T2 = Some C' &
    forall x c, C' x c = if (x < N)%N && (c < t)%N then alpha * (\sum_(j < N) A x j * B j c) + beta * C x c else C x c].
Proof.
move=> sN hk; have [g' [E h]] := DenseToSSS_entry g T T' hk.
have [C' [EC hC]] := @productE F N t s alpha beta s0 (gP g') (gQ g') (gR g') (gU g') (gV g') (gW g') (gD g') B C T1 T2 sN.
exists g', C'; split=> // x c; rewrite hC; case: ifP => // /andP[xN cN].
by congr (_ * _ + _); apply: eq_bigr => j _; rewrite h.
Qed.

End Thm.
