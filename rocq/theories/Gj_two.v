(** * The Gauss-Jordan elimination by column slices: two slices *)
From mathcomp Require Import all_ssreflect all_algebra zify ring.
From Verif Require Import Grid Perm_model Perm_spec Perm_proofs Tri_model Tri_spec Tri_proofs.
From Verif Require Import Pluq_model Pluq_spec Pluq_proofs Pluq_main Pluq_rank Pluq_api_proofs Api_model Ludiv_model Ludiv_proofs.
From Verif Require Import Ech_model Ech_spec Ech_proofs Ech_steps Ech_acc Ech_acc2 Ech_main Ech_thm Gj_base.
Set Implicit Arguments.
Unset Strict Implicit.
Unset Printing Implicit Defensive.
Import GRing.Theory.
Local Open Scope ring_scope.

Section Gj.
Variable F : fieldType.
Implicit Types A B X Y T E W : grid F.
Variables (bk thr tthr bc : nat).
Hypotheses (bk0 : (0 < bk)%N) (tthr0 : (0 < tthr)%N).

(** ** Two slices *)

Lemma rows_comp slab M rho r1 r2 P1 P2 : (rho + r1 + r2 <= M)%N ->
  (forall k, (k < pnum slab M rho r1)%N -> (P1 k < M - rho)%N) ->
  (forall k, (k < pnum slab M (rho + r1) r2)%N -> (P2 k < M - (rho + r1))%N) ->
  let P := if slab then iteri r2 (fun i p => upd1 p (i + r1) (P2 i + r1)%N) P1 else composeLLL id P1 P2 r1 (M - rho) in
  (forall k, (k < pnum slab M rho (r1 + r2))%N -> (P k < M - rho)%N) /\
  forall k, (k < M)%N -> dsum rho (sigma P 0 (pnum slab M rho (r1 + r2))) k =
    dsum rho (sigma P1 0 (pnum slab M rho r1)) (dsum (rho + r1) (sigma P2 0 (pnum slab M (rho + r1) r2)) k).
Proof.
move=> rM b1 b2; rewrite /pnum in b1 b2 *; case: slab b1 b2 => b1 b2 /=.
  set P := iteri _ _ _.
  have e k x : iteri k (fun i p => upd1 p (i + r1) (P2 i + r1)%N) P1 x =
     if (r1 <= x < r1 + k)%N then (P2 (x - r1) + r1)%N else P1 x.
    elim: k => [|k IH]; first by rewrite ifF //; lia.
    rewrite iteriS {1}/upd1 IH; case: eqP => [->|nx]; first by rewrite addnK ifT //; lia.
    by rewrite (_ : (r1 <= x < r1 + k.+1)%N = (r1 <= x < r1 + k)%N) //; lia.
  split=> [k kr|k kM]; first by rewrite /P e; case: ifP => h; [have := b2 (k - r1)%N | have := b1 k]; lia.
  rewrite /dsum; case: (ltnP k rho) => h1; first by have -> : (k < rho + r1)%N by [lia]; rewrite h1.
  have lo x : sigma P 0 r1 x = sigma P1 0 r1 x by apply: sigma_ext => i hi; rewrite /P e ifF //; lia.
  rewrite (sigma_cat _ _ (leq0n r1) (leq_addr r2 r1)) lo; case: (ltnP k (rho + r1)) => h2.
    rewrite ltnNge h1 /=; congr (_ + sigma _ _ _ _)%N; apply: sigma_lo; last by lia.
    by move=> i hi; rewrite /P e hi leq_addl.
  rewrite ifF; last by lia.
  rewrite (_ : (k - rho = r1 + (k - (rho + r1)))%N); last by lia.
  rewrite (@sigma_shift P P2) => [|i ir]; last by rewrite /P e ifT ?addKn 1?addnC //; lia.
  by congr (_ + sigma _ _ _ _)%N; lia.
have rN : (r1 <= M - rho)%N by lia.
have b2' k : (k < M - rho - r1)%N -> (P2 k < M - rho - r1)%N by rewrite -subnDA; exact: b2.
have [h1 h2] := composeLLLE id rN b1 b2'; split=> [k kr|k kM]; first by have := h1 k kr; lia.
rewrite /dsum; case: (ltnP k rho) => hk; first by have -> : (k < rho + r1)%N by [lia]; rewrite hk.
rewrite h2; last by lia.
rewrite /dsum; case: (ltnP k (rho + r1)) => hk2; first by rewrite ifT ?ifF //; lia.
rewrite ifF; last by lia.
rewrite ifF; last by lia.
congr (_ + sigma _ _ _ _)%N; rewrite -subnDA (_ : (k - rho - r1 = k - (rho + r1))%N); lia.
Qed.

Lemma slice_ext slab M N c rho w A A' Q0 X X' P P' Q R u :
  (forall i j, (i < M)%N -> A i j = A' i j) -> (forall i j, (i < M)%N -> X i j = X' i j) -> (forall k, P k = P' k) ->
  slice slab M N c rho w A Q0 X P Q R u -> slice slab M N c rho w A' Q0 X' P' Q R u.
Proof.
move=> eA eX eP [h1 h2 h3 h4 h5 h6 h7 h8 h9 h10].
have nM : (pnum slab M rho R <= M - rho)%N by rewrite /pnum; case: (slab); lia.
have ds k : (k < M)%N -> (dsum rho (sigma P 0 (pnum slab M rho R)) k < M)%N.
  move=> kM; rewrite /dsum; case: (ltnP k rho) => h //.
  suff : (sigma P 0 (pnum slab M rho R) (k - rho) < M - rho)%N by lia.
  by apply: sigma_lt => //; lia.
have eS k : sigma P' 0 (pnum slab M rho R) k = sigma P 0 (pnum slab M rho R) k by apply: sigma_ext => i _; rewrite eP.
split=> //.
- by move=> k kn; rewrite -eP; exact: h2.
- move=> i l iM lw; rewrite -eX // -h7 //; apply: act_ext => [t tR|t tR|]; first by rewrite eX.
  + by rewrite /dsum eS -/(dsum _ _ _) eA //; apply: ds; lia.
  by rewrite /dsum eS -/(dsum _ _ _) eA //; apply: ds.
- by move=> k l kR lw; rewrite -eX; [exact: h8 | lia].
by move=> i j iM jw; rewrite -eX // -eA //; exact: h10.
Qed.

Lemma two_ok slab M N c rho w rec A Q0 X1 P1 Q1 r1 u1 A2 X2 P2 Q2 r2 u2 Xm P Xf Qf : (rec <= w)%N -> (c + w <= N)%N ->
  slice slab M N c rho rec A Q0 X1 P1 Q1 r1 u1 ->
  (forall i j, (i < M)%N -> A2 i j = gj_update bk M rho c (c + rec) (w - rec) r1 (pnum slab M rho r1) P1 X1 i j) ->
  slice slab M N (c + rec) (rho + r1) (w - rec) A2 Q1 X2 P2 Q2 r2 u2 ->
  (forall i j, (i < M)%N -> Xm i j = gj_merge M rho c (c + rec) r1 r2
      (at_ (rho + r1) c (applyP bk SLeft NoTrans r1 0 (pnum slab M (rho + r1) r2) P2) X2) i j) ->
  P = (if slab then iteri r2 (fun i p => upd1 p (i + r1) (P2 i + r1)%N) P1 else composeLLL id P1 P2 r1 (M - rho)) ->
  (Xf, Qf) = (if (r1 < rec)%N && (0 < r2)%N then gj_rotate M N rho c rec r1 r2 Xm Q2 else (Xm, Q2)) ->
  exists u, slice slab M N c rho w A Q0 Xf P Qf (r1 + r2) u.
Proof.
move=> rw cN s1 eA2 s2 eXm eP eXf.
have [[RM1 Rr] bP1 pu1 [Qb1 Qt1] lo1 hi1 law1 ord1 inc1 fr1] := s1.
have [[RM2 Rr2] bP2 pu2 [Qb2 Qt2] lo2 hi2 law2 ord2 inc2 fr2] := s2.
rewrite -addnA subnKC // in Qb2 Qt2.
have Q2N x : (x < N)%N -> (Q2 x < N)%N.
  by move=> xN; case: (ltnP x (c + w)) => h; [have := Qb2 x h; lia | rewrite Qt2 //; lia].
have dis1 t : (t < r1)%N -> ~~ (c + rec <= c + t < c + rec + (w - rec))%N by lia.
have dis2 t : (t < r2)%N -> ~~ (c <= c + rec + t < c + r1)%N by lia.
have [bP sP] := rows_comp RM2 bP1 bP2; rewrite -eP in bP sP.
pose sg1 := dsum rho (sigma P1 0 (pnum slab M rho r1)).
pose sg2 := dsum (rho + r1) (sigma P2 0 (pnum slab M (rho + r1) r2)).
have sg2M k : (k < M)%N -> (sg2 k < M)%N.
  move=> kM; rewrite /sg2 /dsum; case: (ltnP k (rho + r1)) => h //.
  suff : (sigma P2 0 (pnum slab M (rho + r1) r2) (k - (rho + r1)) < M - (rho + r1))%N by lia.
  by apply: sigma_lt => //; [rewrite /pnum; case: (slab); lia | lia].
have sg2lo k : (k < rho + r1)%N -> sg2 k = k by rewrite /sg2 /dsum => ->.
have sg2hi k : (rho + r1 <= k)%N -> (rho + r1 <= sg2 k)%N by move=> h; rewrite /sg2 /dsum ltnNge h leq_addr.
have xm i j : (i < M)%N -> Xm i j = if (c <= j < c + r1)%N then
    act (rho + r1) r2 (fun i t => X2 i (c + rec + t)%N) (fun k => X2 (sg2 k) j) i else X2 i j.
  by move=> iM; rewrite eXm // (gj_mergeE bk0 tthr0).
have x21 k j : (k < M)%N -> (j < c + rec)%N || (c + w <= j)%N -> X2 k j = X1 k j.
  by move=> kM jr; rewrite fr2 ?eA2 ?(gj_updateE bk0 tthr0) ?ifF //; lia.
pose v := vrot rec r1 r2.
pose U l := if (l < rec)%N then u1 l else (rec + u2 (l - rec))%N.
have pv : is_perm w v by apply: (vrot_perm bk0 tthr0); lia.
have pU : is_perm w U.
  split=> [l lw|l l' lw lw']; rewrite /U.
    by case: (ltnP l rec) => h; [have := proj1 pu1 l h | have := proj1 pu2 (l - rec)%N]; lia.
  case: (ltnP l rec) => h; case: (ltnP l' rec) => h' e.
  - exact: (proj2 pu1).
  - have := proj1 pu1 l h; lia.
  - have := proj1 pu1 l' h'; lia.
  have /(proj2 pu2) : u2 (l - rec)%N = u2 (l' - rec)%N by lia.
  lia.
have vid : ~~ ((r1 < rec) && (0 < r2))%N -> forall l, v l = l.
  move=> h l; rewrite /v /vrot; case: ltnP => // h1; case: ltnP => h2; first by lia.
  case: ltnP => //; lia.
have vlt l : (l < r1)%N -> v l = l by rewrite /v /vrot => ->.
have vmid l : (r1 <= l < r1 + r2)%N -> v l = (rec + (l - r1))%N.
  by move=> h; rewrite /v /vrot; case: (ltnP l r1) => h1; case: (ltnP l (r1 + r2)) => h2; lia.
have vthird l : (r1 + r2 <= l < rec + r2)%N -> v l = (l - r2)%N.
  by move=> h; rewrite /v /vrot; case: (ltnP l r1) => h1; case: (ltnP l (r1 + r2)) => h2; case: (ltnP l (rec + r2)) => h3; lia.
have vlast l : (rec + r2 <= l)%N -> v l = l.
  by move=> h; rewrite /v /vrot !ifF //; lia.
(* the array after the rotation *)
have [eXa eQa] : Xf = (if (r1 < rec)%N && (0 < r2)%N then gj_rotate M N rho c rec r1 r2 Xm Q2 else (Xm, Q2)).1 /\
   Qf = (if (r1 < rec)%N && (0 < r2)%N then gj_rotate M N rho c rec r1 r2 Xm Q2 else (Xm, Q2)).2 by rewrite -eXf.
have [F1 F2 F3 F4] : [/\ forall i l, (i < M)%N -> (l < r1 + r2)%N || (rec + r2 <= l)%N -> Xf i (c + l)%N = Xm i (c + v l)%N,
   forall i l, (i < rho + r1)%N -> (r1 + r2 <= l < rec + r2)%N -> Xf i (c + l)%N = X1 i (c + (l - r2))%N,
   forall i l, (rho + r1 <= i < rho + r1 + r2)%N -> (r1 + r2 <= l < rec + r2)%N -> Xf i (c + l)%N = 0 &
   forall i j, (i < M)%N -> ~~ (c <= j < c + w)%N -> Xf i j = Xm i j].
  rewrite eXa; case: ifP => rot; last first.
    have vi := vid (negbT rot); split=> // [i l iM _|i l ir lr|i l]; [by rewrite vi| |lia].
    have r20 : r2 = 0%N by lia.
    by rewrite [LHS]/= xm ?ifF ?x21 ?r20 ?subn0 //; lia.
  have /andP[rr r20] := rot; split=> [i l iM h|i l ir lr|i l ir lr|i j iM jw]; rewrite (rotA bk0 tthr0) //; try lia.
  + rewrite ifF; last by lia.
    case: (boolP (c + r1 <= c + l < c + r1 + r2)%N) => h2.
      by rewrite vmid; [congr (Xm _ _); lia | lia].
    by case: (ltnP l r1) => h3; [rewrite vlt | rewrite vlast //; lia].
  + rewrite ifT; last by lia.
    rewrite ir (_ : (c + l - r2 = c + (l - r2))%N); last by lia.
    by rewrite xm ?ifF ?x21 //; lia.
  + rewrite ifT; last by lia.
    by rewrite ifF //; lia.
  rewrite ifF; last by lia.
  by rewrite ifF //; lia.
(* the column permutation *)
have [Qf1 Qf2] : (forall x, (x < N)%N -> sigma Qf 0 N x = sigma Q2 0 N (if (c <= x < c + w)%N then (c + v (x - c))%N else x)) /\
   ((forall x, (x < c + w)%N -> (Qf x < c + w)%N) /\ (forall x, (c + w <= x < N)%N -> Qf x = x)).
  rewrite eQa; case: ifP => rot; last first.
    by split=> // x xN; rewrite vid ?rot //; case: ifP => // h; rewrite subnKC //; lia.
  have /andP[rr r20] := rot; have rcw : (rec + r2 <= w)%N by lia.
  have [lp e] := @rotQ F bk tthr bk0 tthr0 M N rho c w rec r1 r2 Xm Q2 rr rcw cN Q2N; split=> //.
  have := lapack_tail lp cN => -[|h1 h2]; last by split.
  move=> x xw; rewrite e ?ifF; [|lia..].
  rewrite (sigma_cat _ _ (leq0n (c + w)) cN) [sigma _ (c + w) N x]sigma_id => [|i hi]; last exact: Qt2.
  by apply: (sigma_ge (n := (c + w)%N)) => //; lia.
have QU l : (l < w)%N -> sigma Q2 0 N (c + l) = (c + U l)%N.
  move=> lw; rewrite /U; case: ltnP => h; first by rewrite lo2 ?hi1 //; lia.
  have -> : (c + l = c + rec + (l - rec))%N by lia.
  by rewrite hi2 ?addnA //; lia.
exists (fun l => U (v l)).
have Yf i t : (i < M)%N -> (t < r1 + r2)%N -> Xf i (c + t)%N =
    if (t < r1)%N then act (rho + r1) r2 (fun i t => X2 i (c + rec + t)%N) (fun k => X1 (sg2 k) (c + t)%N) i
    else X2 i (c + rec + (t - r1))%N.
  move=> iM tr; rewrite F1 ?tr // xm //; case: (ltnP t r1) => h.
    rewrite vlt // ifT; last by lia.
    by apply: act_ext => // [t' t'r|]; rewrite x21 //; try lia; apply: sg2M; lia.
  by rewrite vmid ?ifF ?addnA //; lia.
split.
- by split; lia.
- exact: bP.
- exact: (perm_comp pU pv).
- exact: Qf2.
- by move=> x xc; rewrite Qf1 ?ifF ?lo2 ?lo1 //; lia.
- move=> l lw; rewrite Qf1 ?ifT ?addKn ?QU //; try lia.
  exact: (proj1 pv).
- move=> i l iM lw.
  pose x k := A (sg1 k) (c + U (v l))%N.
  have -> : act rho (r1 + r2) (fun i t => Xf i (c + t)%N)
      (fun k => A (dsum rho (sigma P 0 (pnum slab M rho (r1 + r2))) k) (c + U (v l))%N) i =
      act (rho + r1) r2 (fun i t => X2 i (c + rec + t)%N) (fun k => act rho r1 (fun i t => X1 i (c + t)%N) x (sg2 k)) i.
    rewrite (act_comp bk0 tthr0) //; apply: act_ext => [t tr|t tr|]; first by rewrite Yf.
    + by rewrite sP //; lia.
    by rewrite sP.
  case: (ltnP (v l) rec) => vl.
    have g1 k : (k < M)%N -> act rho r1 (fun i t => X1 i (c + t)%N) x k =
        if (v l < r1)%N then (k == rho + v l)%N%:R else if (k < rho + r1)%N then X1 k (c + v l)%N else 0.
      by move=> kM; rewrite -law1 // /x /U vl.
    have -> : act (rho + r1) r2 (fun i t => X2 i (c + rec + t)%N) (fun k => act rho r1 (fun i t => X1 i (c + t)%N) x (sg2 k)) i =
       if (i < rho + r1)%N then if (v l < r1)%N then (i == rho + v l)%N%:R else X1 i (c + v l)%N else 0.
      rewrite {1}/act rsum0 ?add0r => [|t tr]; last first.
        have h : (rho + r1 <= sg2 (rho + r1 + t))%N by apply: sg2hi; lia.
        rewrite g1; last by apply: sg2M; lia.
        case: (ltnP (v l) r1) => h1; last by rewrite ltnNge h mulr0.
        by have -> : (sg2 (rho + r1 + t) == rho + v l)%N = false by [lia]; rewrite mulr0.
      case: (ltnP i (rho + r1)) => h.
        by rewrite sg2lo // g1 // h.
      case: ifP => h2 //; have h3 := sg2hi i h; rewrite g1 ?sg2M //; case: (ltnP (v l) r1) => h1.
        by have -> : (sg2 i == rho + v l)%N = false by lia.
      by rewrite ltnNge h3.
    case: (ltnP l r1) => l1.
      rewrite vlt // l1 [in RHS]ifT; last by lia.
      by case: ltnP => // h; have -> : (i == rho + l)%N = false by lia.
    have l2 : (r1 + r2 <= l < rec + r2)%N.
      case: (ltnP l (r1 + r2)) => h; first by have := vmid l; rewrite l1 h => /(_ isT); lia.
      by case: (ltnP l (rec + r2)) => // h2; have := vlast l h2; lia.
    rewrite vthird // in vl *; rewrite [in RHS]ifF; last by lia.
    case: (ltnP i (rho + r1)) => h.
      by rewrite ifF ?ifT ?F2 //; lia.
    by case: ifP => // h2; rewrite F3 //; lia.
  have vw : (v l < w)%N by exact: (proj1 pv).
  have vw2 : (v l - rec < w - rec)%N by lia.
  have uw := proj1 pu2 _ vw2.
  have g2 k : (k < M)%N -> act rho r1 (fun i t => X1 i (c + t)%N) x k = A2 k (c + rec + u2 (v l - rec))%N.
    move=> kM; rewrite eA2 // (gj_updateE bk0 tthr0) // ifT; last by lia.
    have xx k' : (k' < M)%N -> x k' = X1 (sg1 k') (c + rec + u2 (v l - rec))%N.
      move=> k'M; rewrite /x /U ltnNge vl addnA fr1 //; last by lia.
      rewrite /sg1 /dsum; case: (ltnP k' rho) => h //.
      suff : (sigma P1 0 (pnum slab M rho r1) (k' - rho) < M - rho)%N by lia.
      by apply: sigma_lt => //; [rewrite /pnum; case: (slab); lia | lia].
    by apply: act_ext => // [t tr|]; rewrite xx //; lia.
  rewrite -[RHS](_ : (if (v l - rec < r2)%N then (i == rho + r1 + (v l - rec))%N%:R else if (i < rho + r1 + r2)%N then X2 i (c + rec + (v l - rec))%N else 0) = _).
    rewrite -law2 //; apply: act_ext => // [t tr|]; rewrite g2 //; apply: sg2M => //; lia.
  case: (ltnP l (r1 + r2)) => h.
    have l1 : (r1 <= l)%N by case: (leqP r1 l) => // h1; have := vlt l h1; lia.
    rewrite vmid ?l1 // ifT ?ifT; [|lia..].
    by congr (_%:R); congr (nat_of_bool _); lia.
  have l2 : (rec + r2 <= l)%N by case: (leqP (rec + r2) l) => // h1; have := vthird l; rewrite h h1 => /(_ isT); lia.
  rewrite F1 ?l2 ?orbT // vlast // ifF; last by lia.
  rewrite (_ : (rho + r1 + r2 = rho + (r1 + r2))%N); last by lia.
  by case: ifP => // h3; rewrite xm // ifF; [congr (X2 _ _); lia | lia].
- move=> k l kR lw; case: (ltnP l (rec + r2)) => lr.
    have vl := vthird l; case: (ltnP k r1) => k1; last by rewrite F3 ?eqxx //; lia.
    rewrite F2 ?vl ?vlt /U ?ifT; try lia.
    by apply: ord1 => //; lia.
  rewrite F1 ?lr ?orbT; [|lia..].
  rewrite vlast // xm ?ifF; [|lia..].
  have -> : (c + l = c + rec + (l - rec))%N by lia.
  rewrite /U [in X in (_ < X)%N]ifF; last by lia.
  case: (ltnP k r1) => k1.
    by rewrite vlt // ifT; [have := proj1 pu1 k; lia | lia].
  have -> : (rho + k = rho + r1 + (k - r1))%N by lia.
  move/ord2 => h; rewrite vmid; last by lia.
  rewrite ifF; last by lia.
  by rewrite addKn ltn_add2l; apply: h; lia.
- move=> sl t t' tt; rewrite /U; case: (ltnP t' r1) => h'.
    rewrite !vlt ?ifT; try lia.
    by apply: inc1 => //; lia.
  have vt' : v t' = (rec + (t' - r1))%N by apply: vmid; lia.
  rewrite vt' [in X in (_ < X)%N]ifF; last by lia.
  case: (ltnP t r1) => h.
    by rewrite vlt // ifT; [have := proj1 pu1 t; lia | lia].
  rewrite vmid ?ifF; [|lia..].
  by rewrite !addKn ltn_add2l; apply: inc2 => //; lia.
by move=> i j iM jw; rewrite F4 // xm // ifF ?x21 ?fr1 //; lia.
Qed.

End Gj.
