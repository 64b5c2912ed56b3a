(** * Random symmetric rank profile matrices *)
From mathcomp Require Import all_ssreflect all_algebra zify.
From Verif Require Import Grid Rmat_model Rmat_spec Rmat_proofs.
Set Implicit Arguments.
Unset Strict Implicit.
Unset Printing Implicit Defensive.

Definition bij (N : nat) (w : nat -> nat) : Prop :=
  (forall a, a < N -> w a < N) /\ (forall a b, a < N -> b < N -> w a = w b -> a = b).

(** The values already picked, then those that are still available. *)
Definition comb (k : nat) (rows rr : nat -> nat) : nat -> nat := fun a => if a < k then rows a else rr a.

Lemma bij_surj N w v : bij N w -> v < N -> exists2 c, c < N & w c = v.
Proof.
move=> [h1 h2] vN; pose f (i : 'I_N) := Ordinal (h1 i (ltn_ord i)).
have fi : injective f by move=> a b [/h2 e]; apply: ord_inj; exact: e.
have /codomP[c /(congr1 val) /= e] := injF_onto fi (Ordinal vN).
by exists c.
Qed.

Lemma comb_step k N rows rr i : bij N (comb k rows rr) -> k <= i < N ->
  bij N (comb k.+1 (upd1 rows k (rr i)) (upd1 rr i (rr k))).
Proof.
move=> [h1 h2] hi; pose t a := if a == k then i else if a == i then k else a.
have E a : comb k.+1 (upd1 rows k (rr i)) (upd1 rr i (rr k)) a = comb k rows rr (t a).
  rewrite /comb /upd1 /t; case: (a =P k) => [->|ak]; first by rewrite ltnSn (ltnNge i) (proj1 (andP hi)).
  case: (a =P i) => [ai|ai].
    by rewrite ltnn; have -> : (a < k.+1) = false by lia.
  by rewrite ltnS leq_eqVlt; case: (a =P k).
have tN a : a < N -> t a < N by rewrite /t; case: (a =P k) => _; [|case: (a =P i) => _]; lia.
have ti a b : t a = t b -> a = b by rewrite /t; case: (a =P k) => ?; [|case: (a =P i) => ?]; case: (b =P k) => ?; try (case: (b =P i) => ?); lia.
by split=> [a aN|a b aN bN]; rewrite !E; [exact/h1/tN|move/h2 => e; apply/ti/e; exact: tN].
Qed.

Definition sinv (N k : nat) (rows cols rr cc : nat -> nat) : Prop :=
  [/\ bij N (comb k rows rr), bij N (comb k cols cc) & pairs k rows cols].

Lemma sinv_avail N k rows cols rr cc a : sinv N k rows cols rr cc -> k <= a < N ->
  (exists2 c, k <= c < N & rr c = cc a) /\ (exists2 c, k <= c < N & cc c = rr a).
Proof.
move=> [br bc sy] /andP[ka aN].
have ca : comb k cols cc a = cc a by rewrite /comb ltnNge ka.
have ra : comb k rows rr a = rr a by rewrite /comb ltnNge ka.
split.
  have [c cN e] := bij_surj br (proj1 bc a aN); move: e; rewrite ca {1}/comb; case: ltnP => ck e; last by exists c; rewrite ?ck.
  have [l lk [_ e2]] := sy c ck.
  have := proj2 bc l a; rewrite ca {1}/comb lk e2 e; lia.
have [c cN e] := bij_surj bc (proj1 br a aN); move: e; rewrite ra {1}/comb; case: ltnP => ck e; last by exists c; rewrite ?ck.
have [l lk [e2 _]] := sy c ck.
have := proj2 br l a; rewrite ra {1}/comb lk e2 e; lia.
Qed.

Lemma swapvalP k N P v c : k <= c < N -> P c = v ->
  exists2 f, k <= f < N /\ P f = v & swapval k N P v = Some (upd1 P f (P k)).
Proof.
move=> hc e; rewrite /swapval; set p := fun i => P i == v.
have hp : has p (iota k (N - k)) by apply/hasP; exists c; rewrite ?mem_iota /p ?e ?eqxx //; lia.
have lt := hp; rewrite has_find size_iota in lt; rewrite lt.
have := nth_find 0 hp; rewrite nth_iota // => /eqP E.
by exists (k + find p (iota k (N - k))) => //; split=> //; lia.
Qed.

Lemma srp_diagP fuel k N x rr cc n l found n' : k < N -> srp_diag fuel k N x rr cc n = Some (l, found, n') ->
  [/\ k <= l < N, k <= found < N & rr found = cc l].
Proof.
move=> kN; elim: fuel n => [//|f IH] n /=; set l1 := RandInt _ _ _; set hits := [seq _ <- _ | _].
case E: hits => [|h t]; first exact: IH.
move=> [<- <- _]; split; first exact: RandInt_in.
  have : last h t \in hits by rewrite E mem_last.
  by rewrite mem_filter mem_iota => /andP[_]; lia.
have : last h t \in hits by rewrite E mem_last.
by rewrite mem_filter => /andP[/eqP].
Qed.

Lemma srp_diag_some fuel k N x rr cc n c : 0 < fuel -> k <= c < N -> rr c = cc (RandInt k N (x n)) ->
  srp_diag fuel k N x rr cc n != None.
Proof.
case: fuel => // fuel _ hc e /=; case E: [seq _ <- _ | _] => [|//].
have : c \in [seq m <- iota k (N - k) | rr m == cc (RandInt k N (x n))].
  by rewrite mem_filter e eqxx mem_iota /=; lia.
by rewrite E.
Qed.

(** One more symmetric pivot. *)
Lemma sinv_diag N k rows cols rr cc l f : sinv N k rows cols rr cc -> k <= l < N -> k <= f < N -> rr f = cc l ->
  sinv N k.+1 (upd1 rows k (cc l)) (upd1 cols k (cc l)) (upd1 rr f (rr k)) (upd1 cc l (cc k)).
Proof.
move=> [br bc sy] hl hf e; split; [by rewrite -e; exact: comb_step|exact: comb_step|].
move=> b bk; case: (b =P k) => [->|ne]; first by exists k => //; rewrite /upd1 eqxx.
have [m mk [e1 e2]] := sy b ltac:(lia).
exists m; first by lia.
by rewrite /upd1 (ltn_eqF mk); move/eqP/negbTE: ne => ->.
Qed.

Lemma srp_stepP fuel N R x h rows cols rr cc n : 0 < fuel -> R <= N -> h.*2.+1 < R -> sinv N h.*2 rows cols rr cc ->
  exists rows' cols' rr' cc' n', srp_step fuel N R x h (Srp rows cols rr cc n) = Some (Srp rows' cols' rr' cc' n') /\
    sinv N h.+1.*2 rows' cols' rr' cc'.
Proof.
move=> f0 RN kR I; rewrite /srp_step doubleS; move: (h.*2) kR I => k kR I.
set i := RandInt k N (x n); set j := RandInt k N (x n.+1).
have hi : k <= i < N by apply: RandInt_in; lia.
have hj : k <= j < N by apply: RandInt_in; lia.
have [br bc sy] := I; rewrite {1 2}/upd1 !eqxx kR andbT; case: (rr i =P cc j) => /= e.
  have [] := sinv_diag I hj hi e; rewrite -{1}e => br1 bc1 sy1.
  have I1 : sinv N k.+1 (upd1 rows k (rr i)) (upd1 cols k (cc j)) (upd1 rr i (rr k)) (upd1 cc j (cc k)).
    by split=> //; rewrite e.
  move: (upd1 rows _ _) (upd1 cols _ _) (upd1 rr _ _) (upd1 cc _ _) I1 => {br1 bc1 sy1 e}rows1 cols1 rr1 cc1 I1.
  have hl : k.+1 <= RandInt k.+1 N (x n.+2) < N by apply: RandInt_in; lia.
  have [[c hc ec] _] := sinv_avail I1 hl.
  have := @srp_diag_some fuel k.+1 N x rr1 cc1 n.+2 c f0 hc ec; case E: (srp_diag _ _ _ _ _ _ _) => [[[l f] n']|//] _.
  have kN : k.+1 < N by lia.
  have [h1 h2 h3] := srp_diagP kN E.
  do 5 eexists; split; first by [].
  exact: sinv_diag.
have u1 (P : nat -> nat) v : upd1 P k v k = v by rewrite /upd1 eqxx.
have u2 (P : nat -> nat) v w : upd1 (upd1 P k v) k.+1 w k = v by rewrite /upd1 eqxx ltn_eqF.
rewrite !u2 !u1.
have b1 := comb_step br hi; have b2 := comb_step bc hj.
have [[c hc ec] _] := sinv_avail I hj; have [_ [d hd ed]] := sinv_avail I hi.
have [f [hf ef] ->] : exists2 f, k.+1 <= f < N /\ upd1 rr i (rr k) f = cc j &
    swapval k.+1 N (upd1 rr i (rr k)) (cc j) = Some (upd1 (upd1 rr i (rr k)) f (upd1 rr i (rr k) k.+1)).
  case: (c =P k) => ck.
    have ik : i <> k by move=> ik; apply: e; rewrite ik -ck.
    by apply: (swapvalP (c := i)); [lia|rewrite /upd1 eqxx -ec ck].
  apply: (swapvalP (c := c)); first by lia.
  by rewrite /upd1 ifF //; apply/eqP => ci; apply: e; rewrite -ci.
have [g [hg eg] ->] : exists2 g, k.+1 <= g < N /\ upd1 cc j (cc k) g = rr i &
    swapval k.+1 N (upd1 cc j (cc k)) (rr i) = Some (upd1 (upd1 cc j (cc k)) g (upd1 cc j (cc k) k.+1)).
  case: (d =P k) => dk.
    have jk : j <> k by move=> jk; apply: e; rewrite jk -dk.
    by apply: (swapvalP (c := j)); [lia|rewrite /upd1 eqxx -ed dk].
  apply: (swapvalP (c := d)); first by lia.
  by rewrite /upd1 ifF //; apply/eqP => dj; apply: e; rewrite -dj.
do 5 eexists; split; first by [].
split; [by rewrite -ef; exact: comb_step|by rewrite -eg; exact: comb_step|].
move=> b bk; case: (b =P k) => [->|ne]; first by exists k.+1 => //; rewrite /upd1 !eqxx ltn_eqF.
case: (b =P k.+1) => [->|ne2]; first by exists k => //; rewrite /upd1 !eqxx ltn_eqF.
have [m mk [e1 e2]] := sy b ltac:(lia).
exists m; first by lia.
by rewrite /upd1; do 4 (case: eqP; first by lia) => _.
Qed.

Lemma sinv_pivots N R rows cols rr cc : R <= N -> sinv N R rows cols rr cc -> sym_pivots N R rows cols.
Proof.
move=> RN [[r1 r2] [c1 c2] sy]; split=> //; split.
- move=> k kR; have := r1 k ltac:(lia).
  by rewrite /comb kR.
- move=> k l kR lR e; apply: r2; rewrite ?/comb ?kR ?lR //; lia.
- move=> k kR; have := c1 k ltac:(lia).
  by rewrite /comb kR.
- move=> k l kR lR e; apply: c2; rewrite ?/comb ?kR ?lR //; lia.
Qed.

Lemma srp_last fuel N R x h rows cols rr cc n : 0 < fuel -> R <= N -> h.*2.+1 = R -> sinv N h.*2 rows cols rr cc ->
  (forall st, srp_step fuel N R x h (Srp rows cols rr cc n) = Some st -> sym_pivots N R (sr_rows st) (sr_cols st)) /\
  (R = N -> srp_step fuel N R x h (Srp rows cols rr cc n) <> None).
Proof.
move=> f0 RN kR I; rewrite /srp_step.
move: (h.*2) kR I => k kR I.
set i := RandInt k N (x n); set j := RandInt k N (x n.+1).
have hi : k <= i < N by apply: RandInt_in; lia.
have hj : k <= j < N by apply: RandInt_in; lia.
have -> : (k.+1 < R) = false by lia.
rewrite andbF; have kN : k < N by lia.
split=> [st|eN].
  case E: (srp_diag _ _ _ _ _ _ _) => [[[l f] n']|//] [<-] /=.
  have [hl hf e] := srp_diagP kN E.
  set co := upd1 cc j (cc k) l in e *.
  have [c hc ec] : exists2 c, k <= c < N & rr c = co.
    by move: e; rewrite /upd1; case: eqP => _ <-; [exists k; rewrite ?leqnn|exists f].
  have [d hd ed] : exists2 d, k <= d < N & cc d = co.
    by rewrite /co /upd1; case: eqP => _; [exists k; rewrite ?leqnn|exists l].
  have := sinv_diag I hd hc (etrans ec (esym ed)); rewrite ed kR => /(sinv_pivots RN)[[p1 p2] [p3 p4] p5].
  have U (P : nat -> nat) v : upd1 (upd1 P k v) k co =1 upd1 P k co by move=> a; rewrite /upd1; case: eqP.
  split; [split|split|].
  - by move=> a aR; rewrite !U; exact: p1.
  - by move=> a b aR bR; rewrite !U; exact: p2.
  - by move=> a aR; rewrite !U; exact: p3.
  - by move=> a b aR bR; rewrite !U; exact: p4.
  - by move=> b bR; have [m mR hm] := p5 b bR; exists m => //; rewrite !U.
have hl : k <= RandInt k N (x n.+2) < N by apply: RandInt_in.
have e1 : RandInt k N (x n.+2) = k by lia.
have ei : i = k by lia.
have ej : j = k by lia.
have [[c hc ec] _] := sinv_avail I hi.
have ck : c = k by lia.
have rk : upd1 rr i (rr k) k = upd1 cc j (cc k) (RandInt k N (x n.+2)).
  by rewrite e1 /upd1 ei ej eqxx -{1}ck ec ei.
have := @srp_diag_some fuel k N x (upd1 rr i (rr k)) (upd1 cc j (cc k)) n.+2 k f0 ltac:(lia) rk.
by case: (srp_diag _ _ _ _ _ _ _) => [[[? ?] ?]|].
Qed.

Lemma srp_iter fuel N R x rows cols h : 0 < fuel -> R <= N -> h.*2 <= R ->
  exists rows' cols' rr' cc' n', iteri h (fun h o => obind (srp_step fuel N R x h) o) (Some (Srp rows cols id id 0)) = Some (Srp rows' cols' rr' cc' n') /\
    sinv N h.*2 rows' cols' rr' cc'.
Proof.
move=> f0 RN; elim: h => [|h IH] hR.
  by exists rows, cols, id, id, 0.
have [r [c [rr [cc [n [E I]]]]]] := IH ltac:(lia).
rewrite iteriS E /=; apply: srp_stepP => //; lia.
Qed.

Lemma RandomSymmetricRankProfileMatrixP fuel N R x rows cols : 0 < fuel -> R <= N ->
  (forall rows' cols', RandomSymmetricRankProfileMatrix fuel N R x rows cols = Some (rows', cols') -> sym_pivots N R rows' cols') /\
  (~~ odd R || (R == N) -> RandomSymmetricRankProfileMatrix fuel N R x rows cols <> None).
Proof.
move=> f0 RN; rewrite /RandomSymmetricRankProfileMatrix ltnNge RN /=.
have E := odd_double_half R; rewrite uphalf_half.
have [r [c [rr [cc [n [Ei I]]]]]] := @srp_iter fuel N R x rows cols R./2 f0 RN ltac:(lia).
case: (odd R) E => /= E; last first.
  rewrite add0n Ei /=; split=> // _ _ [<- <-].
  by apply: (sinv_pivots RN (rr := rr) (cc := cc)); rewrite -E add0n.
rewrite Ei -[obind _ _]/(srp_step fuel N R x R./2 (Srp r c rr cc n)).
have [h1 h2] := @srp_last fuel N R x R./2 r c rr cc n f0 RN E I.
move: h1 h2; case: (srp_step _ _ _ _ _ _) => [st|] h1 h2; split=> //.
  by move=> rows' cols' [<- <-]; exact: h1.
by move/eqP/h2.
Qed.
