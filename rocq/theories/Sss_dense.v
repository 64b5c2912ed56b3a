(** * SSSToDense writes the matrix of the generator *)
From mathcomp Require Import all_ssreflect all_algebra zify.
From Verif Require Import Grid Perm_model Tri_model Tri_proofs Pluq_model Sss_model Sss_spec Bidiag_fold Sss_proofs Sss_prod.
Set Implicit Arguments.
Unset Strict Implicit.
Unset Printing Implicit Defensive.
Import GRing.Theory.
Local Open Scope ring_scope.

Lemma blkM s b x : (b * s <= x < b.+1 * s)%N -> (x %% s = x - b * s)%N.
Proof.
move=> h; have {1}-> : (x = b * s + (x - b * s))%N by lia.
by rewrite modnMDl modn_small //; move: h; rewrite mulSn; lia.
Qed.

Section Dense.
Variables (F : fieldType) (N s : nat).
Hypothesis s0 : (0 < s)%N.
Hypothesis N0 : (0 < N)%N.
Variables (P Q R U V W D : grid F).
Let ent := sss_entry s P Q R U V W D.
Let k := sss_k N s.
Let ls := sss_ls N s.
Let kE : ((k - 1) * s + ls = N)%N. Proof. by have [] := sss_kls s0 N0. Qed.
Let k0 : (0 < k)%N. Proof. by have [] := sss_kls s0 N0. Qed.
Let lsb : (0 < ls <= s)%N. Proof. by have [] := sss_kls s0 N0. Qed.

Definition Tlow row e (T : grid F) bs := forall i l : nat, (i < bs)%N -> forall h : (l < s)%N,
  T i l = (rowv s P (row * s + i) *m Rprod s R e (row - e)) 0 (Ordinal h).

Lemma low_put row e bs T A0 A : (e <= row)%N -> (0 < bs <= s)%N -> Tlow row e T bs ->
  (forall x j, A x j = if ((row + 1) * s <= x < (row + 1) * s + bs)%N && (e.+1 * s <= j < row.+1 * s)%N then ent x j else A0 x j) ->
  forall x j, at_ ((row + 1) * s) (e * s) (fgemm NoTrans NoTrans bs s s 1 T (sub (e * s) 0 Q) 0) A x j =
    if ((row + 1) * s <= x < (row + 1) * s + bs)%N && (e * s <= j < row.+1 * s)%N then ent x j else A0 x j.
Proof.
move=> er hb hT hA x j; rewrite gemmW hA mul0r addr0 mul1r.
have m : (e.+1 * s <= row.+1 * s)%N by rewrite leq_mul2r ltnS er orbT.
have e1 : (e.+1 * s = e * s + s)%N by rewrite mulSn addnC.
case: (boolP (_ <= x < _)%N) => hx /=; last by [].
case: (boolP (e * s <= j < e * s + s)%N) => hj; last first.
  have -> // : (e.+1 * s <= j < row.+1 * s)%N = (e * s <= j < row.+1 * s)%N by lia.
rewrite ifT; last by lia.
have xE : (x %/ s = row.+1)%N by apply: blkE => //; rewrite mulSn -addn1; lia.
have jE : (j %/ s = e)%N by apply: blkE => //; lia.
rewrite /ent /sss_entry xE jE gtn_eqF ?ltnS // er subSn // [_.-1]/= mxE rsumE.
apply: eq_bigr => -[l ll] _; rewrite (hT _ _ _ ll); last by lia.
rewrite !mxE /sub; congr (_ * _); last by rewrite (@blkM s e) //; lia.
by apply: eq_bigr => m' _; rewrite !mxE; congr (P _ _ * _); rewrite mulnDl mul1n; lia.
Qed.

Lemma low_next row e bs T T' : (e < row)%N -> Tlow row e.+1 T bs ->
  Tlow row e (fgemm NoTrans NoTrans bs s s 1 T (sub (e * s) 0 R) 0 T') bs.
Proof.
move=> er hT i l ib ll; rewrite fgemmE ib ll /= mul0r addr0 mul1r.
have -> : (row - e = (row - e.+1).+1)%N by lia.
rewrite Rprod_r mulmxA mxE rsumE; apply: eq_bigr => -[m mm] _.
by rewrite (hT _ _ ib mm) !mxE.
Qed.

Lemma low_row row A T1 T2 : (row < k - 1)%N -> forall x j,
  sdA (ssd_low_row N s P Q R row (Ssd A T1 T2)) x j =
  if ((row + 1) * s <= x < row.+2 * s)%N && (x < N)%N && (j < row.+1 * s)%N then ent x j else A x j.
Proof.
move=> hr; rewrite /ssd_low_row -/k -/ls; set bs := if row == _ then ls else s.
have hb : (0 < bs <= s)%N by rewrite /bs; case: ifP => // _; lia.
have w x : ((row + 1) * s <= x < (row + 1) * s + bs)%N = ((row + 1) * s <= x < row.+2 * s)%N && (x < N)%N.
  have e2 : (row.+2 * s = (row + 1) * s + s)%N by rewrite addn1 mulSn addnC.
  rewrite /bs; case: eqP => e; first by have := kE; rewrite (_ : k - 1 = row + 1)%N; lia.
  have : (row.+2 * s <= (k - 1) * s)%N by rewrite leq_mul2r; lia.
  by lia.
set A1 := at_ _ _ _ A; set T1' := if (0 < row)%N then _ else _.
pose inv i st := ((i.*2 < row)%N -> Tlow row (row - i.*2.+1) (sdT1 st) bs) /\
  forall x j, sdA st x j = if ((row + 1) * s <= x < (row + 1) * s + bs)%N && ((row - i.*2) * s <= j < row.+1 * s)%N then ent x j else A x j.
have i0 : inv 0%N (Ssd A1 T1' T2).
  have t0 : Tlow row row (sub (row * s) 0 P) bs.
    by move=> i l ib ll; rewrite subnn mulmx1 mxE.
  split=> /=.
  - move=> r0; rewrite /T1' r0; apply: low_next; first by lia.
    by rewrite subn1 prednK.
  - rewrite double0 subn0; apply: low_put => // x j; rewrite ifF //; lia.
have step i st : (i.*2.+1 < row)%N -> inv i st -> inv i.+1 (ssd_low_in s bs row Q R i st).
  case: st => A' Ta Tb hi [/= hT hA]; rewrite /inv doubleS; set b := i.*2 in hi hT hA *.
  have {}hT : Tlow row (row - b.+1) Ta bs by apply: hT; lia.
  rewrite /ssd_low_in -/b; set Tb' := fgemm _ _ _ _ _ _ Ta (sub _ _ R) _ _.
  have hTb : Tlow row (row - b.+2) Tb' bs.
    rewrite /Tb' (_ : row - 1 - b.+1 = row - b.+2)%N; last by lia.
    by apply: low_next; [lia | rewrite -subSn; [|lia]].
  split=> [h /=|].
  - rewrite ifT; last by lia.
    rewrite (_ : row - b.+1 - 2 = row - b.+3)%N; last by lia.
    by apply: low_next; [lia | rewrite -subSn; [|lia]].
  - rewrite [sdA _]/sdA (_ : row - b.+1 - 1 = row - b.+2)%N; last by lia.
    apply: low_put => //; first by lia.
    rewrite -subSn; last by lia.
    apply: low_put => //; first by lia.
    by rewrite -subSn; [|lia].
have inv_i i : (i <= uphalf row.-1)%N -> inv i (iteri i (ssd_low_in s bs row Q R) (Ssd A1 T1' T2)).
  elim: i => // i IH hi; apply: step; last by apply: IH; lia.
  by have := leq_uphalf_double i row.-1; lia.
have [] := inv_i _ (leqnn _); case: (iteri _ _ _) => A' Ta Tb /=; set n := uphalf _.
have nE : (n.*2 = row.-1 + odd row.-1)%N by rewrite /n uphalf_half; have := odd_double_half row.-1; lia.
case: (boolP (odd row)) => od hT hA x j.
- have r0 : (0 < row)%N by case: (row) od.
  have e : n.*2 = row.-1 by rewrite nE; move: od; rewrite -{1}(prednK r0) /= => /negbTE ->; rewrite addn0.
  rewrite e in hT hA; have := @low_put row 0 bs Ta A A' (leq0n _) hb; rewrite mul0n => ->.
  + by rewrite w.
  + by have := hT; rewrite prednK // subnn; apply; lia.
  + by move=> x' j'; rewrite hA; have -> : (row - row.-1 = 1)%N by lia.
- rewrite hA w; have -> : (row - n.*2 = 0)%N.
    case: (posnP row) => [->//|r0]; rewrite nE.
    by move: od; rewrite -{1}(prednK r0) /= negbK => ->; lia.
  by rewrite mul0n.
Qed.

Definition Tup col e (T : grid F) bs := forall l j : nat, (j < bs)%N -> forall h : (l < s)%N,
  T l j = (Wprod s W e (col - e) *m colv s V col j) (Ordinal h) 0.

Lemma up_put col e bs T A0 A : (e <= col)%N -> (0 < bs <= s)%N -> Tup col e T bs ->
  (forall x j, A x j = if ((col + 1) * s <= j < (col + 1) * s + bs)%N && (e.+1 * s <= x < col.+1 * s)%N then ent x j else A0 x j) ->
  forall x j, at_ (e * s) ((col + 1) * s) (fgemm NoTrans NoTrans s bs s 1 (sub (e * s) 0 U) T 0) A x j =
    if ((col + 1) * s <= j < (col + 1) * s + bs)%N && (e * s <= x < col.+1 * s)%N then ent x j else A0 x j.
Proof.
move=> er hb hT hA x j; rewrite gemmW hA mul0r addr0 mul1r.
have m : (e.+1 * s <= col.+1 * s)%N by rewrite leq_mul2r ltnS er orbT.
have e1 : (e.+1 * s = e * s + s)%N by rewrite mulSn addnC.
case: (boolP ((col + 1) * s <= j < _)%N) => hj /=; last by rewrite andbF.
case: (boolP (e * s <= x < e * s + s)%N) => hx; last first.
  have -> // : (e.+1 * s <= x < col.+1 * s)%N = (e * s <= x < col.+1 * s)%N by lia.
rewrite /= ifT; last by lia.
have jb : (col.+1 * s <= j < col.+2 * s)%N by rewrite (mulSn col.+1) -addn1; lia.
have jE : (j %/ s = col.+1)%N by apply: blkE.
have xE : (x %/ s = e)%N by apply: blkE => //; lia.
rewrite /ent /sss_entry xE jE ltn_eqF ?ltnS // ltnNge leqW //= subSn // [_.-1]/= -mulmxA mxE rsumE.
apply: eq_bigr => -[l ll] _; rewrite (hT _ _ _ ll); last by lia.
rewrite /sub subnKC; last by lia.
rewrite (@blkM s col.+1) // addn1; congr (_ * _).
by rewrite mxE.
Qed.

Lemma up_next col e bs T T' : (e < col)%N -> Tup col e.+1 T bs ->
  Tup col e (fgemm NoTrans NoTrans s bs s 1 (sub (e * s) 0 W) T 0 T') bs.
Proof.
move=> er hT l j ib ll; rewrite fgemmE ib ll /= mul0r addr0 mul1r.
have -> : (col - e = (col - e.+1).+1)%N by lia.
rewrite Wprod_l -mulmxA mxE rsumE; apply: eq_bigr => -[m mm] _.
by rewrite (hT _ _ ib mm) !mxE.
Qed.

Lemma up_col col A T1 T2 : (col < k - 1)%N -> forall x j,
  sdA (ssd_up_col N s U V W col (Ssd A T1 T2)) x j =
  if ((col + 1) * s <= j < col.+2 * s)%N && (j < N)%N && (x < col.+1 * s)%N then ent x j else A x j.
Proof.
move=> hr; rewrite /ssd_up_col -/k -/ls; set bs := if col == _ then ls else s.
have hb : (0 < bs <= s)%N by rewrite /bs; case: ifP => // _; lia.
have w x : ((col + 1) * s <= x < (col + 1) * s + bs)%N = ((col + 1) * s <= x < col.+2 * s)%N && (x < N)%N.
  have e2 : (col.+2 * s = (col + 1) * s + s)%N by rewrite addn1 mulSn addnC.
  rewrite /bs; case: eqP => e; first by have := kE; rewrite (_ : k - 1 = col + 1)%N; lia.
  have : (col.+2 * s <= (k - 1) * s)%N by rewrite leq_mul2r; lia.
  by lia.
set A1 := at_ _ _ _ A; set T1' := if (0 < col)%N then _ else _.
pose inv i st := ((i.*2 < col)%N -> Tup col (col - i.*2.+1) (sdT1 st) bs) /\
  forall x j, sdA st x j = if ((col + 1) * s <= j < (col + 1) * s + bs)%N && ((col - i.*2) * s <= x < col.+1 * s)%N then ent x j else A x j.
have i0 : inv 0%N (Ssd A1 T1' T2).
  have t0 : Tup col col (sub (col * s) 0 V) bs.
    by move=> i l ib ll; rewrite subnn mul1mx mxE.
  split=> /=.
  - move=> r0; rewrite /T1' r0; have e : (col - 1 = col.-1)%N by lia.
    by rewrite e; apply: up_next; [lia | rewrite prednK].
  - rewrite double0 subn0; apply: up_put => // x j; rewrite ifF //; lia.
have step i st : (i.*2.+1 < col)%N -> inv i st -> inv i.+1 (ssd_up_in s bs col U W i st).
  case: st => A' Ta Tb hi [/= hT hA]; rewrite /inv doubleS; set b := i.*2 in hi hT hA *.
  have {}hT : Tup col (col - b.+1) Ta bs by apply: hT; lia.
  rewrite /ssd_up_in -/b; set Tb' := fgemm _ _ _ _ _ _ (sub _ _ W) Ta _ _.
  have hTb : Tup col (col - b.+2) Tb' bs.
    rewrite /Tb' (_ : col - 1 - b.+1 = col - b.+2)%N; last by lia.
    by apply: up_next; [lia | rewrite -subSn; [|lia]].
  split=> [h /=|].
  - rewrite ifT; last by lia.
    rewrite (_ : col - b.+1 - 2 = col - b.+3)%N; last by lia.
    by apply: up_next; [lia | rewrite -subSn; [|lia]].
  - rewrite [sdA _]/sdA (_ : col - b.+1 - 1 = col - b.+2)%N; last by lia.
    apply: up_put => //; first by lia.
    rewrite -subSn; last by lia.
    apply: up_put => //; first by lia.
    by rewrite -subSn; [|lia].
have inv_i i : (i <= uphalf col.-1)%N -> inv i (iteri i (ssd_up_in s bs col U W) (Ssd A1 T1' T2)).
  elim: i => // i IH hi; apply: step; last by apply: IH; lia.
  by have := leq_uphalf_double i col.-1; lia.
have [] := inv_i _ (leqnn _); case: (iteri _ _ _) => A' Ta Tb /=; set n := uphalf _.
have nE : (n.*2 = col.-1 + odd col.-1)%N by rewrite /n uphalf_half; have := odd_double_half col.-1; lia.
case: (boolP (odd col)) => od hT hA x j.
- have r0 : (0 < col)%N by case: (col) od.
  have e : n.*2 = col.-1 by rewrite nE; move: od; rewrite -{1}(prednK r0) /= => /negbTE ->; rewrite addn0.
  rewrite e in hT hA; have := @up_put col 0 bs Ta A A' (leq0n _) hb; rewrite mul0n => ->.
  + by rewrite w.
  + by have := hT; rewrite prednK // subnn; apply; lia.
  + by move=> x' j'; rewrite hA; have -> : (col - col.-1 = 1)%N by lia.
- rewrite hA w; have -> : (col - n.*2 = 0)%N.
    case: (posnP col) => [->//|r0]; rewrite nE.
    by move: od; rewrite -{1}(prednK r0) /= negbK => ->; lia.
  by rewrite mul0n.
Qed.

Theorem denseE A T1 T2 : exists A', SSSToDense N s P Q R U V W D A T1 T2 = Some A' /\
  forall x j, A' x j = if (x < N)%N && (j < N)%N then ent x j else A x j.
Proof.
rewrite /SSSToDense (gtn_eqF s0) (gtn_eqF N0); eexists; split; first by [].
rewrite -/k; set A0 := if (N %% s != 0)%N then _ else _.
have hd x j : A0 x j = if [&& x < N, j < N & x %/ s == j %/ s]%N then D x (j %% s)%N else A x j.
  have e := divn_eq N s; have r := ltn_pmod N s0.
  have full n : (n <= N %/ s)%N -> forall x j, iteri n (fun b A => at_ (b * s) (b * s) (fassign s s (sub (b * s) 0 D)) A) A x j =
      if (x < n * s)%N && (x %/ s == j %/ s)%N then D x (j %% s)%N else A x j.
    elim: n => [|n IH] hn y z; first by rewrite mul0n ltn0.
    rewrite iteriS winE IH; last by lia.
    have e1 : (n.+1 * s = n * s + s)%N by rewrite mulSn addnC.
    case: (boolP (n * s <= y < n * s + s)%N) => hy /=; last first.
      have -> // : (y < n.+1 * s)%N = (y < n * s)%N by lia.
    have yE : (y %/ s = n)%N by apply: blkE => //; lia.
    have -> : (y < n * s)%N = false by lia.
    have -> : (y < n.+1 * s)%N by lia.
    rewrite yE /=; case: (boolP (n * s <= z < n * s + s)%N) => hz.
      have zE : (z %/ s = n)%N by apply: blkE => //; lia.
      rewrite zE eqxx /sub subnKC; last by lia.
      by rewrite add0n (@blkM s n) // e1.
    rewrite ifF //; apply/negP => /eqP zE; move: hz; rewrite zE leq_trunc_div -mulSnr -ltn_divLR //.
    by rewrite ltnSn.
  rewrite /A0; case: eqP => [r0|/eqP r0] /=; rewrite ?winE full //.
    have -> : (N %/ s * s = N)%N by move: e; rewrite r0; lia.
    case: (ltnP x N) => xN //=; case: eqP => xj; rewrite ?andbF ?andbT //.
    rewrite (_ : j < N)%N //; have jE : (j %/ s < N %/ s)%N by rewrite -xj ltn_divLR //; move: e; rewrite r0; lia.
    by move: jE; rewrite ltn_divLR //; move: e; rewrite r0; lia.
  have -> : (N %/ s * s + N %% s = N)%N by rewrite -e.
  have NE : (N < (N %/ s).+1 * s)%N by rewrite -ltn_divLR.
  case: (ltnP x (N %/ s * s)) => h1 /=.
    have xN : (x < N)%N by move: (N %/ s * s)%N e h1 => q; lia.
    rewrite xN; case: eqP => xj; rewrite ?andbF ?andbT //.
    rewrite (_ : j < N)%N //; have jE : (j %/ s < N %/ s)%N by rewrite -xj ltn_divLR.
    by move: jE; rewrite ltn_divLR //; move: (N %/ s * s)%N e => q; lia.
  case: (ltnP x N) => xN //=.
  have xE : (x %/ s = N %/ s)%N by apply: blkE => //; lia.
  rewrite xE andbC; case: (ltnP j N) => jN //=.
  case: (leqP (N %/ s * s) j) => h2.
    have jE : (j %/ s = N %/ s)%N by apply: blkE => //; lia.
    by rewrite jE eqxx /sub subnKC // add0n (@blkM s (N %/ s)) //; lia.
  rewrite ifF //; apply/negP => /eqP jE; have : (j %/ s < N %/ s)%N by rewrite ltn_divLR.
  by rewrite -jE ltnn.
have hl n : (n <= k - 1)%N -> forall x j, sdA (iteri n (ssd_low_row N s P Q R) (Ssd A0 T1 T2)) x j =
    if [&& s <= x, x < n.+1 * s, x < N & j < x %/ s * s]%N then ent x j else A0 x j.
  elim: n => [|n IH] hn x j; first by rewrite ifF //; apply/negP; lia.
  rewrite iteriS; have := IH (ltnW hn); case: (iteri _ _ _) => A' Ta Tb /= {}IH; rewrite low_row // IH addn1.
  have e1 : (n.+2 * s = n.+1 * s + s)%N by rewrite mulSn addnC.
  have e2 : (s <= n.+1 * s)%N by rewrite mulSn leq_addr.
  case: (boolP (n.+1 * s <= x < n.+2 * s)%N) => hx /=; last first.
    have -> // : [&& s <= x, x < n.+1 * s, x < N & j < x %/ s * s]%N = [&& s <= x, x < n.+2 * s, x < N & j < x %/ s * s]%N.
    by move: (j < _)%N => bb; lia.
  rewrite (blkE s0 hx) [in X in if _ then _ else X]ifF; last by apply/negP; lia.
  by move/andP: hx => [hx1 ->]; rewrite (leq_trans e2 hx1).
have {}hl := hl _ (leqnn _); set st := iteri _ _ (Ssd A0 T1 T2) in hl *.
have hu n : (n <= k - 1)%N -> forall x j, sdA (iteri n (ssd_up_col N s U V W) st) x j =
    if [&& s <= j, j < n.+1 * s, j < N & x < j %/ s * s]%N then ent x j else sdA st x j.
  elim: n => [|n IH] hn x j; first by rewrite ifF //; apply/negP; lia.
  rewrite iteriS; have := IH (ltnW hn); case: (iteri _ _ _) => A' Ta Tb /= {}IH; rewrite up_col // IH addn1.
  have e1 : (n.+2 * s = n.+1 * s + s)%N by rewrite mulSn addnC.
  have e2 : (s <= n.+1 * s)%N by rewrite mulSn leq_addr.
  case: (boolP (n.+1 * s <= j < n.+2 * s)%N) => hx /=; last first.
    have -> // : [&& s <= j, j < n.+1 * s, j < N & x < j %/ s * s]%N = [&& s <= j, j < n.+2 * s, j < N & x < j %/ s * s]%N.
    by move: (x < _)%N => bb; lia.
  rewrite (blkE s0 hx) [in X in if _ then _ else X]ifF; last by apply/negP; lia.
  by move/andP: hx => [hx1 ->]; rewrite (leq_trans e2 hx1).
move=> x j; rewrite (hu _ (leqnn _)) hl hd.
have NE : (N <= (k - 1).+1 * s)%N by rewrite mulSn; lia.
have c y z : [&& s <= y, y < (k - 1).+1 * s, y < N & z < y %/ s * s]%N = (y < N)%N && (z %/ s < y %/ s)%N.
  rewrite -(ltn_divLR z _ s0); case: (ltnP y N) => yN; rewrite ?andbF //= (leq_trans yN NE) /=.
  by case: (ltnP (z %/ s) (y %/ s)) => h; rewrite ?andbF ?andbT // -divn_gt0 //; apply: leq_ltn_trans h.
rewrite !c; case: (ltngtP (x %/ s) (j %/ s)) => h; rewrite ?andbF ?andbT /=.
- case: (ltnP j N) => jN; rewrite ?andbF //= ifT //.
  rewrite andbT; apply: ltn_trans jN; apply: contraTT h; rewrite -!leqNgt => h; exact: leq_div2r.
- case: (ltnP x N) => xN //=; rewrite ifT //.
  apply: ltn_trans xN; apply: contraTT h; rewrite -!leqNgt => h; exact: leq_div2r.
- by rewrite /ent ent_dg.
Qed.

End Dense.
