(** * DenseToSSS: the upper triangular part *)
From mathcomp Require Import all_ssreflect all_algebra zify.
From Verif Require Import Grid Perm_model Perm_spec Perm_proofs Perm_mx_proofs Tri_model Tri_spec Tri_proofs Pluq_model Pluq_spec Pluq_proofs Pluq_rank Pluq_api_proofs.
From Verif Require Import Api_model Ludiv_model Ech_model Ech_spec Ech_acc Bruhat_proofs Sss_model Sss_spec Bidiag_fold Sss_proofs Sss_prod Sss_dense Sssgen_model Sssgen_proofs.
Set Implicit Arguments.
Unset Strict Implicit.
Unset Printing Implicit Defensive.
Import GRing.Theory.
Local Open Scope ring_scope.

Section Windows.
Variable F : fieldType.

Lemma at_E i0 j0 (f : grid F -> grid F) A x y : at_ i0 j0 f A x y =
  if (i0 <= x)%N && (j0 <= y)%N then f (sub i0 j0 A) (x - i0)%N (y - j0)%N else A x y.
Proof. by []. Qed.

Lemma at_same i0 j0 (f : grid F -> grid F) A x y m n : frame m n (f (sub i0 j0 A)) (sub i0 j0 A) ->
  ~~ ((i0 <= x < i0 + m) && (j0 <= y < j0 + n))%N -> at_ i0 j0 f A x y = A x y.
Proof.
move=> h out; rewrite at_E; case: ifP => // /andP[h1 h2]; rewrite h; last by lia.
by rewrite /sub !subnKC.
Qed.

Lemma applyP_right bk s n q (A : grid F) : (0 < bk)%N -> is_lapack n q ->
  (forall l j, (l < s)%N -> applyP bk SRight NoTrans s 0 n q A l j = A l (sigmaV q 0 n j)) /\
  frame s n (applyP bk SRight NoTrans s 0 n q A) A.
Proof.
move=> bk0 lq; split=> [l j ls|l j out]; rewrite applyPE // /applyP_entry; first by rewrite ls.
case: ifP => // ls; congr (A _ _); apply: lapackV_ge => //; lia.
Qed.

Lemma applyP_left bk s n q (A : grid F) : (0 < bk)%N -> is_lapack n q ->
  (forall l j, (j < s)%N -> applyP bk SLeft Trans s 0 n q A l j = A (sigmaV q 0 n l) j) /\
  frame n s (applyP bk SLeft Trans s 0 n q A) A.
Proof.
move=> bk0 lq; split=> [l j ls|l j out]; rewrite applyPE // /applyP_entry; first by rewrite ls.
case: ifP => // ls; congr (A _ _); apply: lapackV_ge => //; lia.
Qed.

End Windows.

Section Step.
Variables (F : fieldType) (bk thr N s : nat).
Hypothesis bk0 : (0 < bk)%N.
Hypothesis s0 : (0 < s)%N.

Lemma up_step_spec T b (H U V W : grid F) (n := (N - s * (b + 2))%N) (Wd := sub (s * b) (s * (b + 2)) H) :
  (\rank (mx (s * 2) n Wd) <= s)%N ->
  exists (H' U' V' W' Lg : grid F), dts_up_step bk thr N s T b (Ups H U V W) = Some (Ups H' U' V' W') /\
  [/\ forall x j, (x < s * 2)%N -> (j < n)%N -> Wd x j = \sum_(l < s) Lg x l * H' (s * (b + 1) + l)%N (s * (b + 2) + j)%N,
      (mx s n (sub (s * (b + 1)) (s * (b + 2)) H') <= mx (s * 2) n Wd)%MS,
      forall x l, W' x l = if (s * b <= x < s * b + s)%N && (l < s)%N then Lg (x - s * b)%N l else W x l,
      forall x l, U' x l = if (s * (b + 1) <= x < s * (b + 1) + s)%N && (l < s)%N then Lg (s + (x - s * (b + 1)))%N l else U x l &
      (forall x l, V' x l = if (s * (b + 1) <= x < s * (b + 1) + s)%N && (l < s)%N then H' x (s * (b + 2) + l)%N else V x l) /\
      (forall x j, ~~ ((s * b <= x < s * (b + 2))%N && (s * (b + 2) <= j < N)%N) -> H' x j = H x j)].
Proof.
move=> hr; rewrite /dts_up_step -/Wd -/n; case E : (PLUQ _ _ _ _ _ Wd) => [X p q r].
have rE := split_rank bk0 E; have [lp lq fr [_ [rM rn] _ _ _]] := split_lapack bk0 E.
have rs : (r <= s)%N by rewrite rE.
rewrite (_ : (s < r)%N = false); last by apply/negP; lia.
cbv beta iota zeta.
set H1 := at_ (s * b) (s * (b + 2)) (fun _ => X) H.
set T1 := getTriangular Lower _ _ _ _ _ _ _; set T2 := applyP _ SLeft _ _ _ _ _ T1.
set H2 := at_ _ _ (fun _ => getTriangular _ _ _ _ _ _ _ _) H1; set H3 := at_ _ _ (applyP _ _ _ _ _ _ _) H2.
have sub1 x y : sub (s * b) (s * (b + 2)) H1 x y = X x y.
  by rewrite /sub /H1 at_E !leq_addr /= !addKn.
have LgE x l : (x < s * 2)%N -> (l < s)%N -> T2 x l = if (l < r)%N then Lo NonUnit X (sigmaV p 0 (s * 2) x) l else 0.
  move=> xM ll; have -> : T2 x l = T1 (sigmaV p 0 (s * 2) x) l.
    by rewrite /T2 (mulnC 2%N s); have [hL _] := applyP_left s T1 bk0 lp; exact: hL.
  have xM' := sigmaV_lap lp xM; set x' := sigmaV _ _ _ _ in xM' *.
  case: (ltnP l r) => lr; last by rewrite /T1 getTriangularL_only // /fzero /fill mulnC xM' ll.
  by rewrite /T1 getTriangularL ?(mulnC 2%N s) // lr /Lo !sub1.
have subH3 l j : (l < s)%N -> (j < n)%N -> sub (s * (b + 1)) (s * (b + 2)) H3 l j = if (l < r)%N then Up NonUnit X l (sigmaV q 0 n j) else 0.
  move=> ll jn; rewrite /sub /H3 at_E !leq_addr !addKn.
  have [hR _] := applyP_right s (sub (s * (b + 1)) (s * (b + 2)) H2) bk0 lq; rewrite hR // {hR}.
  have jn' := sigmaV_lap lq jn; set j' := sigmaV _ _ _ _ in jn' *.
  rewrite /sub /H2 at_E !leq_addr !addKn getTriangularU // ?ll ?ltn_ord //.
  by case: ifP => // lr; rewrite /Up !sub1.
have fH1 x j : ~~ ((s * b <= x < s * (b + 2))%N && (s * (b + 2) <= j < N)%N) -> H1 x j = H x j.
  by move=> out; apply: (@at_same _ _ _ _ _ _ _ (s * 2) n) => //; rewrite /n -mulnDr; lia.
have fr2 : frame s n (getTriangular Upper NonUnit s n r (sub (s * b) (s * (b + 2)) H1) (sub (s * (b + 1)) (s * (b + 2)) H1) false) (sub (s * (b + 1)) (s * (b + 2)) H1).
  by move=> x j out; apply: getTriangular_out => //; lia.
have e1 : (s * (b + 1) + s = s * (b + 2))%N by rewrite -mulnSr; congr (_ * _)%N; lia.
have e2 : (s * b + s = s * (b + 1))%N by rewrite -mulnSr; congr (_ * _)%N; lia.
have fH3 x j : ~~ ((s * b <= x < s * (b + 2))%N && (s * (b + 2) <= j < N)%N) -> H3 x j = H x j.
  move=> out; rewrite -fH1 //.
  have out' : ~~ ((s * (b + 1) <= x < s * (b + 1) + s) && (s * (b + 2) <= j < s * (b + 2) + n))%N by rewrite /n; lia.
  rewrite /H3 (at_same (m := s) (n := n)) //; last by have [] := applyP_right s (sub (s * (b + 1)) (s * (b + 2)) H2) bk0 lq.
  by rewrite /H2 (at_same (m := s) (n := n)).
exists H3; eexists; eexists; eexists; exists T2; split; first by reflexivity.
split.
- by move=> x j xM jn; rewrite (split_E bk0 E rs LgE subH3).
- exact: split_row bk0 E rs LgE subH3.
- by move=> x l; rewrite winE leq0n add0n subn0.
- by move=> x l; rewrite winE leq0n add0n subn0.
- split=> // x l; rewrite winE leq0n add0n subn0 /=; case: ifP => // h.
  by rewrite /sub subnKC //; lia.
Qed.

Lemma up0_spec (H U V W : grid F) (n := (N - s)%N) (fs := if (N - s < s)%N then (N - s)%N else s) : (s < N)%N ->
  exists H' U' V', dts_up0 bk thr N s H U V W = Ups H' U' V' W /\
  [/\ forall x j, (x < s)%N -> (j < n)%N -> sub 0 s H x j = \sum_(l < s) U' x l * H' l (s + j)%N,
      (mx s n (sub 0 s H') <= mx s n (sub 0 s H))%MS,
      forall x l, (x < s)%N -> (l < fs)%N -> V' x l = H' x (s + l)%N &
      forall x j, ~~ ((x < s)%N && (s <= j < N)%N) -> H' x j = H x j].
Proof.
move=> sN; rewrite /dts_up0 -/n -/fs; set Wd := sub 0 s H; case E : (PLUQ _ _ _ _ _ Wd) => [X p q r].
have rE := split_rank bk0 E; have [lp lq fr [_ [rM rn] _ _ _]] := split_lapack bk0 E.
have fsE : fs = minn s n by rewrite /fs /n; case: ifP; lia.
have rf : (r <= fs)%N by lia.
cbv beta iota zeta.
set H1 := at_ 0 s (fun _ => X) H; set U0 := if (n < s)%N then _ else _.
set U1 := getTriangular Lower _ _ _ _ _ _ _; set U2 := applyP _ SLeft _ _ _ _ _ U1.
set H2 := at_ _ _ (getTriangular_in _ _ _ _ _) H1; set H3 := at_ _ _ (applyP _ _ _ _ _ _ _) H2.
have sub1 x y : sub 0 s H1 x y = X x y by rewrite /sub /H1 at_E !leq_addr !addKn.
have LgE x l : (x < s)%N -> (l < s)%N -> U2 x l = if (l < r)%N then Lo NonUnit X (sigmaV p 0 s x) l else 0.
  move=> xM ll; have [hL fL] := applyP_left fs U1 bk0 lp.
  have [lf|lf] := ltnP l fs.
    rewrite /U2 hL //; have xM' := sigmaV_lap lp xM; rewrite /U1 getTriangularL //.
    by case: ifP => // lr; rewrite /Lo !sub1.
  rewrite /U2 fL; last by lia.
  rewrite /U1 getTriangular_out ?lf ?orbT // /U0 ifT; last by lia.
  by rewrite /fzero /fill xM ll ifF //; apply/negP; lia.
have subH3 l j : (l < s)%N -> (j < n)%N -> sub 0 s H3 l j = if (l < r)%N then Up NonUnit X l (sigmaV q 0 n j) else 0.
  move=> ll jn; rewrite /sub /H3 at_E !leq_addr !addKn.
  have [hR _] := applyP_right s (sub 0 s H2) bk0 lq; rewrite hR // {hR}.
  have jn' := sigmaV_lap lq jn; set j' := sigmaV _ _ _ _ in jn' *.
  rewrite /sub /H2 at_E !leq_addr !addKn getTriangularU_in //.
  by case: ifP => // lr; rewrite /Up !sub1.
have fH1 x j : ~~ ((x < s)%N && (s <= j < N)%N) -> H1 x j = H x j.
  by move=> out; apply: (@at_same _ _ _ _ _ _ _ s n) => //; rewrite /n; lia.
have fr2 : frame s n (getTriangular_in Upper NonUnit s n r (sub 0 s H1)) (sub 0 s H1).
  by move=> x j out; apply: getTriangular_in_out => //; lia.
have fH3 x j : ~~ ((x < s)%N && (s <= j < N)%N) -> H3 x j = H x j.
  move=> out; rewrite -fH1 //.
  have out' : ~~ ((0 <= x < 0 + s) && (s <= j < s + n))%N by rewrite /n; lia.
  rewrite /H3 (at_same (m := s) (n := n)) //; last by have [] := applyP_right s (sub 0 s H2) bk0 lq.
  by rewrite /H2 (at_same (m := s) (n := n)).
exists H3, U2; eexists; split; first by reflexivity.
split.
- by move=> x j xM jn; rewrite (split_E bk0 E rM LgE subH3).
- exact: split_row bk0 E rM LgE subH3.
- by move=> x l xs lf; rewrite /fassign /fill xs lf.
- by [].
Qed.

End Step.

Section Upper.
Variables (F : fieldType) (bk thr N s : nat) (A : grid F).
Hypothesis bk0 : (0 < bk)%N.
Hypothesis s0 : (0 < s)%N.
Hypothesis sN : (s < N)%N.

Definition up_e (U V W : grid F) x j : F :=
  (rowv s U x *m Wprod s W (x %/ s) (j %/ s - x %/ s).-1 *m colv s V (j %/ s).-1 (j %% s)) 0 0.

Lemma Wprod_ext (W W' : grid F) a d : (forall x l, (x < (a + d) * s)%N -> W' x l = W x l) -> Wprod s W' a d = Wprod s W a d.
Proof.
elim: d => //= d IH h; rewrite IH; last by move=> x l hx; apply: h; rewrite addnS mulSn; lia.
congr (_ *m _); apply/matrixP => i j; rewrite !mxE h // addnS mulSn addnC ltn_add2r //.
Qed.

Lemma rowv_ext (U U' : grid F) x : (forall l, U' x l = U x l) -> rowv s U' x = rowv s U x.
Proof. by move=> h; apply/rowP => l; rewrite !mxE h. Qed.

Lemma up_e_ext (U V W U' V' W' : grid F) x j b : (x %/ s < j %/ s)%N -> (j %/ s <= b.+1)%N ->
  (forall x l, (x < b.+1 * s)%N -> U' x l = U x l) -> (forall x l, (x < b.+1 * s)%N -> V' x l = V x l) ->
  (forall x l, (x < b * s)%N -> W' x l = W x l) -> up_e U' V' W' x j = up_e U V W x j.
Proof.
move=> h1 h2 hU hV hW; rewrite /up_e (rowv_ext (U := U)); last first.
  by move=> l; apply: hU; rewrite -ltn_divLR //; apply: leq_trans h1 h2.
rewrite (Wprod_ext (W := W)); last first.
  move=> y l hy; apply: hW; apply: leq_trans hy _; rewrite leq_mul2r; apply/orP; right.
  by move: (x %/ s)%N (j %/ s)%N h1 h2 => p q; lia.
congr ((_ *m _) 0 0); apply/colP => l; rewrite !mxE hV //.
have e : ((j %/ s).-1.+1 * s <= b.+1 * s)%N by rewrite leq_mul2r prednK ?h2 ?orbT //; apply: leq_ltn_trans h1.
by apply: leq_trans e; rewrite mulSn addnC ltn_add2r.
Qed.

Definition upI b (st : up_state F) := let: Ups H U V W := st in
  [/\ forall x j, (x < b.+1 * s)%N -> (b.+1 * s <= j < N)%N ->
        A x j = \sum_(l < s) (rowv s U x *m Wprod s W (x %/ s) (b - x %/ s)) 0 l * H (b * s + l)%N j,
      (mx s (N - b.+1 * s) (sub (b * s) (b.+1 * s) H) <= mx (b.+1 * s) (N - b.+1 * s) (sub 0 (b.+1 * s) A))%MS,
      forall x j, (b.+1 <= x %/ s)%N || (j %/ s <= x %/ s)%N -> H x j = A x j &
      forall x j, (x %/ s < j %/ s)%N -> (j %/ s <= b.+1)%N -> (j < N)%N -> up_e U V W x j = A x j].

(** The V block makes the entries of its block column. *)
Lemma up_close b (H U V W : grid F) x j :
  (forall x j, (x < b.+1 * s)%N -> (b.+1 * s <= j < N)%N ->
        A x j = \sum_(l < s) (rowv s U x *m Wprod s W (x %/ s) (b - x %/ s)) 0 l * H (b * s + l)%N j) ->
  (forall l m, (l < s)%N -> (m < s)%N -> (b.+1 * s + m < N)%N -> V (b * s + l)%N m = H (b * s + l)%N (b.+1 * s + m)%N) ->
  (x %/ s <= b)%N -> (j %/ s = b.+1)%N -> (j < N)%N -> up_e U V W x j = A x j.
Proof.
move=> hA hV xb jb jN; have jE := divn_eq j s; rewrite jb in jE.
rewrite (hA x j); last by lia.
- rewrite /up_e jb subSn // mxE; apply: eq_bigr => l _; congr (_ * _).
  by rewrite mxE /= hV ?ltn_mod //; rewrite -jE.
- by rewrite -ltn_divLR.
Qed.

Lemma up_init (U V W : grid F) : upI 0 (dts_up0 bk thr N s A U V W).
Proof.
have [H' [U' [V' [-> [hA hsub hV fr]]]]] := @up0_spec F bk thr N s bk0 s0 A U V W sN.
have hA' x j : (x < 1 * s)%N -> (1 * s <= j < N)%N -> A x j = \sum_(l < s) (rowv s U' x *m Wprod s W (x %/ s) (0 - x %/ s)) 0 l * H' (0 * s + l)%N j.
  rewrite mul1n => xs js; have := hA x (j - s)%N xs; rewrite /sub add0n subnKC; last by lia.
  by move=> ->; [rewrite sub0n mulmx1; apply: eq_bigr => l _; rewrite mxE | lia].
rewrite /upI !mul1n mul0n; split=> //.
- by move=> x j; have := hA' x j; rewrite mul1n mul0n.
- move=> x j h; apply: fr; apply/negP => /andP[xs js].
  move: h; rewrite (divn_small xs) ltnNge /= leqn0 -leqn0 => h.
  have : (1 <= j %/ s)%N by rewrite divn_gt0 //; lia.
  by lia.
- move=> x j xj j1 jN; have j1' : (j %/ s = 1)%N by move: (x %/ s)%N (j %/ s)%N xj j1 => p q; lia.
  apply: (up_close (H := H') hA' _ _ j1' jN); last by move: xj; rewrite j1' ltnS.
  move=> l m ls ms; rewrite mul1n mul0n add0n => smN; rewrite hV //.
  by case: ifP; lia.
Qed.

Lemma up_step T b st : (b.+2 * s < N)%N -> (\rank (mx (b.+2 * s) (N - b.+2 * s) (sub 0 (b.+2 * s) A)) <= s)%N -> upI b st -> exists st', dts_up_step bk thr N s T b st = Some st' /\ upI b.+1 st'.
Proof.
move=> bN rkb; case: st => H U V W [hA hsub hH hE].
have e0 : (s * b = b * s)%N by rewrite mulnC.
have e1 : (s * (b + 1) = b.+1 * s)%N by rewrite mulnC addn1.
have e2 : (s * (b + 2) = b.+2 * s)%N by rewrite mulnC addn2.
have m1 : (b.+1 * s = b * s + s)%N by rewrite mulSn addnC.
have m2 : (b.+2 * s = b.+1 * s + s)%N by rewrite mulSn addnC.
have := @up_step_spec F bk thr N s bk0 s0 T b H U V W; rewrite e0 e1 e2.
set n := (N - b.+2 * s)%N; set Wd := sub (b * s) (b.+2 * s) H.
have stk : (mx (s * 2) n Wd <= mx (b.+2 * s) n (sub 0 (b.+2 * s) A))%MS.
  apply: mx_rowsp => i i2; have [il|il] := ltnP i s.
  - have [z hz] := rowsp_mx hsub il; exists (fun x => if (x < b.+1 * s)%N then z x else 0) => j jn.
    have := hz (s + j)%N; rewrite /Wd /sub addnA -m2 => ->; last by rewrite /n in jn; lia.
    rewrite [in X in _ = rsum X _]m2 rsum_cat [X in _ = _ + X]rsum0 ?addr0; first by apply: eq_rsum => x ->.
    by move=> x xs; rewrite ltnNge leq_addr mul0r.
  - exists (fun x => (x == b * s + i)%N%:R) => j jn; rewrite rsum_sel; last by lia.
    rewrite /Wd /sub add0n hH //; apply/orP; left.
    by rewrite leq_divRL //; lia.
case.
  apply: leq_trans (mxrankS stk) _; exact: rkb.
move=> H' [U' [V' [W' [Lg [-> [sE sR W'E U'E [V'E fr]]]]]]]; exists (Ups H' U' V' W'); split=> //.
have W'o x l : (x < b * s)%N -> W' x l = W x l by move=> h; rewrite W'E ifF //; apply/negP; lia.
have U'o x l : (x < b.+1 * s)%N -> U' x l = U x l by move=> h; rewrite U'E ifF //; apply/negP; lia.
have V'o x l : (x < b.+1 * s)%N -> V' x l = V x l by move=> h; rewrite V'E ifF //; apply/negP; lia.
have hA' x j : (x < b.+2 * s)%N -> (b.+2 * s <= j < N)%N ->
    A x j = \sum_(l < s) (rowv s U' x *m Wprod s W' (x %/ s) (b.+1 - x %/ s)) 0 l * H' (b.+1 * s + l)%N j.
  move=> hx hj; have jn : (j - b.+2 * s < n)%N by rewrite /n; lia.
  have [x1|x1] := ltnP x (b.+1 * s).
  - have xb : (x %/ s <= b)%N by rewrite -ltnS ltn_divLR.
    rewrite (hA x j x1); last by lia.
    have -> : rowv s U' x = rowv s U x by apply: rowv_ext => l; apply: U'o.
    rewrite subSn //= (Wprod_ext (W := W)); last by move=> y l; rewrite subnKC //; apply: W'o.
    rewrite subnKC // mulmxA; set c := rowv s U x *m _.
    transitivity (\sum_(l < s) \sum_(m < s) c 0 l * (Lg l m * H' (b.+1 * s + m)%N j)).
      apply: eq_bigr => l _; rewrite -mulr_sumr; congr (_ * _).
      have := sE l (j - b.+2 * s)%N; rewrite /Wd /sub subnKC; last by lia.
      by apply; [have := ltn_ord l; lia | ].
    rewrite exchange_big /=; apply: eq_bigr => m _; rewrite mxE mulr_suml; apply: eq_bigr => l _.
    rewrite mulrA; congr (_ * _ * _); rewrite mxE W'E ifT; last by have := ltn_ord l; have := ltn_ord m; lia.
    by rewrite addKn.
  - have xE : (x %/ s = b.+1)%N by apply: blkE => //; lia.
    rewrite -(hH x j); last by rewrite xE leqnn.
    have := sE (x - b * s)%N (j - b.+2 * s)%N; rewrite /Wd /sub subnKC; last by lia.
    rewrite subnKC; last by lia.
    move=> ->; [|lia|lia].
    rewrite xE subnn mulmx1; apply: eq_bigr => l _; rewrite mxE U'E ifT; last by have := ltn_ord l; lia.
    by congr (Lg _ _ * _); lia.
split=> //.
- by apply: submx_trans sR stk.
- move=> x j h; rewrite fr.
    by apply: hH; case/orP: h => h; [rewrite ltnW | rewrite h orbT].
  apply/negP => /andP[/andP[_ x2] /andP[j2 _]].
  have : (x %/ s < b.+2)%N by rewrite ltn_divLR.
  have : (b.+2 <= j %/ s)%N by rewrite leq_divRL.
  by move: (x %/ s)%N (j %/ s)%N h => p q; lia.
- move=> x j xj j1 jN; have [jb|jb] := leqP (j %/ s) b.+1; first by rewrite (@up_e_ext U V W _ _ _ x j b) // hE.
  apply: (up_close (H := H') hA') => //; try by move: (x %/ s)%N (j %/ s)%N xj j1 jb => p q; lia.
  by move=> l m ls ms mN; rewrite V'E ifT ?ms //; lia.
Qed.

Theorem up_thm T (U V W : grid F) m :
  (forall b, (0 < b)%N -> (b * s < N)%N -> (\rank (mx (b * s) (N - b * s) (sub 0 (b * s) A)) <= s)%N) -> (m.+1 * s < N)%N ->
  exists st, oiter m (dts_up_step bk thr N s T) (dts_up0 bk thr N s A U V W) = Some st /\ upI m st.
Proof.
move=> rkA; elim: m => [|m IH] h; first by exists (dts_up0 bk thr N s A U V W); split=> //; exact: up_init.
have [|st [/= -> hst]] := IH; first by move: h; rewrite mulSn; lia.
by apply: up_step => //; apply: rkA.
Qed.

End Upper.
