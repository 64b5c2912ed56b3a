(** * DenseToSSS: the lower triangular part *)
From mathcomp Require Import all_ssreflect all_algebra zify.
From Verif Require Import Grid Perm_model Perm_spec Perm_proofs Perm_mx_proofs Tri_model Tri_spec Tri_proofs Pluq_model Pluq_spec Pluq_proofs Pluq_rank Pluq_api_proofs.
From Verif Require Import Api_model Ludiv_model Ech_model Ech_spec Ech_acc Bruhat_proofs Sss_model Sss_spec Bidiag_fold Sss_proofs Sss_prod Sss_dense Sssgen_model Sssgen_proofs Sssgen_up.
Set Implicit Arguments.
Unset Strict Implicit.
Unset Printing Implicit Defensive.
Import GRing.Theory.
Local Open Scope ring_scope.

Section Step.
Variables (F : fieldType) (bk thr N s : nat).
Hypothesis bk0 : (0 < bk)%N.
Hypothesis s0 : (0 < s)%N.

Lemma mx_tr m n (B : grid F) : (mx m n B)^T = mx n m (tr B).
Proof. by apply/matrixP => i j; rewrite !mxE. Qed.

Lemma low_step_spec T b (H P Q R : grid F) (n := (N - s * (b + 2))%N) (Wd := sub (s * (b + 2)) (s * b) H)
    (bs := if b == (sss_k N s - 3)%N then sss_ls N s else s) :
  (\rank (mx n (s * 2) Wd) <= s)%N ->
  exists (H' P' Q' R' Rg : grid F), dts_low_step bk thr N s T b (Lows H P Q R) = Some (Lows H' P' Q' R') /\
  [/\ forall x j, (x < n)%N -> (j < s * 2)%N -> Wd x j = \sum_(l < s) H' (s * (b + 2) + x)%N (s * (b + 1) + l)%N * Rg l j,
      ((mx n s (sub (s * (b + 2)) (s * (b + 1)) H'))^T <= (mx n (s * 2) Wd)^T)%MS,
      forall x l, R' x l = if (s * b <= x < s * b + s)%N && (l < s)%N then Rg (x - s * b)%N l else R x l,
      forall x l, Q' x l = if (s * (b + 1) <= x < s * (b + 1) + s)%N && (l < s)%N then Rg (x - s * (b + 1))%N (s + l)%N else Q x l &
      (forall x l, P' x l = if (s * (b + 1) <= x < s * (b + 1) + bs)%N && (l < s)%N
         then H' (s * (b + 2) + (x - s * (b + 1)))%N (s * (b + 1) + l)%N else P x l) /\
      (forall x j, ~~ ((s * (b + 2) <= x < N)%N && (s * b <= j < s * (b + 2))%N) -> H' x j = H x j)].
Proof.
move=> hr; rewrite /dts_low_step -/Wd -/n -/bs; case E : (PLUQ _ _ _ _ _ Wd) => [X p q r].
have rE := split_rank bk0 E; have [lp lq fr [_ [rM rn] _ _ _]] := split_lapack bk0 E.
have rs : (r <= s)%N by rewrite rE.
rewrite (_ : (s < r)%N = false); last by apply/negP; lia.
cbv beta iota zeta.
set H1 := at_ (s * (b + 2)) (s * b) (fun _ => X) H.
set T1 := getTriangular Upper _ _ _ _ _ _ _; set T2 := applyP _ SRight _ _ _ _ _ T1.
set H2 := at_ _ _ (fun _ => getTriangular _ _ _ _ _ _ _ _) H1; set H3 := at_ _ _ (applyP _ SLeft _ _ _ _ _) H2.
have sub1 x y : sub (s * (b + 2)) (s * b) H1 x y = X x y.
  by rewrite /sub /H1 at_E !leq_addr /= !addKn.
have RgE l j : (l < s)%N -> (j < s * 2)%N -> T2 l j = if (l < r)%N then Up NonUnit X l (sigmaV q 0 (s * 2) j) else 0.
  move=> ll jM; have -> : T2 l j = T1 l (sigmaV q 0 (s * 2) j).
    by rewrite /T2 (mulnC 2%N s); have [hR _] := applyP_right s T1 bk0 lq; exact: hR.
  have jM' := sigmaV_lap lq jM; set j' := sigmaV _ _ _ _ in jM' *.
  case: (ltnP l r) => lr; last by rewrite /T1 getTriangularU_only // /fzero /fill mulnC jM' ll.
  by rewrite /T1 getTriangularU ?(mulnC 2%N s) // lr /Up !sub1.
have LgE x l : (x < n)%N -> (l < s)%N -> sub (s * (b + 2)) (s * (b + 1)) H3 x l = if (l < r)%N then Lo NonUnit X (sigmaV p 0 n x) l else 0.
  move=> xn ll; rewrite /sub /H3 at_E !leq_addr !addKn.
  have [hL _] := applyP_left s (sub (s * (b + 2)) (s * (b + 1)) H2) bk0 lp; rewrite hL // {hL}.
  have xn' := sigmaV_lap lp xn; set x' := sigmaV _ _ _ _ in xn' *.
  rewrite /sub /H2 at_E !leq_addr !addKn getTriangularL //.
  by case: ifP => // lr; rewrite /Lo !sub1.
have fH1 x j : ~~ ((s * (b + 2) <= x < N)%N && (s * b <= j < s * (b + 2))%N) -> H1 x j = H x j.
  by move=> out; apply: (@at_same _ _ _ _ _ _ _ n (s * 2)) => //; rewrite /n -mulnDr; lia.
have fr2 : frame n s (getTriangular Lower Unit n s r (sub (s * (b + 2)) (s * b) H1) (sub (s * (b + 2)) (s * (b + 1)) H1) false) (sub (s * (b + 2)) (s * (b + 1)) H1).
  by move=> x j out; apply: getTriangular_out => //; lia.
have e1 : (s * (b + 1) + s = s * (b + 2))%N by rewrite -mulnSr; congr (_ * _)%N; lia.
have e2 : (s * b + s = s * (b + 1))%N by rewrite -mulnSr; congr (_ * _)%N; lia.
have fH3 x j : ~~ ((s * (b + 2) <= x < N)%N && (s * b <= j < s * (b + 2))%N) -> H3 x j = H x j.
  move=> out; rewrite -fH1 //.
  have out' : ~~ ((s * (b + 2) <= x < s * (b + 2) + n) && (s * (b + 1) <= j < s * (b + 1) + s))%N by rewrite /n; lia.
  rewrite /H3 (at_same (m := n) (n := s)) //; last by have [] := applyP_left s (sub (s * (b + 2)) (s * (b + 1)) H2) bk0 lp.
  by rewrite /H2 (at_same (m := n) (n := s)).
exists H3; eexists; eexists; eexists; exists T2; split; first by reflexivity.
split.
- by move=> x j xM jn; rewrite (split_E bk0 E rs LgE RgE).
- exact: split_col bk0 E rs LgE RgE.
- by move=> x l; rewrite winE leq0n add0n subn0.
- by move=> x l; rewrite winE leq0n add0n subn0.
- by split=> // x l; rewrite winE leq0n add0n subn0.
Qed.

Lemma low0_spec (H P Q R : grid F) (n := (N - s)%N) (fs := if (N - s < s)%N then (N - s)%N else s) : (s < N)%N ->
  exists H' P' Q', dts_low0 bk thr N s H P Q R = Lows H' P' Q' R /\
  [/\ forall x j, (x < n)%N -> (j < s)%N -> sub s 0 H x j = \sum_(l < s) H' (s + x)%N l * Q' l j,
      ((mx n s (sub s 0 H'))^T <= (mx n s (sub s 0 H))^T)%MS,
      forall x l, (x < fs)%N -> (l < s)%N -> P' x l = H' (s + x)%N l &
      forall x j, ~~ ((s <= x < N)%N && (j < s)%N) -> H' x j = H x j].
Proof.
move=> sN; rewrite /dts_low0 -/n -/fs; set Wd := sub s 0 H; case E : (PLUQ _ _ _ _ _ Wd) => [X p q r].
have rE := split_rank bk0 E; have [lp lq fr [_ [rn rM] _ _ _]] := split_lapack bk0 E.
have fsE : fs = minn s n by rewrite /fs /n; case: ifP; lia.
have rf : (r <= fs)%N by lia.
cbv beta iota zeta.
set H1 := at_ s 0 (fun _ => X) H; set Q0 := if (n < s)%N then _ else _.
set Q1 := getTriangular Upper _ _ _ _ _ _ _; set Q2 := applyP _ SRight _ _ _ _ _ Q1.
set H2 := at_ _ _ (getTriangular_in _ _ _ _ _) H1; set H3 := at_ _ _ (applyP _ _ _ _ _ _ _) H2.
have sub1 x y : sub s 0 H1 x y = X x y by rewrite /sub /H1 at_E !leq_addr !addKn.
have RgE l j : (l < s)%N -> (j < s)%N -> Q2 l j = if (l < r)%N then Up NonUnit X l (sigmaV q 0 s j) else 0.
  move=> ll jM; have [hR fR] := applyP_right fs Q1 bk0 lq.
  have [lf|lf] := ltnP l fs.
    rewrite /Q2 hR //; have jM' := sigmaV_lap lq jM; rewrite /Q1 getTriangularU //.
    by case: ifP => // lr; rewrite /Up !sub1.
  rewrite /Q2 fR; last by lia.
  rewrite /Q1 getTriangular_out ?lf // /Q0 ifT; last by lia.
  by rewrite /fzero /fill jM ll ifF //; apply/negP; lia.
have LgE x l : (x < n)%N -> (l < s)%N -> sub s 0 H3 x l = if (l < r)%N then Lo NonUnit X (sigmaV p 0 n x) l else 0.
  move=> xn ll; rewrite /sub /H3 at_E !leq_addr !addKn.
  have [hL _] := applyP_left s (sub s 0 H2) bk0 lp; rewrite hL // {hL}.
  have xn' := sigmaV_lap lp xn; set x' := sigmaV _ _ _ _ in xn' *.
  rewrite /sub /H2 at_E !leq_addr !addKn getTriangularL_in //.
  by case: ifP => // lr; rewrite /Lo !sub1.
have fH1 x j : ~~ ((s <= x < N)%N && (j < s)%N) -> H1 x j = H x j.
  by move=> out; apply: (@at_same _ _ _ _ _ _ _ n s) => //; rewrite /n; lia.
have fr2 : frame n s (getTriangular_in Lower Unit n s r (sub s 0 H1)) (sub s 0 H1).
  by move=> x j out; apply: getTriangular_in_out => //; lia.
have fH3 x j : ~~ ((s <= x < N)%N && (j < s)%N) -> H3 x j = H x j.
  move=> out; rewrite -fH1 //.
  have out' : ~~ ((s <= x < s + n) && (0 <= j < 0 + s))%N by rewrite /n; lia.
  rewrite /H3 (at_same (m := n) (n := s)) //; last by have [] := applyP_left s (sub s 0 H2) bk0 lp.
  by rewrite /H2 (at_same (m := n) (n := s)).
exists H3; eexists; exists Q2; split; first by reflexivity.
split.
- by move=> x j xM jn; rewrite (split_E bk0 E rM LgE RgE).
- exact: split_col bk0 E rM LgE RgE.
- by move=> x l xs lf; rewrite /fassign /fill xs lf.
- by [].
Qed.

End Step.

Section Lower.
Variables (F : fieldType) (bk thr N s : nat) (A : grid F).
Hypothesis bk0 : (0 < bk)%N.
Hypothesis s0 : (0 < s)%N.
Hypothesis sN : (s < N)%N.

Definition low_e (P Q R : grid F) x j : F :=
  (rowv s P (x - s) *m Rprod s R (j %/ s) (x %/ s - j %/ s).-1 *m colv s Q (j %/ s) (j %% s)) 0 0.

Lemma Rprod_ext (R R' : grid F) a d : (forall x l, (x < (a + d) * s)%N -> R' x l = R x l) -> Rprod s R' a d = Rprod s R a d.
Proof.
elim: d => //= d IH h; rewrite IH; last by move=> x l hx; apply: h; rewrite addnS mulSn; lia.
congr (_ *m _); apply/matrixP => i j; rewrite !mxE h // addnS mulSn addnC ltn_add2r //.
Qed.

Lemma colv_ext (Q Q' : grid F) b j : (forall x l, (x < b.+1 * s)%N -> Q' x l = Q x l) -> colv s Q' b j = colv s Q b j.
Proof. by move=> h; apply/colP => l; rewrite !mxE h // mulSn addnC ltn_add2r. Qed.

Lemma low_e_ext (P Q R P' Q' R' : grid F) x j b : (j %/ s < x %/ s)%N -> (x %/ s <= b.+1)%N ->
  (forall x l, (x < b.+1 * s)%N -> P' x l = P x l) -> (forall x l, (x < b.+1 * s)%N -> Q' x l = Q x l) ->
  (forall x l, (x < b * s)%N -> R' x l = R x l) -> low_e P' Q' R' x j = low_e P Q R x j.
Proof.
move=> h1 h2 hP hQ hR; rewrite /low_e (@rowv_ext F s P); last first.
  move=> l; apply: hP; have : (x < b.+2 * s)%N by rewrite -ltn_divLR.
  by rewrite (mulSn b.+1); lia.
rewrite (Rprod_ext (R := R)); last first.
  move=> y l hy; apply: hR; apply: leq_trans hy _; rewrite leq_mul2r; apply/orP; right.
  by move: (x %/ s)%N (j %/ s)%N h1 h2 => p q; lia.
rewrite (@colv_ext Q) // => y l hy; apply: hQ; apply: leq_trans hy _; rewrite leq_mul2r.
by apply/orP; right; apply: leq_trans h2.
Qed.

Definition lowI b (st : low_state F) := let: Lows H P Q R := st in
  [/\ forall x j, (j < b.+1 * s)%N -> (b.+1 * s <= x < N)%N ->
        A x j = \sum_(l < s) H x (b * s + l)%N * (Rprod s R (j %/ s) (b - j %/ s) *m colv s Q (j %/ s) (j %% s)) l 0,
      ((mx (N - b.+1 * s) s (sub (b.+1 * s) (b * s) H))^T <= (mx (N - b.+1 * s) (b.+1 * s) (sub (b.+1 * s) 0 A))^T)%MS,
      forall x j, (b.+1 <= j %/ s)%N -> (j %/ s <= x %/ s)%N -> H x j = A x j &
      forall x j, (j %/ s < x %/ s)%N -> (x %/ s <= b.+1)%N -> (x < N)%N -> low_e P Q R x j = A x j].

Lemma low_close b (H P Q R : grid F) x j :
  (forall x j, (j < b.+1 * s)%N -> (b.+1 * s <= x < N)%N ->
        A x j = \sum_(l < s) H x (b * s + l)%N * (Rprod s R (j %/ s) (b - j %/ s) *m colv s Q (j %/ s) (j %% s)) l 0) ->
  (forall m l, (l < s)%N -> (m < s)%N -> (b.+1 * s + m < N)%N -> P (b * s + m)%N l = H (b.+1 * s + m)%N (b * s + l)%N) ->
  (j %/ s <= b)%N -> (x %/ s = b.+1)%N -> (x < N)%N -> low_e P Q R x j = A x j.
Proof.
move=> hA hP jb xb xN; have xE := divn_eq x s; rewrite xb in xE.
rewrite (hA x j); last by lia.
- rewrite /low_e xb subSn // -mulmxA mxE; apply: eq_bigr => l _; congr (_ * _).
  have e : (x - s = b * s + x %% s)%N by rewrite {1}xE mulSn; lia.
  by rewrite mxE e hP ?ltn_mod // -xE.
- by rewrite -ltn_divLR.
Qed.

Variable H0 : grid F.
Hypothesis H0E : forall x j, (j %/ s <= x %/ s)%N -> H0 x j = A x j.

Lemma low_init (P Q R : grid F) : lowI 0 (dts_low0 bk thr N s H0 P Q R).
Proof.
have [H' [P' [Q' [-> [hA hsub hP fr]]]]] := @low0_spec F bk thr N s bk0 s0 H0 P Q R sN.
have H0l x j : (j < s)%N -> H0 x j = A x j by move=> js; apply: H0E; rewrite (divn_small js).
have hA' x j : (j < 1 * s)%N -> (1 * s <= x < N)%N ->
    A x j = \sum_(l < s) H' x (0 * s + l)%N * (Rprod s R (j %/ s) (0 - j %/ s) *m colv s Q' (j %/ s) (j %% s)) l 0.
  rewrite mul1n => js xs; have := hA (x - s)%N j; rewrite /sub add0n subnKC; last by lia.
  rewrite H0l // => ->; [|lia|by []].
  rewrite sub0n mul1mx (divn_small js) (modn_small js); apply: eq_bigr => l _; rewrite mxE.
  by rewrite !mul0n !add0n.
rewrite /lowI !mul1n mul0n; split.
- by move=> x j; have := hA' x j; rewrite mul1n mul0n.
- suff <- : mx (N - s) s (sub s 0 H0) = mx (N - s) s (sub s 0 A) by [].
  by apply/matrixP => x j; rewrite !mxE /sub add0n H0l.
- move=> x j j1 jx; rewrite fr ?H0E //; apply/negP => /andP[_ js].
  by move: j1; rewrite (divn_small js).
- move=> x j xj x1 xN; have x1' : (x %/ s = 1)%N by move: (x %/ s)%N (j %/ s)%N xj x1 => p q; lia.
  apply: (low_close (H := H') hA' _ _ x1' xN); last by move: xj; rewrite x1' ltnS.
  move=> m l ls ms; rewrite mul1n mul0n !add0n => smN; rewrite hP //.
  by case: ifP; lia.
Qed.

Lemma low_step T b st : (b.+2 * s < N)%N -> (\rank (mx (N - b.+2 * s) (b.+2 * s) (sub (b.+2 * s) 0 A)) <= s)%N -> lowI b st -> exists st', dts_low_step bk thr N s T b st = Some st' /\ lowI b.+1 st'.
Proof.
move=> bN rkb; case: st => H P Q R [hA hsub hH hE].
have e0 : (s * b = b * s)%N by rewrite mulnC.
have e1 : (s * (b + 1) = b.+1 * s)%N by rewrite mulnC addn1.
have e2 : (s * (b + 2) = b.+2 * s)%N by rewrite mulnC addn2.
have m1 : (b.+1 * s = b * s + s)%N by rewrite mulSn addnC.
have m2 : (b.+2 * s = b.+1 * s + s)%N by rewrite mulSn addnC.
have := @low_step_spec F bk thr N s bk0 s0 T b H P Q R; rewrite e0 e1 e2.
set n := (N - b.+2 * s)%N; set Wd := sub (b.+2 * s) (b * s) H; set bs := if _ == _ then _ else _.
have stk : ((mx n (s * 2) Wd)^T <= (mx n (b.+2 * s) (sub (b.+2 * s) 0 A))^T)%MS.
  rewrite !mx_tr; apply: mx_rowsp => i i2; have [il|il] := ltnP i s.
  - move: hsub; rewrite !mx_tr => hsub.
    have [z hz] := rowsp_mx hsub il; exists (fun x => if (x < b.+1 * s)%N then z x else 0) => j jn.
    have := hz (s + j)%N; rewrite /Wd /tr /sub addnA -m2 => ->; last by rewrite /n in jn; lia.
    rewrite [in X in _ = rsum X _]m2 rsum_cat [X in _ = _ + X]rsum0 ?addr0; first by apply: eq_rsum => x ->.
    by move=> x xs; rewrite ltnNge leq_addr mul0r.
  - exists (fun x => (x == b * s + i)%N%:R) => j jn; rewrite rsum_sel; last by lia.
    have iE : ((b * s + i) %/ s = b.+1)%N by apply: blkE => //; lia.
    rewrite /Wd /tr /sub add0n hH // iE ?leqnn // leq_divRL //; lia.
case.
  by rewrite -mxrank_tr; apply: leq_trans (mxrankS stk) _; rewrite mxrank_tr; exact: rkb.
move=> H' [P' [Q' [R' [Rg [-> [sE sR R'E Q'E [P'E fr]]]]]]]; exists (Lows H' P' Q' R'); split=> //.
have R'o x l : (x < b * s)%N -> R' x l = R x l by move=> h; rewrite R'E ifF //; apply/negP; lia.
have Q'o x l : (x < b.+1 * s)%N -> Q' x l = Q x l by move=> h; rewrite Q'E ifF //; apply/negP; lia.
have P'o x l : (x < b.+1 * s)%N -> P' x l = P x l by move=> h; rewrite P'E ifF //; apply/negP; lia.
have hA' x j : (j < b.+2 * s)%N -> (b.+2 * s <= x < N)%N ->
    A x j = \sum_(l < s) H' x (b.+1 * s + l)%N * (Rprod s R' (j %/ s) (b.+1 - j %/ s) *m colv s Q' (j %/ s) (j %% s)) l 0.
  move=> hj hx; have xn : (x - b.+2 * s < n)%N by rewrite /n; lia.
  have [j1|j1] := ltnP j (b.+1 * s).
  - have jb : (j %/ s <= b)%N by rewrite -ltnS ltn_divLR.
    rewrite (hA x j j1); last by lia.
    have -> : colv s Q' (j %/ s) (j %% s) = colv s Q (j %/ s) (j %% s).
      apply: colv_ext => y l hy; apply: Q'o; apply: leq_trans hy _; by rewrite leq_mul2r ltnS jb orbT.
    rewrite subSn //= (Rprod_ext (R := R)); last by move=> y l; rewrite subnKC //; apply: R'o.
    rewrite subnKC // -mulmxA; set c := Rprod _ _ _ _ *m _.
    transitivity (\sum_(l < s) \sum_(m < s) (H' x (b.+1 * s + m)%N * Rg m l) * c l 0).
      apply: eq_bigr => l _; rewrite -mulr_suml; congr (_ * _).
      have := sE (x - b.+2 * s)%N l; rewrite /Wd /sub subnKC; last by lia.
      by apply; [ | have := ltn_ord l; lia].
    rewrite exchange_big /=; apply: eq_bigr => m _; rewrite [(blk _ _ _ *m _) _ _]mxE mulr_sumr; apply: eq_bigr => l _.
    rewrite -mulrA; congr (_ * (_ * _)); rewrite mxE R'E ifT; last by have := ltn_ord l; have := ltn_ord m; lia.
    by rewrite addKn.
  - have jE : (j %/ s = b.+1)%N by apply: blkE => //; lia.
    have xE : (b.+2 <= x %/ s)%N by rewrite leq_divRL //; lia.
    rewrite -(hH x j) ?jE ?leqnn //; last by lia.
    have := sE (x - b.+2 * s)%N (j - b * s)%N; rewrite /Wd /sub subnKC; last by lia.
    rewrite subnKC; last by lia.
    move=> ->; [|by []|lia].
    rewrite subnn mul1mx; apply: eq_bigr => l _; rewrite mxE Q'E (@blkM s b.+1) ?ifT; [|by have := ltn_ord l; lia|lia].
    by congr (_ * Rg _ _); lia.
split=> //.
- by apply: submx_trans sR stk.
- move=> x j j2 jx; rewrite fr.
    by apply: hH => //; apply: ltnW.
  apply/negP => /andP[/andP[x2 _] /andP[_ j3]].
  have : (j %/ s < b.+2)%N by rewrite ltn_divLR.
  by rewrite ltnNge j2.
- move=> x j xj x1 xN; have [xb|xb] := leqP (x %/ s) b.+1; first by rewrite (@low_e_ext P Q R _ _ _ x j b) // hE.
  apply: (low_close (H := H') hA') => //; try by move: (x %/ s)%N (j %/ s)%N xj x1 xb => p q; lia.
  move=> m l ls ms mN; rewrite P'E ifT ?addKn //.
  have N0 : (0 < N)%N by lia.
  have [k0 kE lsb] := sss_kls s0 N0; rewrite ls andbT /bs; case: eqP => eb; last by lia.
  have kE' : (sss_k N s - 1 = b.+2)%N by apply/eqP; rewrite eqn_leq; apply/andP; split; nia.
  by rewrite kE' in kE; lia.
Qed.

Theorem low_thm T (P Q R : grid F) m :
  (forall b, (0 < b)%N -> (b * s < N)%N -> (\rank (mx (N - b * s) (b * s) (sub (b * s) 0 A)) <= s)%N) -> (m.+1 * s < N)%N ->
  exists st, oiter m (dts_low_step bk thr N s T) (dts_low0 bk thr N s H0 P Q R) = Some st /\ lowI m st.
Proof.
move=> rkA; elim: m => [|m IH] h; first by exists (dts_low0 bk thr N s H0 P Q R); split=> //; exact: low_init.
have [|st [/= -> hst]] := IH; first by move: h; rewrite mulSn; lia.
by apply: low_step => //; apply: rkA.
Qed.

End Lower.
