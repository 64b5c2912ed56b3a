(** * The recursive Winograd product *)
From mathcomp Require Import all_ssreflect all_algebra zify ring.
From Verif Require Import Grid Perm_model Tri_model Wino_model Wino_spec Wino_proofs Wino_sched.
Set Implicit Arguments.
Unset Strict Implicit.
Unset Printing Implicit Defensive.
Import GRing.Theory.
Local Open Scope ring_scope.

Section Rec.
Variable F : comRingType.
Implicit Types (A B C : grid F) (g : product F).

Lemma winograd_calc_ok g junk ta tb m n k alpha A B beta C : gemm_right g m n k ->
  is_gemm ta tb (2 * m) (2 * n) (2 * k) alpha A B beta C
    (winograd_calc g junk ta tb m n k alpha A B beta C).
Proof.
move=> gP; rewrite /winograd_calc; case: eqP => [->|_].
  exact: (winograd_ok ta tb alpha gP (Mem A B C junk)).
exact: (winograd_acc_3_21_ok ta tb alpha beta gP (Mem A B C junk)).
Qed.

Lemma optr_subop t i0 j0 A i j : optr t (subop t i0 j0 A) i j = optr t A (i0 + i)%N (j0 + j)%N.
Proof. by case: t. Qed.

Lemma is_gemmE ta tb m n k alpha A B beta C D :
  is_gemm ta tb m n k alpha A B beta C D <-> forall i j, D i j =
    if (i < m)%N && (j < n)%N
    then alpha * wsum k (fun t => optr ta A i t * optr tb B t j) + beta * C i j else C i j.
Proof. by split=> H i j; rewrite H wsumE. Qed.

Lemma peel_ok g ta tb m n k mr nr kr alpha A B beta C C1 :
  (mr <= m)%N -> (nr <= n)%N -> (kr <= k)%N ->
  gemm_right g m nr k -> (forall m' n', (m' <= m)%N -> (n' <= n)%N -> gemm_right g m' n' kr) ->
  (forall n', (n' <= n)%N -> gemm_right g mr n' k) ->
  is_gemm ta tb (m - mr) (n - nr) (k - kr) alpha A B beta C C1 ->
  is_gemm ta tb m n k alpha A B beta C (dynamic_peeling2 g ta tb m n k mr nr kr alpha A B beta C1).
Proof.
move=> mm nn kk /(_ ta tb alpha) g1 g2 g3 /is_gemmE c1; apply/is_gemmE => i j.
pose p i j t := optr ta A i t * optr tb B t j.
have c2 : forall i j, wsum k (p i j) = wsum (k - kr) (p i j) + wsum kr (fun t => p i j (k - kr + t)%N).
  by move=> x y; rewrite -wsum_cat subnK.
have eA : forall x y, optr ta (subop ta 0 (k - kr) A) x y = optr ta A x (k - kr + y)%N by move=> x y; rewrite optr_subop.
have eB : forall x y, optr tb (subop tb (k - kr) 0 B) x y = optr tb B (k - kr + x)%N y by move=> x y; rewrite optr_subop.
have h1 : forall D x y, g ta tb m nr k alpha A (subop tb 0 (n - nr) B) beta D x y =
    if (x < m)%N && (y < nr)%N then alpha * wsum k (p x (n - nr + y)%N) + beta * D x y else D x y.
  move=> D x y; have /is_gemmE -> := g1 A (subop tb 0 (n - nr) B) beta D; case: ifP => // _.
  by congr (_ * _ + _); apply: eq_wsum => t _; rewrite optr_subop.
have h2 : forall m' n' D x y, (m' <= m)%N -> (n' <= n)%N ->
    g ta tb m' n' kr alpha (subop ta 0 (k - kr) A) (subop tb (k - kr) 0 B) 1 D x y =
    if (x < m')%N && (y < n')%N then alpha * wsum kr (fun t => p x y (k - kr + t)%N) + D x y else D x y.
  move=> m' n' D x y hm hn.
  have /is_gemmE -> := g2 m' n' hm hn ta tb alpha (subop ta 0 (k - kr) A) (subop tb (k - kr) 0 B) 1 D.
  case: ifP => // _; rewrite mul1r.
  by congr (_ * _ + _); apply: eq_wsum => t _; rewrite eA eB.
have h3 : forall n' D x y, (n' <= n)%N ->
    g ta tb mr n' k alpha (subop ta (m - mr) 0 A) B beta D x y =
    if (x < mr)%N && (y < n')%N then alpha * wsum k (p (m - mr + x)%N y) + beta * D x y else D x y.
  move=> n' D x y hn; have /is_gemmE -> := g3 n' hn ta tb alpha (subop ta (m - mr) 0 A) B beta D.
  by case: ifP => // _; congr (_ * _ + _); apply: eq_wsum => t _; rewrite optr_subop.
rewrite -/(p i j) c2 /dynamic_peeling2 /at_ /sub.
have ln := leq_subr nr n; have lm := leq_subr mr m.
have e0 : forall f : nat -> F, kr = 0%N -> wsum kr f = 0 by move=> f ->.
have ri : (m - mr <= i)%N -> (i - (m - mr) < mr)%N = (i < m)%N by lia.
have rj : (n - nr <= j)%N -> (j - (n - nr) < nr)%N = (j < n)%N by lia.
have si : (i < m - mr)%N -> (i < m)%N by lia.
have sj : (j < n - nr)%N -> (j < n)%N by lia.
have nsi : forall x, (x < m - mr)%N = ~~ (m - mr <= x)%N by move=> x; rewrite ltnNge.
have nsj : forall x, (x < n - nr)%N = ~~ (n - nr <= x)%N by move=> x; rewrite ltnNge.
case hi : (m - mr <= i)%N; case hj : (n - nr <= j)%N;
  case: (posnP mr) => hm; case: (posnP kr) => hk; case: (posnP nr) => hn;
  rewrite /= ?h1 ?h2 ?h3 ?add0n ?subn0 ?leq0n ?hi ?hj /= ?(subnKC hi) ?(subnKC hj) ?hi ?hj //.
all: rewrite ?h1 ?h2 ?h3 ?leq0n ?hj ?hi /= ?c1 -?/(p i j) ?nsi ?nsj ?add0n ?subn0 ?(subnKC hi) ?(subnKC hj) ?hi ?hj //=.
all: rewrite ?(ri hi) ?(rj hj) ?andbF ?andbT //=.
all: try have si' := si (etrans (nsi i) (congr1 negb hi)); try have sj' := sj (etrans (nsj j) (congr1 negb hj)).
all: rewrite ?si' ?sj' ?andbT /=.
all: rewrite ?c2 ?(e0 _ hk).
all: first [by []|by ring|by case: ifP => // hh; exfalso; clear - hi hm hj hn hh mm nn; lia].
Qed.

Lemma steps_pow f th x w : (2 <= th)%N -> winograd_steps f th x = w.+1 -> (2 ^ w.+1 <= x)%N.
Proof.
move=> t2; elim: f x w => [|f IH] x w //=; case: leqP => // tx [<-].
case E : (winograd_steps f th x./2) => [|v]; first by rewrite expn1; lia.
by have := IH _ _ E; rewrite (expnS 2 v.+1); lia.
Qed.

Lemma expn_gt w : (w < 2 ^ w)%N.
Proof. exact: ltn_expl. Qed.

Definition wfuel (lvl : option nat) (m n k : nat) : nat :=
  (2 * (m + n + k) + (if lvl is Some w then w + 2 else 1))%N.

Lemma half_block m w : (2 * (m %/ 2 ^ w.+1 * 2 ^ w) <= m)%N.
Proof. by rewrite mulnCA -expnS leq_trunc_div. Qed.

Lemma half_block_pos m w : (2 ^ w.+1 <= m)%N -> (2 ^ w <= m %/ 2 ^ w.+1 * 2 ^ w)%N.
Proof. by move=> h; rewrite -{1}(mul1n (2 ^ w)%N) leq_mul2r divn_gt0 ?expn_gt0 // h orbT. Qed.

Lemma fgemm_winograd_ok fuel th junk lvl m n k : (2 <= th)%N -> (wfuel lvl m n k <= fuel)%N ->
  gemm_right (@fgemm_winograd F fuel th junk lvl) m n k.
Proof.
move=> t2; elim: fuel lvl m n k => [|f IH] lvl m n k; first by rewrite /wfuel; case: lvl => [w|]; lia.
move=> hf ta tb alpha A B beta C; rewrite /fgemm_winograd -/(@fgemm_winograd F).
case: eqP => [->|/eqP m0]; first by move=> i j; rewrite ltn0.
case: eqP => [->|/eqP n0]; first by move=> i j; rewrite ltn0 andbF.
case: eqP => [->|/eqP k0]; first by move=> i j; rewrite /= wscalE big_ord0 mulr0 add0r.
rewrite [_ || _]/=; cbv iota.
set w := (if lvl is Some w then w else _); case Ew : w => [|v].
  by move=> i j; rewrite wgemmE wsumE.
set m2 := (m %/ _ * _)%N; set n2 := (n %/ _ * _)%N; set k2 := (k %/ _ * _)%N.
have hm : (2 * m2 <= m)%N := half_block m v.
have hn : (2 * n2 <= n)%N := half_block n v.
have hk : (2 * k2 <= k)%N := half_block k v.
have hw : if lvl is Some u then u = v.+1 else [/\ (2 ^ v <= m2)%N, (2 ^ v <= n2)%N & (2 ^ v <= k2)%N].
  rewrite /w in Ew; case: (lvl) Ew => [u|] // /(steps_pow t2) h.
  by split; apply: half_block_pos; lia.
have hv := expn_gt v.
have dec : forall m' n' k', (m' <= m)%N -> (n' <= n)%N -> (k' <= k)%N ->
    (lvl = None -> (m' + n' + k' < m + n + k)%N) ->
    gemm_right (fgemm_winograd f th junk None) m' n' k'.
  move=> m' n' k' x1 x2 x3 x4; apply: IH; move: hf hw x4; rewrite /wfuel.
  by case: (lvl) => [u|] y1 y2 y3; [lia|move: (y3 erefl); lia].
apply: peel_ok; try lia.
- by apply: dec; try lia; move=> e; move: hw; rewrite e => -[]; lia.
- by move=> m' n' ? ?; apply: dec; try lia; move=> e; move: hw; rewrite e => -[]; lia.
- by move=> n' ?; apply: dec; try lia; move=> e; move: hw; rewrite e => -[]; lia.
rewrite !subKn //; apply: winograd_calc_ok; apply: IH.
move: hf hw; rewrite /wfuel; case: (lvl) => [u|]; first by lia.
by move=> hf [h1 h2 h3]; lia.
Qed.

(** For the refutations: a wrong entry. *)
Lemma not_gemm i j ta tb m n k alpha A B beta C D : (i < m)%N -> (j < n)%N ->
  (D i j == alpha * wsum k (fun t => optr ta A i t * optr tb B t j) + beta * C i j) = false ->
  ~ is_gemm ta tb m n k alpha A B beta C D.
Proof. by move=> im jn h /is_gemmE H; rewrite H im jn eqxx in h. Qed.

Lemma not_gemm_frame i j ta tb m n k alpha A B beta C D : (m <= i)%N || (n <= j)%N ->
  (D i j == C i j) = false -> ~ is_gemm ta tb m n k alpha A B beta C D.
Proof.
move=> o h H; move/(_ i j): (proj1 (is_gemmE ta tb m n k alpha A B beta C D) H) => e.
move: h; rewrite e; suff -> : (i < m)%N && (j < n)%N = false by rewrite eqxx.
by case/orP: o => o; rewrite !ltnNge o ?andbF.
Qed.

Lemma wgemm_right m n k : gemm_right (@wgemm F) m n k.
Proof. by move=> ta tb alpha A B beta C; apply/is_gemmE => i j; rewrite wgemmE. Qed.

(** Bundles for Wino_props. *)
Lemma nobeta_all g ta tb m n k alpha (M : mem F) : gemm_right g m n k ->
  let M1 := run ta tb m n k (winograd_sz m n k) g (winograd ta tb m n k alpha) M in
  let M2 := run ta tb m n k (winopar_sz m n k) g (winopar ta tb m n k alpha) M in
  [/\ is_gemm ta tb (2 * m) (2 * n) (2 * k) alpha (mA M) (mB M) 0 (mC M) (mC M1),
      is_gemm ta tb (2 * m) (2 * n) (2 * k) alpha (mA M) (mB M) 0 (mC M) (mC M2),
      mA M1 = mA M /\ mB M1 = mB M & mA M2 = mA M /\ mB M2 = mB M].
Proof.
move=> gP; split; [exact: winograd_ok|exact: winopar_ok|split|split].
all: by first [apply: mA_run|apply: mB_run].
Qed.

Lemma acc_all g ta tb m n k alpha beta (M : mem F) : gemm_right g m n k ->
  let ok l sz := let M' := run ta tb m n k sz g l M in
    is_gemm ta tb (2 * m) (2 * n) (2 * k) alpha (mA M) (mB M) beta (mC M) (mC M') /\
    mA M' = mA M /\ mB M' = mB M in
  [/\ ok (winograd_acc_3_23 ta tb m n k alpha beta) (acc3_sz m n k),
      ok (winograd_acc_3_21 ta tb m n k alpha beta) (acc3_sz m n k),
      ok (winograd_acc_2_24 ta tb m n k alpha beta) (acc2_24_sz m n k) &
      ok (winograd_acc_2_27 ta tb m n k alpha beta) (acc2_27_sz m n k)].
Proof.
move=> gP; split; (split; [|by split; [apply: mA_run|apply: mB_run]]).
- exact: winograd_acc_3_23_ok.
- exact: winograd_acc_3_21_ok.
- exact: winograd_acc_2_24_ok.
exact: winograd_acc_2_27_ok.
Qed.

Lemma acc_ip_all g ta tb m n k alpha beta (M : mem F) : gemm_right g m n k ->
  let ok l sz := is_gemm ta tb (2 * m) (2 * n) (2 * k) alpha (mA M) (mB M) beta (mC M)
                   (mC (run ta tb m n k sz g l M)) in
  ok (winograd_acc_LR ta tb m n k alpha beta) (acc_LR_sz m n k) /\
  (m = n -> k = n ->
   ok (winograd_acc_R_S ta tb m n k alpha beta) (acc_S_sz m n k) /\
   ok (winograd_acc_L_S ta tb m n k alpha beta) (acc_S_sz m n k)).
Proof.
move=> gP; split; first exact: winograd_acc_LR_ok.
move=> e1 e2; subst k; subst m.
by split; [apply: winograd_acc_R_S_ok|apply: winograd_acc_L_S_ok].
Qed.

Lemma ip_all g ta tb m n k alpha (M : mem F) : gemm_right g m n k -> m = n -> k = n ->
  let ok l sz := is_gemm ta tb (2 * m) (2 * n) (2 * k) alpha (mA M) (mB M) 0 (mC M)
                   (mC (run ta tb m n k sz g l M)) in
  [/\ forall sz, ok (winograd_LR_S ta tb m n k alpha) sz,
      ok (winograd_L_S ta tb m n k alpha) (ip_sz m n) &
      ok (winograd_R_S ta tb m n k alpha) (ip_sz m n)].
Proof.
move=> gP e1 e2; subst k; subst m.
by split; [move=> sz; apply: winograd_LR_S_ok|apply: winograd_L_S_ok|apply: winograd_R_S_ok].
Qed.

End Rec.
