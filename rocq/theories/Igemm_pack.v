From Coq Require Import ZArith Lia.
From mathcomp Require Import all_ssreflect zify.
From Verif Require Import Grid Igemm_model Igemm_spec Igemm_proofs.
Set Implicit Arguments.
Unset Strict Implicit.
Unset Printing Implicit Defensive.

(** ** Packing *)
Definition app (n : nat) (h : nat -> Z) (s s' : mem * nat) : Prop :=
  [/\ s'.2 = s.2 + n, forall q, q < s.2 -> s'.1 q = s.1 q & forall p, p < n -> s'.1 (s.2 + p) = h p].

Lemma app_iter w c (h : nat -> nat -> Z) (F : nat -> mem * nat -> mem * nat) s :
  (forall k s, k < c -> app w (h k) s (F k s)) -> app (c * w) (fun p => h (p %/ w) (p %% w)) s (iteri c F s).
Proof.
elim: c => [|c IH] H; first by split=> //=; rewrite addn0.
have [|a1 a2 a3] := IH; first by move=> k s' hk; apply: H; lia.
have [b1 b2 b3] := H c (iteri c F s) (ltnSn _).
rewrite [iteri c.+1 _ _]/= -/(iteri c F s); split=> [|q hq|p hp]; first by rewrite b1 a1 mulSn; lia.
  by rewrite b2 ?a2 //; lia.
case: (ltnP p (c * w)) => hp'; first by rewrite b2 ?a3 //; lia.
have [l [e hl]] : exists l, p = c * w + l /\ l < w by exists (p - c * w); lia.
have w0 : 0 < w by lia.
rewrite e divnMDl // divn_small // addn0 modnMDl modn_small // -b3 // a1; congr (_ _); lia.
Qed.

Lemma app_put v s : app 1 (fun=> v) s (put s v).
Proof.
split=> /=; first lia; first by move=> q hq; rewrite /upd1 ifF //; apply/negbTE; lia.
by case=> // _; rewrite addn0 /upd1 eqxx.
Qed.

(** What pack_rhs and pack_lhs make of the entries f i j, i < n, j < m: groups of k
    indices i, then one group of sa of them if step, then one by one. *)
Definition cut1 (k n : nat) := n %/ k * k.
Definition cut2 (k sa : nat) (step : bool) (n : nat) := if step && (sa <= n - cut1 k n) then cut1 k n + sa else cut1 k n.
Definition packed (k sa : nat) (step : bool) (P : mem) (n m : nat) (f : nat -> nat -> Z) : Prop :=
  [/\ forall g i l, g < n %/ k -> i < m -> l < k -> P (g * k * m + i * k + l) = f (g * k + l) i,
      step && (sa <= n - cut1 k n) -> forall i l, i < m -> l < sa -> P (cut1 k n * m + i * sa + l) = f (cut1 k n + l) i
    & forall r i, cut2 k sa step n <= r < n -> i < m -> P (r * m + i) = f r i].

Definition pack_gen (k sa : nat) (step : bool) (XX : mem) (n m : nat) (f : nat -> nat -> Z) : mem :=
  let c := n %/ k * k in
  let s := iteri (n %/ k) (fun g s => iteri m (fun i s => iteri k (fun l s => put s (f (g * k + l) i)) s) s) (XX, 0) in
  let: (s, c) := if step && (sa <= n - c)
    then (iteri m (fun i s => iteri sa (fun l s => put s (f (c + l) i)) s) s, c + sa) else (s, c) in
  (iteri (n - c) (fun g s => iteri m (fun i s => put s (f (c + g) i)) s) s).1.

Lemma muladd_lt i m k l : i < m -> l < k -> i * k + l < m * k.
Proof.
move=> hi hl; have : i.+1 * k <= m * k by rewrite leq_mul2r hi orbT.
by rewrite mulSn; lia.
Qed.

Lemma app1 c f s : app c f s (iteri c (fun l s => put s (f l)) s).
Proof.
have [h1 h2 h3] := @app_iter 1 c (fun l _ => f l) (fun l s => put s (f l)) s (fun k s _ => app_put _ _).
by rewrite muln1 in h1 h3; split=> // p hp; rewrite h3 // divn1.
Qed.

Lemma app2 m c f s : app (m * c) (fun p => f (p %/ c) (p %% c)) s (iteri m (fun i s => iteri c (fun l s => put s (f i l)) s) s).
Proof. by apply: app_iter => k s' _; apply: app1. Qed.

Lemma pack_genP k sa step XX n m f : packed k sa step (pack_gen k sa step XX n m f) n m f.
Proof.
rewrite /pack_gen -/(cut1 k n); set s1 := iteri (n %/ k) _ _.
have [a1 _ a3] : app (n %/ k * (m * k)) (fun p => f ((p %/ (m * k)) * k + (p %% (m * k)) %% k) ((p %% (m * k)) %/ k)) (XX, 0) s1.
  apply: (@app_iter (m * k) (n %/ k) (fun g p => f (g * k + p %% k) (p %/ k))) => g s _.
  exact: (@app2 m k (fun i l => f (g * k + l) i)).
rewrite /= add0n in a1.
have a1' : s1.2 = cut1 k n * m by rewrite a1 /cut1; lia.
set sc := if _ then _ else _.
have [b0 b1 b2 b3] : [/\ sc.2 = cut2 k sa step n, sc.1.2 = sc.2 * m,
    forall q, q < cut1 k n * m -> sc.1.1 q = s1.1 q &
    step && (sa <= n - cut1 k n) -> forall i l, i < m -> l < sa -> sc.1.1 (cut1 k n * m + i * sa + l) = f (cut1 k n + l) i].
  rewrite /sc /cut2; case: ifP => hs //.
  have [c1 c2 c3] := app2 m sa (fun i l => f (cut1 k n + l) i) s1.
  split=> //=; first by rewrite c1 a1'; lia.
    by move=> q hq; rewrite c2 // a1'.
  move=> _ i l hi hl.
  have hil : i * sa + l < m * sa by apply: muladd_lt.
  have := c3 _ hil; rewrite a1' divnMDl; last lia.
  by rewrite divn_small // addn0 modnMDl modn_small // addnA => ->.
have hcut : cut1 k n <= cut2 k sa step n by rewrite /cut2; case: ifP => _; lia.
move: b0 b1 b2 b3; case: sc => s2 c /= -> b1 b2 b3.
have [d1 d2 d3] := app2 (n - cut2 k sa step n) m (fun g i => f (cut2 k sa step n + g) i) s2.
set s3 := iteri _ _ _ in d1 d2 d3 *; rewrite b1 in d2 d3.
have hcm : cut1 k n * m <= cut2 k sa step n * m by rewrite leq_mul2r hcut orbT.
split=> [g i l hg hi hl|hs i l hi hl|r i hr hi].
- have h1 : i * k + l < m * k by apply: muladd_lt.
  have h2 : g * (m * k) + (i * k + l) < n %/ k * (m * k).
    have : g.+1 * (m * k) <= n %/ k * (m * k) by rewrite leq_mul2r hg orbT.
    by rewrite mulSn; lia.
  have hc : cut1 k n * m = n %/ k * (m * k) by rewrite /cut1; lia.
  have e : g * k * m + i * k + l = g * (m * k) + (i * k + l) by lia.
  rewrite e d2; last lia.
  rewrite b2; last lia.
  have := a3 _ h2; rewrite /= add0n => ->.
  have k0 : 0 < k by lia.
  have mk0 : 0 < m * k by lia.
  by rewrite divnMDl // modnMDl (divn_small h1) (modn_small h1) addn0 divnMDl // modnMDl (divn_small hl) (modn_small hl) addn0.
- rewrite d2; first exact: b3.
  rewrite /cut2 hs mulnDl; have : i.+1 * sa <= m * sa by rewrite leq_mul2r hi orbT.
  rewrite mulSn; lia.
have h1 : (r - cut2 k sa step n) * m + i < (n - cut2 k sa step n) * m.
  have : (r - cut2 k sa step n).+1 * m <= (n - cut2 k sa step n) * m by rewrite leq_mul2r; apply/orP; right; lia.
  by rewrite mulSn; lia.
have := d3 _ h1.
have m0 : 0 < m by lia.
rewrite divnMDl // modnMDl (divn_small hi) (modn_small hi) addn0 addnA -mulnDl subnKC //; lia.
Qed.

Lemma pack_rhsP sa k tr XX X xo ldx rows cols :
  packed k sa tr (pack_rhs sa k tr XX X xo ldx rows cols) cols rows (fun c r => X (xo + (r + c * ldx))).
Proof. exact: pack_genP. Qed.

Lemma pack_lhsP sa k tr XX X xo ldx rows cols :
  packed k sa (~~ tr) (pack_lhs sa k tr XX X xo ldx rows cols) rows cols (fun r c => X (xo + (r + c * ldx))).
Proof. exact: pack_genP. Qed.

(** ** The block times panel product *)
Section Igebp.
Variables (vs : nat) (K : kind) (alpha : Z).
Variables (M N D ldc cb rows : nat) (a b : nat -> nat -> Z) (blockA blockB : mem).
Hypothesis vs0 : 0 < vs.
Hypothesis D0 : 0 < D.
Hypothesis hM : M <= ldc.
Hypothesis hrows : cb + rows <= M.
Hypothesis ha : forall r k, r < M -> k < D -> fits 32 (a r k).
Hypothesis hb : forall k t, k < D -> t < N -> fits 32 (b k t).
Notation S r t := (zsum D (fun k => a r k * b k t)%Z).
Hypothesis hK : match K with
  | One => alpha = 1%Z
  | Mone => alpha = (-1)%Z
  | Other => [/\ fits 32 alpha, forall r k, r < M -> k < D -> fits 32 (alpha * a r k)
      & forall r t, r < M -> t < N -> fits 32 (S r t)]
  end.
Hypothesis pA : packed (2 * vs) vs true blockA rows D (fun i k => a (cb + i) k).
Hypothesis pB : packed 4 vs false blockB N D (fun t k => b k t).

Let g (r t : nat) (c : Z) : Z := w64 (c + alpha * S r t).
Let fine (r t : nat) (c : Z) : Prop :=
  fits 64 c /\ forall k, k < D -> fits 64 (alpha * a r k * b k t) /\ fits 64 (c + alpha * zsum k.+1 (fun k => a r k * b k t))%Z.
Notation tile := (tile ldc g fine).

Section Cols.
Variables (nc j pdepth : nat).
Hypothesis hnc : nc = 4 \/ nc = 1.
Hypothesis hj : j + nc <= N.
Hypothesis hp : pdepth <= D.
Hypothesis hp4 : pdepth %/ 4 * 4 = pdepth.
Hypothesis hB : forall k t, k < D -> t < nc -> blockB (j * D + k * nc + t) = b k (j + t).

Lemma rem_single fuel i rem s : rem <= fuel -> rem < vs -> i + rem = rows -> cut2 (2 * vs) vs true rows <= i ->
  (igebp_rem vs K alpha fuel nc i j rem D pdepth blockA D blockB D cb ldc s).1
    =1 reg ldc (cb + i) (cb + rows) j (j + nc) g s.1 /\
  ((forall q, cb + i <= q %% ldc < cb + rows -> j <= q %/ ldc < j + nc -> fine (q %% ldc) (q %/ ldc) (s.1 q)) ->
   (igebp_rem vs K alpha fuel nc i j rem D pdepth blockA D blockB D cb ldc s).2 = s.2).
Proof.
elim: fuel i rem s => [|fuel IH] i rem s hf hr he hc.
  by apply: (@tile_id ldc g fine (cb + i) (cb + rows) j (j + nc)); lia.
rewrite [igebp_rem _ _ _ _ _ _ _ _ _ _ _ _ _ _ _ _ _]/=; case: (rem =P 0) => h0.
  by apply: (@tile_id ldc g fine (cb + i) (cb + rows) j (j + nc)); lia.
rewrite ifF; last by apply/negbTE; lia.
have ht : tile (cb + i) (cb + i).+1 j (j + nc) ((if nc == 4 then igebb14 K alpha else igebb11 K alpha) i j D blockA (i * D) blockB (j * D) cb ldc).
  have [_ _ h3] := pA.
  have hA k : k < D -> blockA (i * D + k) = a (cb + i) k by move=> hk; rewrite h3 //; lia.
  case: hnc => e.
    rewrite e /=; apply: (igebb14_tile (vs := vs) (M := M) (N := N)) => //; try lia.
    by move: hB; rewrite e.
  rewrite e /= addn1; apply: (igebb11_tile (vs := vs) (M := M) (N := N)) => //; try lia.
  by move=> k hk; have := @hB k 0 hk; rewrite e muln1 !addn0 => ->.
have l1 : cb + i <= (cb + i).+1 by lia.
have l2 : (cb + i).+1 <= cb + rows by lia.
apply: (@tile_row ldc g fine (cb + i) (cb + i).+1 (cb + rows) j (j + nc) _ (fun s => igebp_rem vs K alpha fuel nc i.+1 j rem.-1 D pdepth blockA D blockB D cb ldc s) l1 l2 ht).
rewrite -addnS => s'; apply: IH; lia.
Qed.

Lemma igebp_rows_tile : tile cb (cb + rows) j (j + nc) (igebp_rows vs K alpha nc j rows D pdepth blockA D blockB D cb ldc).
Proof.
have [h1 h2 h3] := pA.
have hpr : rows %/ (2 * vs) * (2 * vs) <= rows by apply: leq_trunc_div.
have hlt : rows - rows %/ (2 * vs) * (2 * vs) < 2 * vs.
  by have := divn_eq rows (2 * vs); have := ltn_pmod rows (_ : 0 < 2 * vs); lia.
apply: (@tile_row ldc g fine cb (cb + rows %/ (2 * vs) * (2 * vs)) (cb + rows) j (j + nc)
  (iteri (rows %/ (2 * vs)) (fun ii s => igebbV vs K alpha 2 nc (ii * (2 * vs)) j D pdepth blockA (ii * (2 * vs) * D) blockB (j * D) cb ldc s))
  (igebp_rem vs K alpha (rows - rows %/ (2 * vs) * (2 * vs)) nc (rows %/ (2 * vs) * (2 * vs)) j (rows - rows %/ (2 * vs) * (2 * vs)) D pdepth blockA D blockB D cb ldc)); [exact: leq_addr|by rewrite leq_add2l| |].
  apply: tile_rows => ii hii.
  have hii' : ii.+1 * (2 * vs) <= rows %/ (2 * vs) * (2 * vs) by rewrite leq_mul2r hii orbT.
  rewrite mulSn in hii'.
  apply: (igebbV_tile (M := M) (N := N)) => //; try lia.
  move=> k v l hk hv hl.
  have hvl : v * vs + l < 2 * vs by case: v hv => [|[|v]] //; lia.
  have := h1 ii k (v * vs + l) hii hk hvl; rewrite !addnA => <-; congr (blockA _); lia.
rewrite -/(cut1 (2 * vs) rows) in hpr hlt *.
set c1 := cut1 _ _ in h2 hpr hlt *.
case: (leqP vs (rows - c1)) => hv; last first.
  move=> s; apply: rem_single => //; try lia.
  by rewrite /cut2 ifF -/c1; [lia|apply/negbTE; rewrite /=; lia].
have hc2 : cut2 (2 * vs) vs true rows = c1 + vs by rewrite /cut2 ifT.
have [fuel E] : exists fuel, rows - c1 = fuel.+1 by exists (rows - c1).-1; lia.
rewrite {1}E => s.
rewrite [igebp_rem _ _ _ _ _ _ _ _ _ _ _ _ _ _ _ _ _]/= ifF; last by apply/negbTE; lia.
have hv1 : tile (cb + c1) (cb + (c1 + vs)) j (j + nc) (igebbV vs K alpha 1 nc c1 j D pdepth blockA (c1 * D) blockB (j * D) cb ldc).
  rewrite addnA -[vs in _ + _ + vs]mul1n; apply: (igebbV_tile (M := M) (N := N)) => //; try lia.
  move=> k v l hk hv1 hl; have -> : v = 0 by lia.
  rewrite muln1 mul0n !addn0; have := h2 _ k l hk hl; rewrite addnA; apply.
  by rewrite /= -/c1.
have l1 : cb + c1 <= cb + (c1 + vs) by lia.
have l2 : cb + (c1 + vs) <= cb + rows by lia.
rewrite hv; apply: (@tile_row ldc g fine (cb + c1) (cb + (c1 + vs)) (cb + rows) j (j + nc) _ (fun s => igebp_rem vs K alpha fuel nc (c1 + vs) j (rows - c1 - vs) D pdepth blockA D blockB D cb ldc s) l1 l2 hv1).
move=> s'; apply: rem_single => //; lia.
Qed.
End Cols.

Lemma igebp_tile : tile cb (cb + rows) 0 N (igebp vs K alpha rows N D blockA D blockB D cb ldc).
Proof.
have [h1 _ h3] := pB.
have hN : N %/ 4 * 4 <= N by apply: leq_trunc_div.
have hD : D %/ 4 * 4 <= D by apply: leq_trunc_div.
apply: (@tile_col ldc g fine cb (cb + rows) 0 (N %/ 4 * 4) N
  (iteri (N %/ 4) (fun jj s => igebp_rows vs K alpha 4 (jj * 4) rows D (D %/ 4 * 4) blockA D blockB D cb ldc s))
  (iteri (N - N %/ 4 * 4) (fun jj s => igebp_rows vs K alpha 1 (N %/ 4 * 4 + jj) rows D 0 blockA D blockB D cb ldc s))) => //.
  rewrite -[N %/ 4 * 4]add0n; apply: tile_cols => jj hjj; rewrite add0n.
  apply: igebp_rows_tile => //; [by left|lia|by rewrite mulnK|].
  by move=> k t hk ht; rewrite h1.
have -> : tile cb (cb + rows) (N %/ 4 * 4) N = tile cb (cb + rows) (N %/ 4 * 4) (N %/ 4 * 4 + (N - N %/ 4 * 4) * 1) by rewrite muln1 subnKC.
apply: tile_cols => jj hjj; rewrite muln1.
apply: igebp_rows_tile => //; [by right|lia|].
move=> k t hk ht; have -> : t = 0 by lia.
by rewrite muln1 !addn0 h3 // /cut2 /= /cut1; lia.
Qed.
End Igebp.
