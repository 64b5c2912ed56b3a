From Coq Require Import ZArith Lia.
From mathcomp Require Import all_ssreflect zify.
From Verif Require Import Grid Igemm_model Igemm_spec Igemm_proofs Igemm_pack.
Set Implicit Arguments.
Unset Strict Implicit.
Unset Printing Implicit Defensive.

Lemma packed_ext k sa step P n m f f' : (forall i j, f i j = f' i j) -> packed k sa step P n m f -> packed k sa step P n m f'.
Proof. by move=> e [h1 h2 h3]; split=> *; rewrite -e; [apply: h1|apply: h2|apply: h3]. Qed.

Definition tat (ldc : nat) g fine (i0 i1 j0 j1 : nat) (s s' : st) : Prop :=
  s'.1 =1 reg ldc i0 i1 j0 j1 g s.1 /\
    ((forall q, i0 <= q %% ldc < i1 -> j0 <= q %/ ldc < j1 -> fine (q %% ldc) (q %/ ldc) (s.1 q) : Prop) -> s'.2 = s.2).

Lemma tat_row ldc g fine i0 i1 i2 j0 j1 s s1 s2 : i0 <= i1 -> i1 <= i2 ->
  tat ldc g fine i0 i1 j0 j1 s s1 -> tat ldc g fine i1 i2 j0 j1 s1 s2 -> tat ldc g fine i0 i2 j0 j1 s s2.
Proof.
move=> h1 h2 [e1 o1] [e2 o2]; split=> [q|h].
  rewrite e2 /reg e1 /reg; do !case: ifP => ?; by [|lia].
rewrite o2; first by apply: o1 => q hr ht; apply: h; lia.
move=> q hr ht; rewrite e1 /reg ifF; [apply: h; lia|apply/negbTE; lia].
Qed.

Section Main.
Variables (vs : nat) (K : kind) (alpha : Z) (tA tB : bool) (rows cols depth mc kc lda ldb ldc : nat) (A B : mem).
Let a := cment tA A lda.
Let b := cment tB B ldb.
Hypothesis vs0 : 0 < vs.
Hypothesis mc0 : 0 < mc.
Hypothesis kc0 : 0 < kc.
Hypothesis depth0 : 0 < depth.
Hypothesis hldc : rows <= ldc.
Hypothesis ha : forall i k, i < rows -> k < depth -> fits 32 (a i k).
Hypothesis hb : forall k j, k < depth -> j < cols -> fits 32 (b k j).
Hypothesis hK : match K with
  | One => alpha = 1%Z
  | Mone => alpha = (-1)%Z
  | Other => [/\ fits 32 alpha, forall i k, i < rows -> k < depth -> fits 32 (alpha * a i k)
      & forall i j k0 d, i < rows -> j < cols -> k0 + d <= depth -> d <= kc -> fits 32 (dot a b k0 d i j)]
  end.

Let gp (k0 d r t : nat) (c : Z) : Z := w64 (c + alpha * dot a b k0 d r t).
Let finep (k0 d r t : nat) (c : Z) : Prop := fits 64 c /\ forall k, k < d ->
  fits 64 (alpha * a r (k0 + k) * b (k0 + k) t) /\ fits 64 (c + alpha * dot a b k0 k.+1 r t)%Z.

Lemma panel_tat k2 d blockB (mA : mem) s :
  0 < d -> d <= kc -> k2 + d <= depth ->
  packed 4 vs false blockB cols d (fun t k => b (k2 + k) t) ->
  tat ldc (gp k2 d) (finep k2 d) 0 rows 0 cols s
   (iteri (cdiv rows mc) (fun u (r : st * mem) =>
        let i2 := u * mc in
        let amc := minn (i2 + mc) rows - i2 in
        let mA := if tA then pack_rhs vs (2 * vs) true r.2 A (i2 * lda + k2) lda d amc else pack_lhs vs (2 * vs) false r.2 A (i2 + k2 * lda) lda amc d in
        (igebp vs K alpha amc cols d mA d blockB d i2 ldc r.1, mA)) (s, mA)).1.
Proof.
move=> d0 dk hd pB; set F := fun u r => _.
suff H n : n <= cdiv rows mc -> tat ldc (gp k2 d) (finep k2 d) 0 (minn (n * mc) rows) 0 cols s (iteri n F (s, mA)).1.
  have := H _ (leqnn _); rewrite (_ : minn _ _ = rows) //; apply/minn_idPr.
  rewrite /cdiv; have := divn_eq (rows + mc - 1) mc; have := ltn_pmod (rows + mc - 1) mc0; lia.
elim: n => [|n IH] hn; first by split=> // q; rewrite /reg ifF //; apply/negbTE; lia.
have hnr : n * mc < rows.
  have : n.+1 * mc <= rows + mc - 1 by apply: leq_trans (leq_trunc_div _ mc); rewrite leq_mul2r hn orbT.
  by rewrite mulSn; lia.
rewrite [iteri _ _ _]/= /F; cbv zeta; move: (IH (ltnW hn)); case: (iteri n F _) => s1 mA1 hs1 /=.
set mA2 := if tA then _ else _.
have h0 : minn (n * mc) rows = n * mc by apply/minn_idPl; lia.
apply: tat_row hs1 _; [lia|rewrite mulSn; lia|rewrite h0].
have he : minn (n.+1 * mc) rows = n * mc + (minn (n * mc + mc) rows - n * mc) by rewrite mulSn; lia.
rewrite he.
apply: (igebp_tile (M := rows) (a := fun r k => a r (k2 + k)) (b := fun k t => b (k2 + k) t)) => //.
- lia.
- by move=> r k hr hk; apply: ha => //; lia.
- by move=> k t hk ht; apply: hb => //; lia.
- move: hK; case: (K) => // -[k1 k3 k4]; split=> // [r k hr hk|r t hr ht]; first by apply: k3 => //; lia.
  exact: k4.
rewrite /mA2 /a /cment; case: (tA).
  by apply: packed_ext (pack_rhsP _ _ _ _ _ _ _ _ _) => i j; congr (A _); lia.
by apply: packed_ext (pack_lhsP _ _ _ _ _ _ _ _ _) => i j; congr (A _); lia.
Qed.

Let F t (r : st * (mem * mem)) :=
      let k2 := t * kc in
      let akc := minn (k2 + kc) depth - k2 in
      let: (s, (mA, mB)) := r in
      let mB := if tB then pack_lhs vs 4 true mB B (k2 * ldb) ldb cols akc else pack_rhs vs 4 false mB B k2 ldb akc cols in
      let: (s, mA) := iteri (cdiv rows mc) (fun u (r : st * mem) =>
        let i2 := u * mc in
        let amc := minn (i2 + mc) rows - i2 in
        let mA := if tA then pack_rhs vs (2 * vs) true r.2 A (i2 * lda + k2) lda akc amc else pack_lhs vs (2 * vs) false r.2 A (i2 + k2 * lda) lda amc akc in
        (igebp vs K alpha amc cols akc mA akc mB akc i2 ldc r.1, mA)) (s, mA) in
      (s, (mA, mB)).

Lemma F_tat t r : t * kc < depth ->
  tat ldc (gp (t * kc) (minn (t * kc + kc) depth - t * kc)) (finep (t * kc) (minn (t * kc + kc) depth - t * kc)) 0 rows 0 cols r.1 (F t r).1.
Proof.
move=> ht; rewrite /F; cbv zeta; case: r => s1 [mA mB] /=.
set mB' := if tB then _ else _.
have pB : packed 4 vs false mB' cols (minn (t * kc + kc) depth - t * kc) (fun j k => b (t * kc + k) j).
  rewrite /mB' /b /cment; case: (tB).
    by apply: packed_ext (pack_lhsP _ _ _ _ _ _ _ _ _) => i j; congr (B _); lia.
  by apply: packed_ext (pack_rhsP _ _ _ _ _ _ _ _ _) => i j; congr (B _); lia.
have := @panel_tat (t * kc) (minn (t * kc + kc) depth - t * kc) mB' mA s1 _ _ _ pB.
case: (iteri _ _ _) => s2 mA2 /=; apply; lia.
Qed.

Lemma kloop n s m : 0 < n <= cdiv depth kc ->
  (forall q, (iteri n F (s, m)).1.1 q = if (q %% ldc < rows) && (q %/ ldc < cols) then w64 (s.1 q + alpha * dot a b 0 (minn (n * kc) depth) (q %% ldc) (q %/ ldc)) else s.1 q)
  /\ ((forall q, q %% ldc < rows -> q %/ ldc < cols -> finep 0 depth (q %% ldc) (q %/ ldc) (s.1 q)) -> (iteri n F (s, m)).1.2 = s.2).
Proof.
elim: n => // n IH hn.
have hnr : n * kc < depth.
  have : n.+1 * kc <= depth + kc - 1 by apply: leq_trans (leq_trunc_div _ kc); rewrite leq_mul2r; apply/orP; right; case/andP: hn.
  by rewrite mulSn; lia.
have := @F_tat n (iteri n F (s, m)) hnr.
rewrite -[iteri n.+1 F _]/(F n (iteri n F (s, m))).
set d := minn (n * kc + kc) depth - n * kc.
have hd : minn (n.+1 * kc) depth = n * kc + d by rewrite /d mulSn; lia.
have dotD r t : dot a b 0 (n * kc + d) r t = (dot a b 0 (n * kc) r t + dot a b (n * kc) d r t)%Z by rewrite /dot zsumD.
have hdd : n * kc + d <= depth by rewrite -hd; apply: geq_minr.
rewrite hd => -[]; move: d {hd} dotD hdd.
case: n IH hn hnr => [|n] IH hn hnr d dotD hdd e1 e2.
  split=> [q|h]; first exact: e1.
  rewrite e2 //= => q h1 h2; have [h3 h4] := h q h1 h2; split=> // k hk; apply: h4; lia.
have hn' : 0 < n.+1 <= cdiv depth kc by case/andP: hn => _ /ltnW.
have [i1 i2] := IH hn'.
have hm : minn (n.+1 * kc) depth = n.+1 * kc by apply/minn_idPl; lia.
rewrite hm in i1 i2.
split=> [q|h].
  rewrite e1 /reg i1 !leq0n /=; case: (_ && _) => //.
  by rewrite /gp w64D dotD; congr w64; lia.
have hpos : 0 < n.+1 * kc by rewrite muln_gt0.
rewrite e2 ?i2 // => q h1 h2; have [h3 h4] := h q h1 h2.
have hc : (iteri n.+1 F (s, m)).1.1 q = (s.1 q + alpha * dot a b 0 (n.+1 * kc) (q %% ldc) (q %/ ldc))%Z.
  rewrite i1 ifT; last by apply/andP; split; lia.
  have hp : (n.+1 * kc).-1 < depth by lia.
  have [_ ] := h4 _ hp.
  by rewrite (prednK hpos) => /w64_id.
rewrite hc; split.
  have hp : (n.+1 * kc).-1 < depth by lia.
  have [_ ] := h4 _ hp.
  by rewrite (prednK hpos).
move=> k hk; have hk' : n.+1 * kc + k < depth by lia.
have [f1 f2] := h4 _ hk'; split; first by rewrite add0n in f1.
have e r t : dot a b 0 (n.+1 * kc + k.+1) r t = (dot a b 0 (n.+1 * kc) r t + dot a b (n.+1 * kc) k.+1 r t)%Z by rewrite /dot zsumD.
by move: f2; rewrite -addnS e; congr fits; lia.
Qed.

Lemma igemm_colmajor_mem bf mA0 mB0 s : bf rows depth = Some (mc, kc) ->
  exists s', [/\ igemm_colmajor vs bf tA tB K rows cols depth alpha A lda B ldb mA0 mB0 ldc s = Some s',
   forall q, s'.1 q = if (q %% ldc < rows) && (q %/ ldc < cols) then w64 (s.1 q + alpha * dot a b 0 depth (q %% ldc) (q %/ ldc)) else s.1 q
   & (forall q, q %% ldc < rows -> q %/ ldc < cols -> finep 0 depth (q %% ldc) (q %/ ldc) (s.1 q)) -> s'.2 = s.2].
Proof.
move=> hbf; exists (iteri (cdiv depth kc) F (s, (mA0, mB0))).1.
have hc : minn (cdiv depth kc * kc) depth = depth.
  apply/minn_idPr; rewrite /cdiv; have := divn_eq (depth + kc - 1) kc; have := ltn_pmod (depth + kc - 1) kc0; lia.
have h0 : 0 < cdiv depth kc by rewrite /cdiv divn_gt0 //; lia.
have hk : 0 < cdiv depth kc <= cdiv depth kc by rewrite h0 /=.
have [] := @kloop (cdiv depth kc) s (mA0, mB0) hk.
rewrite hc => e1 e2; split=> //.
by rewrite /igemm_colmajor hbf ifF //; apply/negbTE; lia.
Qed.
End Main.
