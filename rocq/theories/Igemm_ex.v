From Coq Require Import ZArith Lia.
From mathcomp Require Import all_ssreflect zify.
From Verif Require Import Grid Igemm_model Igemm_spec Igemm_proofs Igemm_pack Igemm_main.
Set Implicit Arguments.
Unset Strict Implicit.
Unset Printing Implicit Defensive.

Lemma adot_ge0 a b d i j : (0 <= adot a b d i j)%Z.
Proof. by rewrite /adot; elim: d => //= d IH; lia. Qed.

Arguments adot_ge0 : clear implicits.

Lemma adot_le a b d d' i j : d <= d' -> (adot a b d i j <= adot a b d' i j)%Z.
Proof.
move=> h; rewrite -(subnKC h) /adot zsumD.
have := adot_ge0 (fun i k => a i (d + k)) (fun k j => b (d + k) j) (d' - d) i j; rewrite /adot; lia.
Qed.

Arguments adot_le a b {d d'} i j.

Lemma dot_adot a b k0 d i j : (Z.abs (dot a b k0 d i j) <= adot a b (k0 + d) i j)%Z.
Proof.
elim: d => [|d IH]; first by rewrite addn0; have := adot_ge0 a b k0 i j; rewrite /dot /=; lia.
by move: IH; rewrite addnS /adot /dot /=; lia.
Qed.

Arguments dot_adot : clear implicits.

Lemma term_adot a b d k i j : k < d -> (Z.abs (a i k) * Z.abs (b k j) <= adot a b d i j)%Z.
Proof. by move=> h; have := adot_le a b i j h; have := adot_ge0 a b k i j; rewrite /adot /=; lia. Qed.

Arguments term_adot a b {d k} i j.

Definition alpha_ok (alpha : Z) (a b : nat -> nat -> Z) (m n d : nat) : Prop :=
  (alpha = 0 \/ alpha = 1 \/ alpha = -1)%Z \/
  [/\ fits 32 alpha, forall i k, i < m -> k < d -> fits 32 (alpha * a i k)
    & forall i j, i < m -> j < n -> (adot a b d i j < 2 ^ 31)%Z].

Lemma igemmP vs bf tA tB rows cols depth alpha A lda B ldb beta mA0 mB0 ldc s mc kc :
  let a := cment tA A lda in let b := cment tB B ldb in
  0 < vs -> bf rows depth = Some (mc, kc) -> 0 < mc -> 0 < kc -> rows <= ldc ->
  (forall i k, i < rows -> k < depth -> fits 32 (a i k)) ->
  (forall k j, k < depth -> j < cols -> fits 32 (b k j)) ->
  alpha_ok alpha a b rows cols depth ->
  exists s', [/\ igemm vs bf tA tB rows cols depth alpha A lda B ldb beta mA0 mB0 ldc s = Some s',
   forall q, s'.1 q = if (q %% ldc < rows) && (q %/ ldc < cols) then w64 (beta * s.1 q + alpha * dot a b 0 depth (q %% ldc) (q %/ ldc)) else s.1 q
   & (forall q, q %% ldc < rows -> q %/ ldc < cols ->
        (Z.abs (beta * s.1 q) + Z.abs alpha * adot a b depth (q %% ldc) (q %/ ldc) < 2 ^ 63)%Z) -> s'.2 = s.2].
Proof.
move=> a b vs0 hbf mc0 kc0 hl ha hb hal; rewrite /igemm.
case: (posnP rows) => [r0|r0]; first by exists s; rewrite r0 /=; split=> // q; rewrite ltn0.
case: (posnP cols) => [c0|c0]; first by exists s; rewrite c0 orbT; split=> // q; rewrite ltn0 andbF.
cbv beta iota delta [orb]; set s1 := iscal _ _ _ _ _.
have ldc0 : 0 < ldc by lia.
have h1 q : s1.1 q = if (q %% ldc < rows) && (q %/ ldc < cols) then w64 (beta * s.1 q) else s.1 q by [].
have h2 : (forall q, q %% ldc < rows -> q %/ ldc < cols ->
        (Z.abs (beta * s.1 q) + Z.abs alpha * adot a b depth (q %% ldc) (q %/ ldc) < 2 ^ 63)%Z) -> s1.2 = s.2.
  move=> h; rewrite /s1 /iscal /=; rewrite (_ : all _ _ = true) ?andbT //.
  apply/allP => j; rewrite mem_iota /= add0n => hj; apply/allP => i; rewrite mem_iota /= add0n => hi.
  have hi' : i < ldc by lia.
  have := h (j * ldc + i); rewrite modnMDl modn_small // divnMDl // divn_small // addn0 => /(_ hi hj) hh.
  by apply: in64P; move: hh (adot_ge0 a b depth i j); rewrite /fits /=; nia.
case: (posnP depth) => [d0|d0].
  exists s1; split=> // q; rewrite h1 d0 /dot [zsum 0 _]/=; case: ifP => // _; congr w64; lia.
case: (Z.eqb_spec alpha 0) => [a0|a0].
  exists s1; split=> // q; rewrite h1 a0; case: ifP => // _; congr w64; lia.
cbv beta iota delta [orb]; set K := if Z.eqb alpha 1 then _ else _.
have hK : match K return Prop with
  | One => alpha = 1%Z
  | Mone => alpha = (-1)%Z
  | Other => [/\ fits 32 alpha, forall i k, i < rows -> k < depth -> fits 32 (alpha * a i k)
      & forall i j k0 d, i < rows -> j < cols -> k0 + d <= depth -> d <= kc -> fits 32 (dot a b k0 d i j)]
  end.
  rewrite /K; case: (Z.eqb_spec alpha 1) => // n1; case: (Z.eqb_spec alpha (-1)) => // n2.
  case: hal => [|[k1 k2 k3]]; first lia.
  split=> // i j k0 d hi hj hd _; have := k3 i j hi hj.
  by have := dot_adot a b k0 d i j; have := adot_le a b i j hd; rewrite /fits /=; lia.
clearbody K.
have H := igemm_colmajor_mem (K := K) (alpha := alpha) vs0 mc0 kc0 d0 hl ha hb _ mA0 mB0 s1 hbf.
have [s' [e1 e2 e3]] := H hK => {H}.
exists s'; split=> // [q|h].
  rewrite e2 h1; case: (_ && _) => //.
  by rewrite w64D.
rewrite -h2 //; apply: e3 => q hr ht.
have := h q hr ht; rewrite h1 hr ht /=.
set r := q %% ldc; set t := q %/ ldc => hq.
have hw : fits 64 (beta * s.1 q) by have := adot_ge0 a b depth r t; move: hq; rewrite /fits /=; nia.
rewrite (w64_id hw); split=> // k hk.
have := term_adot a b r t hk; have := dot_adot a b 0 k.+1 r t; have := adot_le a b r t hk.
rewrite !add0n => x1 x2 x3.
have x4 : (Z.abs alpha * (Z.abs (a r k) * Z.abs (b k t)) <= Z.abs alpha * adot a b depth r t)%Z by apply: Z.mul_le_mono_nonneg_l; lia.
have x5 : (Z.abs alpha * Z.abs (dot a b 0 k.+1 r t) <= Z.abs alpha * adot a b depth r t)%Z by apply: Z.mul_le_mono_nonneg_l; lia.
rewrite -/a -/b; split; rewrite /fits [(64 - 1)%Z]/=.
  have : (Z.abs (alpha * a r k * b k t) = Z.abs alpha * (Z.abs (a r k) * Z.abs (b k t)))%Z by rewrite !Z.abs_mul; lia.
  have := Z.abs_nonneg (beta * s.1 q); rewrite -/(a r k) -/(b k t); lia.
have := Z.abs_mul alpha (dot a b 0 k.+1 r t); lia.
Qed.

(** ** By rows *)
Lemma rment_cment tr X ld i j : rment tr X ld i j = cment tr X ld j i.
Proof. by rewrite /rment /cment; case: tr; congr (X _); lia. Qed.

Lemma dot_swap tA tB A B lda ldb d i j :
  dot (cment tB B ldb) (cment tA A lda) 0 d j i = dot (rment tA A lda) (rment tB B ldb) 0 d i j.
Proof. by rewrite /dot; apply: eq_zsum => k _; rewrite !rment_cment Z.mul_comm. Qed.

Lemma adot_swap tA tB A B lda ldb d i j :
  adot (cment tB B ldb) (cment tA A lda) d j i = adot (rment tA A lda) (rment tB B ldb) d i j.
Proof. by rewrite /adot; apply: eq_zsum => k _; rewrite !rment_cment Z.mul_comm. Qed.

Definition alpha_okr (alpha : Z) (a b : nat -> nat -> Z) (m n d : nat) : Prop :=
  (alpha = 0 \/ alpha = 1 \/ alpha = -1)%Z \/
  [/\ fits 32 alpha, forall k j, k < d -> j < n -> fits 32 (alpha * b k j)
    & forall i j, i < m -> j < n -> (adot a b d i j < 2 ^ 31)%Z].

Lemma igemm_rowP vs bf tA tB M N K alpha A lda B ldb beta mA0 mB0 ldc C ok mc kc :
  let a := rment tA A lda in let b := rment tB B ldb in
  0 < vs -> bf N K = Some (mc, kc) -> 0 < mc -> 0 < kc -> N <= ldc ->
  (forall i k, i < M -> k < K -> fits 32 (a i k)) ->
  (forall k j, k < K -> j < N -> fits 32 (b k j)) ->
  alpha_okr alpha a b M N K ->
  exists s', [/\ igemm_row vs bf tA tB M N K alpha A lda B ldb beta mA0 mB0 ldc (C, ok) = Some s',
   forall i j, i < M -> j < N -> s'.1 (i * ldc + j) = w64 (beta * C (i * ldc + j)%N + alpha * dot a b 0 K i j),
   only_window M N ldc C s'.1
   & (forall i j, i < M -> j < N -> (Z.abs (beta * C (i * ldc + j)%N) + Z.abs alpha * adot a b K i j < 2 ^ 63)%Z) -> s'.2 = ok].
Proof.
move=> a b vs0 hbf mc0 kc0 hl ha hb hal.
have h1 i k : i < N -> k < K -> fits 32 (cment tB B ldb i k) by move=> hi hk; rewrite -rment_cment; apply: hb.
have h2 k j : k < K -> j < M -> fits 32 (cment tA A lda k j) by move=> hi hk; rewrite -rment_cment; apply: ha.
have h3 : alpha_ok alpha (cment tB B ldb) (cment tA A lda) N M K.
  case: hal => [|[k1 k2 k3]]; [by left|right]; split=> // [i k hi hk|i j hi hj]; first by rewrite -rment_cment; apply: k2.
  by rewrite adot_swap; apply: k3.
have [s' [e1 e2 e3]] := igemmP beta mA0 mB0 (C, ok) vs0 hbf mc0 kc0 hl h1 h2 h3.
exists s'; split=> //.
- move=> i j hi hj; have hj' : j < ldc by lia.
  have l0 : 0 < ldc by lia.
  by rewrite e2 modnMDl modn_small // divnMDl // divn_small // addn0 hi hj /= dot_swap.
- move=> q hq; rewrite e2 ifF //; apply/negbTE/negP => /andP[hj hi].
  exact: (hq _ _ hi hj (divn_eq _ _)).
move=> h; apply: e3 => q hj hi /=.
by rewrite adot_swap; have := h _ _ hi hj; rewrite -divn_eq.
Qed.

Lemma igemm_row_exact_l vs bf tA tB M N K alpha A lda B ldb beta mA0 mB0 ldc C mc kc :
  let a := rment tA A lda in let b := rment tB B ldb in
  0 < vs -> bf N K = Some (mc, kc) -> 0 < mc -> 0 < kc -> N <= ldc ->
  (forall i k, i < M -> k < K -> fits 32 (a i k)) ->
  (forall k j, k < K -> j < N -> fits 32 (b k j)) ->
  alpha_okr alpha a b M N K ->
  (forall i j, i < M -> j < N -> (Z.abs (beta * C (i * ldc + j)%N) + Z.abs alpha * adot a b K i j < 2 ^ 63)%Z) ->
  exists C', [/\ igemm_row vs bf tA tB M N K alpha A lda B ldb beta mA0 mB0 ldc (C, true) = Some (C', true),
   forall i j, i < M -> j < N -> C' (i * ldc + j) = (beta * C (i * ldc + j)%N + alpha * dot a b 0 K i j)%Z
   & only_window M N ldc C C'].
Proof.
move=> a b vs0 hbf mc0 kc0 hl ha hb hal hbd.
have [[C' ok'] [e1 e2 e3 e4]] := igemm_rowP beta mA0 mB0 C true vs0 hbf mc0 kc0 hl ha hb hal.
exists C'; split=> //; first by rewrite e1 -(e4 hbd).
move=> i j hi hj; rewrite -[C']/((C', ok').1) e2 // w64_id //.
have := hbd i j hi hj; have := dot_adot a b 0 K i j; rewrite add0n => x1 x2.
have x5 : (Z.abs alpha * Z.abs (dot a b 0 K i j) <= Z.abs alpha * adot a b K i j)%Z by apply: Z.mul_le_mono_nonneg_l; lia.
rewrite -/a -/b; have := Z.abs_mul alpha (dot a b 0 K i j); rewrite /fits [(64 - 1)%Z]/=; lia.
Qed.

Lemma igemm_mod64_l vs bf tA tB M N K alpha A lda B ldb beta mA0 mB0 ldc C ok mc kc :
  let a := rment tA A lda in let b := rment tB B ldb in
  0 < vs -> bf N K = Some (mc, kc) -> 0 < mc -> 0 < kc -> N <= ldc ->
  (forall i k, i < M -> k < K -> fits 32 (a i k)) ->
  (forall k j, k < K -> j < N -> fits 32 (b k j)) ->
  (alpha = 0 \/ alpha = 1 \/ alpha = -1)%Z ->
  exists s', [/\ igemm_row vs bf tA tB M N K alpha A lda B ldb beta mA0 mB0 ldc (C, ok) = Some s',
   forall i j, i < M -> j < N -> (exists z, s'.1 (i * ldc + j)%N = beta * C (i * ldc + j)%N + alpha * dot a b 0 K i j + z * 2 ^ 64)%Z
   & only_window M N ldc C s'.1].
Proof.
move=> a b vs0 hbf mc0 kc0 hl ha hb hal.
have [s' [e1 e2 e3 _]] := igemm_rowP beta mA0 mB0 C ok vs0 hbf mc0 kc0 hl ha hb (or_introl hal).
exists s'; split=> // i j hi hj; rewrite e2 //; exact: w64_ex.
Qed.

(** ** fgemv *)
Lemma fgemv_int64_exact_l vs bf ta M N alpha A lda X incX beta mA0 mB0 incY Y mc kc :
  let m := if ta then N else M in let n := if ta then M else N in
  let a := rment ta A lda in let x k (_ : nat) := X (k * incX)%N in
  0 < vs -> bf 1 n = Some (mc, kc) -> 0 < mc -> 0 < kc -> 0 < incY ->
  (forall i k, i < m -> k < n -> fits 32 (a i k)) ->
  (forall k, k < n -> fits 32 (X (k * incX))) ->
  alpha_okr alpha a x m 1 n ->
  (forall i, i < m -> (Z.abs (beta * Y (i * incY)%N) + Z.abs alpha * adot a x n i 0 < 2 ^ 63)%Z) ->
  exists Y', [/\ fgemv_int64 vs bf ta M N alpha A lda X incX beta mA0 mB0 incY (Y, true) = Some (Y', true),
   forall i, i < m -> Y' (i * incY) = (beta * Y (i * incY)%N + alpha * dot a x 0 n i 0)%Z
   & forall q, (forall i, i < m -> q <> i * incY) -> Y' q = Y q].
Proof.
move=> m n a x vs0 hbf mc0 kc0 hl ha hb hal hbd.
have ex k : rment false X incX k 0 = X (k * incX) by rewrite /rment addn0.
have ed d i : dot a (rment false X incX) 0 d i 0 = dot a x 0 d i 0 by apply: eq_zsum => k _; rewrite ex.
have ea d i : adot a (rment false X incX) d i 0 = adot a x d i 0 by apply: eq_zsum => k _; rewrite ex.
have hb' : forall k j, k < n -> j < 1 -> fits 32 (rment false X incX k j) by move=> k [|j] // hk _; rewrite ex; apply: hb.
have hal' : alpha_okr alpha a (rment false X incX) m 1 n.
  case: hal => [|[k1 k2 k3]]; [by left|right]; split=> // [k [|j] // hk _|i [|j] // hi _]; first by rewrite ex; apply: (k2 k 0).
  by rewrite ea; apply: k3.
have hbd' : forall i j, i < m -> j < 1 -> (Z.abs (beta * Y (i * incY + j)%N) + Z.abs alpha * adot a (rment false X incX) n i j < 2 ^ 63)%Z.
  by move=> i [|j] // hi _; rewrite addn0 ea; apply: hbd.
have [Y' [e1 e2 e3]] := igemm_row_exact_l mA0 mB0 vs0 hbf mc0 kc0 hl ha hb' hal' hbd'.
exists Y'; split.
- by rewrite /fgemv_int64 -e1 /m /n; case: (ta).
- by move=> i hi; have := e2 i 0 hi isT; rewrite !addn0 ed.
by move=> q hq; apply: e3 => i [|j] // hi _; rewrite addn0; apply: hq.
Qed.

(** ** The scalar product *)
Lemma rowloop ldc n i (h : nat -> Z -> Z) C : n <= ldc ->
  iteri n (fun j C => upd1 C (i * ldc + j) (h j (C (i * ldc + j)))) C =1 reg ldc 0 n i i.+1 (fun j _ c => h j c) C.
Proof.
elim: n => [|n IH] hn q; first by rewrite /reg ltn0 andbF.
rewrite [iteri _ _ _]/= (@upd1_reg _ _ _ (fun j _ c => h j c)) //.
by rewrite /reg (IH (ltnW hn)) /reg; do !case: ifP => ?; by [|lia].
Qed.

Lemma fgemm_int64_scalar_l ta tb m n k alpha A lda B ldb beta ldc C :
  let a := rment ta A lda in let b := rment tb B ldb in n <= ldc ->
  (forall i j, i < m -> j < n ->
    fgemm_int64_scalar ta tb m n k alpha A lda B ldb beta ldc C (i * ldc + j) = (beta * C (i * ldc + j)%N + alpha * dot a b 0 k i j)%Z)
  /\ only_window m n ldc C (fgemm_int64_scalar ta tb m n k alpha A lda B ldb beta ldc C).
Proof.
move=> a b hn.
have row i C0 : (let C := iteri n (fun j C => upd1 C (i * ldc + j) (C (i * ldc + j)%N * beta)%Z) C0 in
    iteri k (fun l C =>
      let a := (alpha * (if ta then A (i + l * lda)%N else A (i * lda + l)%N))%Z in
      iteri n (fun j C => upd1 C (i * ldc + j) (C (i * ldc + j)%N + a * (if tb then B (l + j * ldb)%N else B (l * ldb + j)%N))%Z) C) C)
  =1 reg ldc 0 n i i.+1 (fun j _ c => c * beta + alpha * dot a b 0 k i j)%Z C0.
  cbv zeta; elim: k => [|l IH] q.
    rewrite [iteri 0 _ _]/= (rowloop i (fun j c => c * beta)%Z C0 hn) /reg /dot /=.
    by case: ifP => // _; lia.
  rewrite [iteri l.+1 _ _]/= (rowloop i (fun j c => (c + alpha * (if ta then A (i + l * lda)%N else A (i * lda + l)%N) * (if tb then B (l + j * ldb)%N else B (l * ldb + j)%N))%Z) _ hn).
  rewrite /reg IH /reg; case: (_ && _) => //.
  have -> : dot a b 0 l.+1 i (q %% ldc) = (dot a b 0 l i (q %% ldc) + a i l * b l (q %% ldc))%Z by [].
  by rewrite [a i l]/rment [b l _]/rment; lia.
have all_ : fgemm_int64_scalar ta tb m n k alpha A lda B ldb beta ldc C =1 reg ldc 0 n 0 m (fun j i c => c * beta + alpha * dot a b 0 k i j)%Z C.
  rewrite /fgemm_int64_scalar; set F := fun i C => _; elim: m => [|m IH] q; first by rewrite /reg !ltn0 !andbF.
  transitivity (reg ldc 0 n m m.+1 (fun j _ c => c * beta + alpha * dot a b 0 k m j)%Z (iteri m F C) q); first exact: row.
  rewrite /reg IH /reg; do !case: ifP => ?; try lia; try by [].
  by have -> : q %/ ldc = m by lia.
split=> [i j hi hj|q hq].
  have hj' : j < ldc by lia.
  have l0 : 0 < ldc by lia.
  by rewrite all_ /reg modnMDl modn_small // divnMDl // divn_small // addn0 hi hj /=; lia.
rewrite all_ /reg ifF //; apply/negbTE/negP => /andP[/andP[_ hj] /andP[_ hi]].
exact: (hq _ _ hi hj (divn_eq _ _)).
Qed.

(** ** Cache sizes *)
Lemma BlockingFactor_pos_l vs l1 l2 l3 tlb m k : 0 < m -> 0 < k ->
  (2 * (4 + 2 * Z.of_nat vs) * 8 <= l1 < 2 ^ 31)%Z -> (l1 <= Z.max l2 l3 < 2 ^ 31)%Z -> (tlb = 0 \/ l1 <= tlb)%Z ->
  exists mc kc, [/\ BlockingFactor vs l1 l2 l3 tlb m k = Some (mc, kc), 0 < mc <= m & 0 < kc <= k].
Proof.
move=> m0 k0 h1 h2 h3; rewrite /BlockingFactor.
set kd := (2 * _ * 8)%Z in h1 *.
set L := if Z.eqb tlb 0 then _ else _.
have hL : (l1 <= L < 2 ^ 31)%Z by rewrite /L; case: (Z.eqb_spec tlb 0) => e; lia.
have kd8 : (8 <= kd)%Z by rewrite /kd; lia.
rewrite /u64 !Z.mod_small; try lia.
have q1 : (1 <= l1 / kd)%Z by apply: Z.div_le_lower_bound; lia.
set kc := Z.to_nat _.
have hkc : (0 < kc <= k)%nat by rewrite /kc; lia.
rewrite ifF; last by apply/negbTE; lia.
exists (Z.to_nat (Z.min (Z.of_nat m) (L / (8 * Z.of_nat kc)))), kc; split=> //.
have hk2 : (Z.of_nat kc <= l1 / kd)%Z by rewrite /kc; lia.
have hk3 : (kd * (l1 / kd) <= l1)%Z by apply: Z.mul_div_le; lia.
have hk4 : (8 * Z.of_nat kc <= L)%Z by nia.
have q2 : (1 <= L / (8 * Z.of_nat kc))%Z by apply: Z.div_le_lower_bound; lia.
lia.
Qed.

(** ** Examples and witnesses *)
Definition cells (s : option st) (n : nat) : option (seq Z * bool) := omap (fun s : st => ([seq s.1 q | q <- iota 0 n], s.2)) s.
Definition exA : mem := fun q => (Z.of_nat (7 * q %% 11) - 5)%Z.
Definition exB : mem := fun q => (Z.of_nat (5 * q %% 13) - 6)%Z.
Definition exC : mem := fun q => Z.of_nat q.
Definition exbf (mc kc : nat) : nat -> nat -> option (nat * nat) := fun _ _ => Some (mc, kc).
Definition ref (tA tB : bool) M N K alpha (A : mem) lda (B : mem) ldb beta ldc (C : mem) (n : nat) : seq Z :=
  [seq if (q %% ldc < N) && (q %/ ldc < M) then (beta * C q + alpha * dot (rment tA A lda) (rment tB B ldb) 0 K (q %/ ldc) (q %% ldc))%Z else C q | q <- iota 0 n].

Example igemm_row_ex : cells (igemm_row 2 (exbf 6 5) false true 5 7 6 (-1) exA 6 exB 7 3 (fun=> 0%Z) (fun=> 0%Z) 8 (exC, true)) 40
  = Some (ref false true 5 7 6 (-1) exA 6 exB 7 3 8 exC 40, true).
Proof. by vm_compute. Qed.

Example igemm_row_alpha_ex : cells (igemm_row 2 (exbf 6 5) true false 5 7 6 5 exA 6 exB 7 3 (fun=> 0%Z) (fun=> 0%Z) 8 (exC, true)) 40
  = Some (ref true false 5 7 6 5 exA 6 exB 7 3 8 exC 40, true).
Proof. by vm_compute. Qed.

Example fgemv_int64_ex : cells (fgemv_int64 2 (exbf 1 2) true 3 2 1 exA 3 exB 2 2 (fun=> 0%Z) (fun=> 0%Z) 2 (exC, true)) 6
  = Some ([:: 54; 1; -4; 3; 4; 5]%Z, true).
Proof. by vm_compute. Qed.

Lemma igemm_alpha_refuted_l : exists vs bf M N K alpha (a b : Z) mc kc s',
  [/\ 0 < vs /\ bf N K = Some (mc, kc), 0 < mc /\ 0 < kc, fits 32 a /\ fits 32 b,
      igemm_row vs bf false false M N K alpha (fun=> a) K (fun=> b) N 0 (fun=> 0%Z) (fun=> 0%Z) N (fun=> 0%Z, true) = Some s'
    & fits 64 (alpha * (a * b)) /\ s'.1 0 <> (alpha * (Z.of_nat K * (a * b)))%Z].
Proof.
exists 4, (exbf 4 1), 1, 4, 1, 2%Z, 65536%Z, 65536%Z, 4, 1; eexists; split; [by []|by []| |reflexivity|].
  by rewrite /fits; vm_compute.
by rewrite /fits; vm_compute.
Qed.

Lemma igemm_range_refuted_l : exists vs bf M N K (a b : Z) mc kc s',
  [/\ 0 < vs /\ bf N K = Some (mc, kc), 0 < mc /\ 0 < kc, fits 64 a /\ fits 64 b,
      igemm_row vs bf false false M N K 1 (fun=> a) K (fun=> b) N 0 (fun=> 0%Z) (fun=> 0%Z) N (fun=> 0%Z, true) = Some s'
    & fits 64 (Z.of_nat K * (a * b)) /\ s'.1 0 <> (Z.of_nat K * (a * b))%Z].
Proof.
exists 4, (exbf 4 1), 1, 4, 1, (2 ^ 32)%Z, 1%Z, 4, 1; eexists; split; [by []|by []| |reflexivity|].
  by rewrite /fits; vm_compute.
by rewrite /fits; vm_compute.
Qed.

Lemma BlockingFactor_refuted_l : exists vs l1 l2 l3 m k, [/\ 0 < m, 0 < k & BlockingFactor vs l1 l2 l3 0 m k = None].
Proof. by exists 4, 0%Z, 0%Z, 0%Z, 4, 4. Qed.

Lemma fgemv_int64_scalar_refuted_l : exists M N alpha A X beta Y, 
  fgemv_int64_scalar false M N alpha A N X 1 beta 1 Y 0 <> (beta * Y 0%N + alpha * dot (rment false A N) (fun k _ => X k) 0 N 0 0)%Z.
Proof. by exists 1, 1, 1%Z, (fun=> 0%Z), (fun=> 0%Z), 1%Z, (fun=> 2%Z). Qed.

Example BlockingFactor_ex : BlockingFactor 4 32768 262144 8388608 0 1000 1000 = Some (1000, 170).
Proof. by vm_compute. Qed.

Example fgemm_int64_scalar_ex :
  [seq fgemm_int64_scalar true false 2 3 2 5 exA 2 exB 3 (-2) 4 exC q | q <- iota 0 8] = ref true false 2 3 2 5 exA 2 exB 3 (-2) 4 exC 8.
Proof. by vm_compute. Qed.
