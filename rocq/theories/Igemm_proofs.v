From Coq Require Import ZArith Lia.
From mathcomp Require Import all_ssreflect zify.
From Verif Require Import Grid Igemm_model Igemm_spec.
Set Implicit Arguments.
Unset Strict Implicit.
Unset Printing Implicit Defensive.

(** ** Wrapping *)
Lemma w64_ex x : exists k, (w64 x = x + k * 2 ^ 64)%Z.
Proof.
exists (- ((x + 2 ^ 63) / 2 ^ 64))%Z; rewrite /w64 /swrap.
have := Z.div_mod (x + 2 ^ 63) (2 ^ 64); rewrite -[(64 - 1)%Z]/63%Z; lia.
Qed.

Lemma w64_cong x y k : (x = y + k * 2 ^ 64)%Z -> w64 x = w64 y.
Proof.
move=> ->; rewrite /w64 /swrap -[(64 - 1)%Z]/63%Z.
have -> : (y + k * 2 ^ 64 + 2 ^ 63 = y + 2 ^ 63 + k * 2 ^ 64)%Z by lia.
by rewrite Z_mod_plus_full.
Qed.

Lemma w64_id x : fits 64 x -> w64 x = x.
Proof.
rewrite /fits /w64 /swrap -[(64 - 1)%Z]/63%Z => h.
by rewrite Z.mod_small; lia.
Qed.

Lemma w32_id x : fits 32 x -> w32 x = x.
Proof.
rewrite /fits /w32 /swrap -[(32 - 1)%Z]/31%Z => h.
by rewrite Z.mod_small; lia.
Qed.

Lemma w64_fits x : fits 64 (w64 x).
Proof.
rewrite /fits /w64 /swrap -[(64 - 1)%Z]/63%Z.
have := Z.mod_pos_bound (x + 2 ^ 63) (2 ^ 64); lia.
Qed.

Lemma fits_32_64 x : fits 32 x -> fits 64 x.
Proof. by rewrite /fits /=; lia. Qed.

Lemma w64D x y : w64 (w64 x + y) = w64 (x + y).
Proof. by have [k ->] := w64_ex x; apply: (@w64_cong _ _ k); lia. Qed.

Lemma w64Dr x y : w64 (x + w64 y) = w64 (x + y).
Proof. by have [k ->] := w64_ex y; apply: (@w64_cong _ _ k); lia. Qed.

Lemma w64Br x y : w64 (x - w64 y) = w64 (x - y).
Proof. by have [k ->] := w64_ex y; apply: (@w64_cong _ _ (- k)); lia. Qed.

Lemma in64P z : fits 64 z -> in64 z.
Proof. by rewrite /fits /in64 => h; apply/andP; split; lia. Qed.

Lemma mulxE a b : fits 32 a -> fits 32 b -> mulx a b = (a * b)%Z.
Proof. by move=> ha hb; rewrite /mulx !w32_id. Qed.

Lemma mul_fits a b : fits 32 a -> fits 32 b -> fits 64 (a * b).
Proof. rewrite /fits /= => ha hb; nia. Qed.

(** ** Sums *)
Lemma eq_zsum n f g : (forall k, k < n -> f k = g k) -> zsum n f = zsum n g.
Proof. by elim: n => //= n IH h; rewrite IH ?h // => k hk; apply: h; lia. Qed.

Lemma zsumD m n f : zsum (m + n) f = (zsum m f + zsum n (fun k => f (m + k)%N))%Z.
Proof. by elim: n => [|n IH] /=; rewrite ?addn0 ?addnS /= ?IH; lia. Qed.

Lemma zsumMl a n f : zsum n (fun k => a * f k)%Z = (a * zsum n f)%Z.
Proof. by elim: n => [|n IH] /=; rewrite ?IH; lia. Qed.

(** ** Rectangles of a column major matrix *)
Definition reg (ldc i0 i1 j0 j1 : nat) (g : nat -> nat -> Z -> Z) (C : mem) : mem :=
  fun q => if (i0 <= q %% ldc < i1) && (j0 <= q %/ ldc < j1) then g (q %% ldc) (q %/ ldc) (C q) else C q.

Definition tile (ldc : nat) (g : nat -> nat -> Z -> Z) (fine : nat -> nat -> Z -> Prop) (i0 i1 j0 j1 : nat) (f : st -> st) : Prop :=
  forall s, (f s).1 =1 reg ldc i0 i1 j0 j1 g s.1 /\
    ((forall q, i0 <= q %% ldc < i1 -> j0 <= q %/ ldc < j1 -> fine (q %% ldc) (q %/ ldc) (s.1 q)) -> (f s).2 = s.2).

Section Tile.
Variables (ldc : nat) (g : nat -> nat -> Z -> Z) (fine : nat -> nat -> Z -> Prop).
Notation tile := (tile ldc g fine).

Lemma tile_row i0 i1 i2 j0 j1 f1 f2 : i0 <= i1 -> i1 <= i2 -> tile i0 i1 j0 j1 f1 -> tile i1 i2 j0 j1 f2 -> tile i0 i2 j0 j1 (fun s => f2 (f1 s)).
Proof.
move=> h1 h2 t1 t2 s; have [e1 o1] := t1 s; have [e2 o2] := t2 (f1 s); split=> [q|h].
  rewrite e2 /reg e1 /reg; do !case: ifP => ?; by [|lia].
rewrite o2; first by apply: o1 => q hr ht; apply: h; lia.
move=> q hr ht; rewrite e1 /reg ifF; [apply: h; lia|apply/negbTE; lia].
Qed.

Lemma tile_col i0 i1 j0 j1 j2 f1 f2 : j0 <= j1 -> j1 <= j2 -> tile i0 i1 j0 j1 f1 -> tile i0 i1 j1 j2 f2 -> tile i0 i1 j0 j2 (fun s => f2 (f1 s)).
Proof.
move=> h1 h2 t1 t2 s; have [e1 o1] := t1 s; have [e2 o2] := t2 (f1 s); split=> [q|h].
  rewrite e2 /reg e1 /reg; do !case: ifP => ?; by [|lia].
rewrite o2; first by apply: o1 => q hr ht; apply: h; lia.
move=> q hr ht; rewrite e1 /reg ifF; [apply: h; lia|apply/negbTE; lia].
Qed.

Lemma tile_id i0 i1 j0 j1 : i1 <= i0 \/ j1 <= j0 -> tile i0 i1 j0 j1 id.
Proof. by move=> h s; split=> // q; rewrite /reg ifF //; apply/negbTE; lia. Qed.

Lemma tile_ext i0 i1 j0 j1 f f' : f =1 f' -> tile i0 i1 j0 j1 f -> tile i0 i1 j0 j1 f'.
Proof. by move=> e t s; rewrite -e; apply: t. Qed.

Lemma tile_rows n w i j0 j1 (f : nat -> st -> st) :
  (forall k, k < n -> tile (i + k * w) (i + k * w + w) j0 j1 (f k)) -> tile i (i + n * w) j0 j1 (iteri n f).
Proof.
elim: n => [|n IH] h; first by apply: tile_id; lia.
apply: (@tile_row i (i + n * w) _ j0 j1 (iteri n f) (f n)); [lia|lia| |].
  by apply: IH => k hk; apply: h; lia.
by rewrite (_ : i + n.+1 * w = i + n * w + w) ?mulSn; [apply: h|lia].
Qed.

Lemma tile_cols n w i0 i1 j (f : nat -> st -> st) :
  (forall k, k < n -> tile i0 i1 (j + k * w) (j + k * w + w) (f k)) -> tile i0 i1 j (j + n * w) (iteri n f).
Proof.
elim: n => [|n IH] h; first by apply: tile_id; lia.
apply: (@tile_col i0 i1 j (j + n * w) _ (iteri n f) (f n)); [lia|lia| |].
  by apply: IH => k hk; apply: h; lia.
by rewrite (_ : j + n.+1 * w = j + n * w + w) ?mulSn; [apply: h|lia].
Qed.
End Tile.

Lemma vstore_reg vs ldc R T g C (v : vect) : R + vs <= ldc -> (forall l, l < vs -> v l = g (R + l) T (C (T * ldc + R + l))) ->
  vstore vs C (T * ldc + R) v =1 reg ldc R (R + vs) T T.+1 g C.
Proof.
move=> hR hv q; rewrite /vstore /reg.
case: ifP => hq.
  have [l [eq hl]] : exists l, q = T * ldc + (R + l) /\ l < vs by exists (q - (T * ldc + R)); lia.
  have hl' : R + l < ldc by lia.
  have -> : q %% ldc = R + l by rewrite eq modnMDl modn_small.
  have -> : q %/ ldc = T by rewrite eq divnMDl ?divn_small ?addn0 //; lia.
  rewrite ifT; last lia.
  rewrite (_ : q - (T * ldc + R) = l); last lia.
  by rewrite hv // eq addnA.
rewrite ifF //; apply/negbTE/negP => /andP[h1 h2].
have e : q %/ ldc = T by lia.
have := divn_eq q ldc; rewrite e; lia.
Qed.

Lemma upd1_reg ldc R T g C v : R < ldc -> v = g R T (C (T * ldc + R)) -> upd1 C (T * ldc + R) v =1 reg ldc R R.+1 T T.+1 g C.
Proof.
move=> hR hv q; rewrite -addn1 -(@vstore_reg 1 _ _ _ _ _ (fun=> v)) ?addn1 //; last by case=> // _; rewrite !addn0.
by rewrite /upd1 /vstore; case: eqP => h; [rewrite ifT|rewrite ifF] => //; lia.
Qed.

(** ** Kernels *)
Lemma iteri_fst n (h : nat -> mem -> mem) (C : mem) (b : bool) : iteri n (fun k (s : st) => (h k s.1, s.2)) (C, b) = (iteri n h C, b).
Proof. by elim: n => //= n ->. Qed.

Lemma iteri4 (T : Type) n (f : nat -> T -> T) x :
  iteri n (fun k a => f (4 * k + 3) (f (4 * k + 2) (f (4 * k + 1) (f (4 * k) a)))) x = iteri (n * 4) f x.
Proof. by elim: n => //= n ->; rewrite mulnC addn1 addn2 addn3. Qed.

Lemma iteriD (T : Type) m n (f : nat -> T -> T) x : iteri n (fun k => f (m + k)) (iteri m f x) = iteri (m + n) f x.
Proof. by elim: n => [|n IH]; rewrite ?addn0 // addnS /= IH. Qed.

Section Panel.
Variables (vs : nat) (K : kind) (alpha : Z).
Variables (M N D ldc cb : nat) (a b : nat -> nat -> Z).
Hypothesis vs0 : 0 < vs.
Hypothesis D0 : 0 < D.
Hypothesis hM : M <= ldc.
Hypothesis ha : forall r k, r < M -> k < D -> fits 32 (a r k).
Hypothesis hb : forall k t, k < D -> t < N -> fits 32 (b k t).
Notation S r t := (zsum D (fun k => a r k * b k t)%Z).
Hypothesis hK : match K with
  | One => alpha = 1%Z
  | Mone => alpha = (-1)%Z
  | Other => [/\ fits 32 alpha, forall r k, r < M -> k < D -> fits 32 (alpha * a r k)
      & forall r t, r < M -> t < N -> fits 32 (S r t)]
  end.

Let g (r t : nat) (c : Z) : Z := w64 (c + alpha * S r t).
Let fine (r t : nat) (c : Z) : Prop :=
  fits 64 c /\ forall k, k < D -> fits 64 (alpha * a r k * b k t) /\ fits 64 (c + alpha * zsum k.+1 (fun k => a r k * b k t))%Z.
Notation tile := (tile ldc g fine).

Lemma macE nv nc blA pA blB pB n t v l :
  iteri n (mac vs nv nc blA pA blB pB) (fun _ _ _ => 0%Z) t v l
  = w64 (zsum n (fun k => mulx (blA (pA + (k * nv + v) * vs + l)) (blB (pB + k * nc + t)))).
Proof. by elim: n => //= n IH; rewrite {1}/mac /fmaddx IH w64D /vload /vset1. Qed.

Lemma igebbV_tile nv nc i j pdepth blA pA blB pB :
  cb + i + nv * vs <= M -> j + nc <= N -> pdepth <= D -> pdepth %/ 4 * 4 = pdepth ->
  (forall k v l, k < D -> v < nv -> l < vs -> blA (pA + (k * nv + v) * vs + l) = a (cb + i + v * vs + l) k) ->
  (forall k t, k < D -> t < nc -> blB (pB + k * nc + t) = b k (j + t)) ->
  tile (cb + i) (cb + i + nv * vs) j (j + nc) (igebbV vs K alpha nv nc i j D pdepth blA pA blB pB cb ldc).
Proof.
move=> hi hj hp hp4 hA hB; rewrite /igebbV.
apply: (@tile_ext _ _ _ _ _ _ _ (iteri nc (fun t s => iteri nv (fun v (s : st) =>
  (let r := cb + (j + t) * ldc + i + v * vs in vstore vs s.1 r (vfin K alpha (vload s.1 r) (iteri D (mac vs nv nc blA pA blB pB) (fun _ _ _ => 0%Z) t v)), s.2)) s))).
  move=> s; rewrite iteri4 hp4 (iteriD pdepth (D - pdepth) (mac vs nv nc blA pA blB pB)) subnKC //.
  rewrite -iteri_fst -surjective_pairing.
  have E n f f' (x : st) : (forall k y, f k y = f' k y) -> iteri n f x = iteri n f' x by move=> e; elim: n => //= n ->; rewrite e.
  apply: E => t [C o] /=; symmetry; rewrite -(iteri_fst nv (fun v C => let r := cb + (j + t) * ldc + i + v * vs in vstore vs C r (vfin K alpha (vload C r) (iteri D (mac vs nv nc blA pA blB pB) (fun _ _ _ => 0%Z) t v)))).
  by [].
rewrite -[nc in j + nc]muln1; apply: tile_cols => t ht; rewrite muln1 addn1.
apply: tile_rows => v hv.
have hv' : v.+1 * vs <= nv * vs by rewrite leq_mul2r hv orbT.
rewrite mulSn in hv'.
move=> s; split=> //=.
rewrite (_ : cb + (j + t) * ldc + i + v * vs = (j + t) * ldc + (cb + i + v * vs)); last lia.
apply: vstore_reg => [|l hl]; first lia.
have -> : iteri D (mac vs nv nc blA pA blB pB) (fun _ _ _ => 0%Z) t v l = w64 (S (cb + i + v * vs + l) (j + t)) -> 
   vfin K alpha (vload s.1 ((j + t) * ldc + (cb + i + v * vs))) (iteri D (mac vs nv nc blA pA blB pB) (fun _ _ _ => 0%Z) t v) l
   = g (cb + i + v * vs + l) (j + t) (s.1 ((j + t) * ldc + (cb + i + v * vs) + l)) => //; last first.
  rewrite macE; congr w64; apply: eq_zsum => k hk.
  by rewrite hA // hB // mulxE //; [apply: ha => //; lia|apply: hb => //; lia].
move=> e; rewrite /vfin /g; move: hK; case: (K) => [h|h|[h1 h2 h3]].
- by rewrite /vadd e /vload w64Dr h; congr w64; lia.
- by rewrite /vsub e /vload w64Br h; congr w64; lia.
have hS : fits 32 (S (cb + i + v * vs + l) (j + t)) by apply: h3; lia.
by rewrite /fmaddx e /vload /vset1 (w64_id (fits_32_64 hS)) mulxE.
Qed.

Lemma igebb14_tile i j blA pA blB pB :
  cb + i < M -> j + 4 <= N ->
  (forall k, k < D -> blA (pA + k) = a (cb + i) k) ->
  (forall k t, k < D -> t < 4 -> blB (pB + k * 4 + t) = b k (j + t)) ->
  tile (cb + i) (cb + i).+1 j (j + 4) (igebb14 K alpha i j D blA pA blB pB cb ldc).
Proof.
move=> hi hj hA hB s.
rewrite /igebb14; set F := iteri D _ _.
have [h1 h2] : (forall t, t < 4 -> F.1 t = g (cb + i) (j + t) (s.1 (cb + (j + t) * ldc + i))) /\ F.2 = s.2.
  have hf : forall n, n <= D ->
     let F := iteri n (fun k (Ro : vect * bool) =>
    let: (R, ok) := Ro in
    let B0 := vload blB (pB + k * 4) in
    match K with
    | One => (fmaddx R (vset1 (blA (pA + k))) B0, ok)
    | Mone => (vsub R (fun l => mulx (blA (pA + k)) (B0 l)), ok)
    | Other => let abla := (alpha * blA (pA + k)%N)%Z in (fmaddx R (vset1 (w64 abla)) B0, ok && in64 abla)
    end) (fun t => s.1 (cb + (j + t) * ldc + i), s.2) in
    (forall t, t < 4 -> F.1 t = if n is 0 then s.1 (cb + (j + t) * ldc + i) else
       w64 (s.1 (cb + (j + t) * ldc + i)%N + alpha * zsum n (fun k => a (cb + i) k * b k (j + t)))%Z) /\ F.2 = s.2.
    elim=> [|n IH] hn //=.
    move: (IH (ltnW hn)) => /=; case: (iteri n _ _) => R ok /= [hR ->].
    rewrite hA //.
    have hab : forall t, t < 4 -> vload blB (pB + n * 4) t = b n (j + t) by move=> t ht; rewrite /vload hB.
    have fa : fits 32 (a (cb + i) n) by apply: ha.
    have fb : forall t, t < 4 -> fits 32 (b n (j + t)) by move=> t ht; apply: hb => //; lia.
    have hR' : forall t x, t < 4 -> w64 (R t + x) = w64 (s.1 (cb + (j + t) * ldc + i)%N + alpha * zsum n (fun k => a (cb + i) k * b k (j + t)) + x)%Z.
      move=> t x ht; rewrite hR //; case: (n) => [|n'] /=; last by rewrite w64D.
      by congr w64; lia.
    move: hK; case: (K) => [h|h|[k1 k2 k3]].
    - split=> // t ht /=.
      by rewrite /fmaddx hab // hR' // /vset1 mulxE // ?h; [congr w64; lia|apply: fb].
    - split=> // t ht /=.
      by rewrite /vsub hab // -Z.add_opp_r hR' // mulxE // ?h; [congr w64; lia|apply: fb].
    have fl : fits 32 (alpha * a (cb + i) n) by apply: k2.
    split=> /=; last by rewrite in64P ?andbT //; apply: fits_32_64.
    move=> t ht; rewrite /fmaddx hab // hR' // /vset1 (w64_id (fits_32_64 fl)).
    by rewrite mulxE //; [congr w64; lia|apply: fb].
  have [e1 e2] := hf D (leqnn _); split=> // t ht; rewrite /F e1 //.
  have ifn n (x y : Z) : 0 < n -> (if n is 0 then x else y) = y by case: n.
  by rewrite ifn.
move: h1 h2; case: F => R ok /= h1 h2; split=> //.
suff H n : n <= 4 -> iteri n (fun t C => upd1 C (cb + (j + t) * ldc + i) (R t)) s.1 =1 reg ldc (cb + i) (cb + i).+1 j (j + n) g s.1 by apply: (H 4).
elim: n => [|n IH] hn q; first by rewrite /reg ifF //; apply/negbTE; lia.
rewrite -[LHS]/(upd1 (iteri n (fun t C => upd1 C (cb + (j + t) * ldc + i) (R t)) s.1) (cb + (j + n) * ldc + i) (R n) q).
have hc : cb + (j + n) * ldc + i = (j + n) * ldc + (cb + i) by lia.
have hq0 : cb + i < ldc by lia.
rewrite hc (@upd1_reg _ _ _ g) //; last first.
  rewrite h1 // hc IH ?(ltnW hn) // /reg ifF //.
  by rewrite divnMDl ?divn_small ?addn0 //; [apply/negbTE|]; lia.
rewrite /reg (IH (ltnW hn)) /reg; do !case: ifP => ?; by [|lia].
Qed.

Lemma igebb11_tile i j blA pA blB pB :
  cb + i < M -> j < N ->
  (forall k, k < D -> blA (pA + k) = a (cb + i) k) ->
  (forall k, k < D -> blB (pB + k) = b k j) ->
  tile (cb + i) (cb + i).+1 j j.+1 (igebb11 K alpha i j D blA pA blB pB cb ldc).
Proof.
move=> hi hj hA hB s.
have hc : cb + j * ldc + i = j * ldc + (cb + i) by lia.
rewrite /igebb11 hc; set c := s.1 _; set F := fun _ _ => _.
have h1 n : 0 < n <= D -> (iteri n F (c, s.2)).1 = w64 (c + alpha * zsum n (fun k => a (cb + i) k * b k j))%Z.
  elim: n => // n IH hn; rewrite [iteri _ _ _]/=.
  have e x : w64 ((iteri n F (c, s.2)).1 + x) = w64 (c + alpha * zsum n (fun k => a (cb + i) k * b k j) + x)%Z.
    case: n IH hn => [|n'] IH hn; first by rewrite /=; congr w64; lia.
    by rewrite IH ?w64D //; lia.
  move: e; case: (iteri n _ _) => r ok /= e; rewrite hA ?hB; try lia.
  move: hK; case: (K) => [h|h|_] /=.
  - by rewrite w64Dr e h; congr w64; lia.
  - by rewrite w64Br -Z.add_opp_r e h; congr w64; lia.
  by rewrite w64Dr e; congr w64; lia.
have h2 n : n <= D -> fine (cb + i) j c -> (iteri n F (c, s.2)).2 = s.2.
  move=> hn [fc ff]; elim: n hn => // n IH hn; rewrite [iteri _ _ _]/=.
  have [f1 f2] := ff _ hn.
  have e : (iteri n F (c, s.2)).1 = (c + alpha * zsum n (fun k => a (cb + i) k * b k j))%Z.
    case: n IH hn f1 f2 => [|n'] IH hn f1 f2; first by rewrite /=; lia.
    by rewrite h1 ?w64_id //; [apply: (ff n' _).2; lia|lia].
  have fa := ha hi hn; have fb := hb hn hj; have fab := mul_fits fa fb.
  move: e (IH (ltnW hn)); case: (iteri n _ _) => r ok /= -> ->; rewrite hA ?hB //.
  move: hK f1 f2 => /=; case: (K) => [h|h|[k1 k2 k3]] f1 f2 /=.
  - rewrite !in64P ?andbT //; move: f2; rewrite h; congr fits; lia.
  - rewrite !in64P ?andbT //; move: f2; rewrite h; congr fits; lia.
  rewrite !in64P ?andbT //; last by apply: fits_32_64; apply: k2.
  by move: f2; congr fits; lia.
move: (h1 D) (h2 D); case: (iteri D _ _) => r ok /= h1' h2'; split; last first.
  move=> h; apply: h2' => //.
  have := h (j * ldc + (cb + i)); rewrite modnMDl modn_small ?divnMDl ?divn_small ?addn0; try lia.
  by apply; lia.
by apply: upd1_reg; [lia|apply: h1'; lia].
Qed.
End Panel.
