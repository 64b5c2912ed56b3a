(** * Proofs about the emulated integer SIMD operations *)
From Coq Require Import ZArith Lia Bool.
From Verif Require Import Emul_model Emul_spec.
Open Scope Z_scope.

Lemma land_pow2 y k : 0 <= k -> 0 <= y < 2 ^ k -> Z.land y (2 ^ k) = 0.
Proof.
  intros Hk Hy. apply Z.bits_inj'; intros n Hn.
  rewrite Z.land_spec, Z.pow2_bits_eqb, Z.bits_0 by assumption.
  destruct (Z.eqb_spec k n) as [<-|E]; [|apply andb_false_r].
  rewrite andb_true_r, Z.testbit_false, Z.div_small by lia. reflexivity.
Qed.

Lemma lxor_low y k : 0 <= k -> 0 <= y < 2 ^ k -> Z.lxor y (2 ^ k) = y + 2 ^ k.
Proof. intros Hk Hy. symmetry. apply Z.add_nocarry_lxor, land_pow2; assumption. Qed.

Lemma lxor_high y k : 0 <= k -> 2 ^ k <= y < 2 ^ (k + 1) -> Z.lxor y (2 ^ k) = y - 2 ^ k.
Proof.
  intros Hk Hy. rewrite Z.pow_add_r in Hy by lia.
  replace y with (y - 2 ^ k + 2 ^ k) at 1 by lia.
  rewrite <- (lxor_low (y - 2 ^ k) k) by lia.
  rewrite Z.lxor_assoc, Z.lxor_nilpotent. apply Z.lxor_0_r.
Qed.

Lemma pow_half w : 1 <= w -> 2 ^ w = 2 * 2 ^ (w - 1).
Proof. intros H. replace w with (1 + (w - 1)) at 1 by lia. rewrite Z.pow_add_r by lia. reflexivity. Qed.

Lemma pow_pos k : 0 <= k -> 0 < 2 ^ k.
Proof. apply Z.pow_pos_nonneg; lia. Qed.

Lemma stands_sig w x : 1 <= w -> lane w x -> stands w x (sig w x).
Proof.
  intros Hw Hx. unfold stands, lane, sig in *. pose proof (pow_half w Hw).
  split; [assumption|].
  destruct (Z.ltb_spec x (2 ^ (w - 1))); split; try lia; [exists 0|exists 1]; lia.
Qed.

Lemma stands_uniq w x u v : 1 <= w -> stands w x u -> stands w x v -> u = v.
Proof.
  intros Hw (_ & Hu & k & Ek) (_ & Hv & l & El). pose proof (pow_half w Hw).
  assert ((k - l) * 2 ^ w = v - u) by lia.
  assert (k = l); [|subst; lia].
  pose proof (pow_pos (w - 1)). nia.
Qed.

Lemma sig_stands w x v : 1 <= w -> stands w x v -> sig w x = v.
Proof.
  intros Hw H. apply (stands_uniq w x); [assumption| |assumption].
  apply stands_sig; [assumption|apply H].
Qed.

Lemma stands_mod w v : 1 <= w -> - 2 ^ (w - 1) <= v < 2 ^ (w - 1) -> stands w (v mod 2 ^ w) v.
Proof.
  intros Hw Hv. unfold stands, lane. pose proof (pow_pos w).
  split; [apply Z.mod_pos_bound; lia|]. split; [assumption|].
  exists (- (v / 2 ^ w)). rewrite (Z.mod_eq v (2 ^ w)) by lia. lia.
Qed.

(** ** sra *)
Lemma sra64_ok s x v : 0 <= s <= 63 -> stands 64 x v -> stands 64 (sra64 s x) (v / 2 ^ s).
Proof.
  intros Hs H. assert (E : sig 64 x = v) by (apply sig_stands; [lia|assumption]).
  destruct H as (Hx & Hv & _). unfold lane in Hx.
  unfold sra64, lsll, lsub, lsrl.
  assert (P : 2 ^ 63 = 2 ^ s * 2 ^ (63 - s)) by (rewrite <- Z.pow_add_r by lia; f_equal; lia).
  assert (P' : 2 ^ 64 = 2 * 2 ^ 63) by reflexivity.
  pose proof (pow_pos s ltac:(lia)) as Ps. pose proof (pow_pos (63 - s) ltac:(lia)) as Pt.
  assert (Hm : 1 * 2 ^ (63 - s) mod 2 ^ 64 = 2 ^ (63 - s)).
  { rewrite Z.mul_1_l. apply Z.mod_small. split; [lia|]. apply Z.pow_lt_mono_r; lia. }
  rewrite Hm. set (m := 2 ^ (63 - s)) in *. set (d := 2 ^ s) in *.
  assert (V : - 2 ^ (64 - 1) <= v / d < 2 ^ (64 - 1)).
  { change (64 - 1) with 63 in *. split.
    - apply Z.div_le_lower_bound; [lia|]. nia.
    - apply Z.div_lt_upper_bound; [lia|]. nia. }
  unfold sig in E. change (64 - 1) with 63 in *.
  destruct (Z.ltb_spec x (2 ^ 63)) as [L|L].
  - subst v. assert (0 <= x / d < m).
    { split; [apply Z.div_pos; lia|]. apply Z.div_lt_upper_bound; lia. }
    unfold m. rewrite lxor_low by (fold m; lia). fold m.
    replace (x / d + m - m) with (x / d) by lia. apply stands_mod; [lia|]. exact V.
  - assert (B : m <= x / d < 2 ^ (63 - s + 1)).
    { rewrite Z.pow_add_r by lia. fold m. split.
      - apply Z.div_le_lower_bound; lia.
      - apply Z.div_lt_upper_bound; lia. }
    unfold m. rewrite lxor_high by (try fold m; lia). fold m.
    assert (Q : v / d = x / d - 2 * m).
    { subst v. replace (x - 2 ^ 64) with (x + - (2 * m) * d) by lia. rewrite Z.div_add by lia. lia. }
    replace (x / d - m - m) with (v / d) by lia. apply stands_mod; [lia|]. exact V.
Qed.

(** ** Comparisons *)
Lemma sig_flip w a : 1 <= w -> lane w a -> sig w (Z.lxor (2 ^ (w - 1)) a) = a - 2 ^ (w - 1).
Proof.
  intros Hw Ha. unfold lane in Ha. pose proof (pow_half w Hw) as P. pose proof (pow_pos (w - 1) ltac:(lia)).
  rewrite Z.lxor_comm. unfold sig. destruct (Z.lt_ge_cases a (2 ^ (w - 1))).
  - rewrite lxor_low by lia. destruct (Z.ltb_spec (a + 2 ^ (w - 1)) (2 ^ (w - 1))); lia.
  - rewrite lxor_high by (try replace (w - 1 + 1) with w by lia; lia).
    destruct (Z.ltb_spec (a - 2 ^ (w - 1)) (2 ^ (w - 1))); lia.
Qed.

Lemma greater_u_ok w a b : 1 <= w -> lane w a -> lane w b -> is_mask w (greater_u w a b) (a > b).
Proof.
  intros Hw Ha Hb. unfold greater_u, lcmpgt, ones. cbv zeta. rewrite !sig_flip by assumption.
  destruct (Z.ltb_spec (b - 2 ^ (w - 1)) (a - 2 ^ (w - 1))); split; intros; try lia; reflexivity.
Qed.

Lemma lesser_u_ok w a b : 1 <= w -> lane w a -> lane w b -> is_mask w (lesser_u w a b) (a < b).
Proof.
  intros Hw Ha Hb. unfold lesser_u, lcmpgt, ones. cbv zeta. rewrite !sig_flip by assumption.
  destruct (Z.ltb_spec (a - 2 ^ (w - 1)) (b - 2 ^ (w - 1))); split; intros; try lia; reflexivity.
Qed.

Lemma lor_ones w x : x = 0 \/ x = 2 ^ w - 1 -> Z.lor x (2 ^ w - 1) = 2 ^ w - 1.
Proof. intros [-> | ->]; [apply Z.lor_0_l|apply Z.lor_diag]. Qed.

Lemma or_mask w x y (P Q R : Prop) : (P \/ ~ P) -> (Q \/ ~ Q) -> (R <-> P \/ Q) ->
  is_mask w x P -> is_mask w y Q -> is_mask w (Z.lor x y) R.
Proof.
  intros DP DQ E [Xt Xf] [Yt Yf]. destruct DP as [p|p], DQ as [q|q]; split; intros H;
    try (exfalso; tauto).
  - rewrite Xt, Yt by assumption. apply Z.lor_diag.
  - rewrite Xt, Yf by assumption. apply Z.lor_0_r.
  - rewrite Xf, Yt by assumption. apply Z.lor_0_l.
  - rewrite Xf, Yf by assumption. reflexivity.
Qed.

Lemma eq_mask w a b : is_mask w (lcmpeq w a b) (a = b).
Proof. unfold lcmpeq. destruct (Z.eqb_spec a b); split; intros; try contradiction; reflexivity. Qed.

Lemma compare_u_ok w a b : 1 <= w -> lane w a -> lane w b ->
  is_mask w (greater_u w a b) (a > b) /\ is_mask w (lesser_u w a b) (a < b) /\
  is_mask w (greater_eq_u w a b) (a >= b) /\ is_mask w (lesser_eq_u w a b) (a <= b).
Proof.
  intros Hw Ha Hb. pose proof (greater_u_ok w a b Hw Ha Hb). pose proof (lesser_u_ok w a b Hw Ha Hb).
  split; [assumption|split; [assumption|split]].
  - apply (or_mask w _ _ (a > b) (a = b)); try lia; [assumption|apply eq_mask].
  - apply (or_mask w _ _ (a < b) (a = b)); try lia; [assumption|apply eq_mask].
Qed.

Lemma compare_s_ok w a b u v : 1 <= w -> stands w a u -> stands w b v ->
  is_mask w (greater_eq_s w a b) (u >= v) /\ is_mask w (lesser_eq_s w a b) (u <= v).
Proof.
  intros Hw Ha Hb.
  assert (Eu := sig_stands w a u Hw Ha). assert (Ev := sig_stands w b v Hw Hb).
  assert (EQ : a = b <-> u = v).
  { split; intros H.
    - subst b. apply (stands_uniq w a); assumption.
    - subst v. destruct Ha as (La & Bu & k & Ek), Hb as (Lb & _ & l & El). unfold lane in *.
      assert (a - b = (k - l) * 2 ^ w) by lia.
      assert (k = l); [nia|subst; lia]. }
  assert (G : forall a b u v, sig w a = u -> sig w b = v -> is_mask w (lcmpgt w a b) (u > v)).
  { clear. intros a b u v <- <-. unfold lcmpgt, ones.
    destruct (Z.ltb_spec (sig w b) (sig w a)); split; intros; try lia; reflexivity. }
  split.
  - apply (or_mask w _ _ (u > v) (a = b)); try lia; [now apply G|apply eq_mask].
  - apply (or_mask w _ _ (v > u) (a = b)); try lia; [now apply G|apply eq_mask].
Qed.

(** ** mulx *)
Lemma ext_low h a : 1 <= h ->
  lsub (2 * h) (Z.land (ladd (2 * h) a (2 ^ (h - 1))) (2 ^ h - 1)) (2 ^ (h - 1)) =
  sig h (a mod 2 ^ h) mod 2 ^ (2 * h).
Proof.
  intros Hh. unfold lsub, ladd.
  assert (P := pow_half h Hh). pose proof (pow_pos (h - 1) ltac:(lia)) as Q.
  replace (2 ^ h - 1) with (Z.ones h) by (rewrite Z.ones_equiv; lia).
  rewrite Z.land_ones by lia.
  assert (D : 2 ^ (2 * h) = 2 ^ h * 2 ^ h) by (rewrite <- Z.pow_add_r by lia; f_equal; lia).
  f_equal. rewrite D.
  assert (E : forall z, (z mod (2 ^ h * 2 ^ h)) mod 2 ^ h = z mod 2 ^ h).
  { intros z. rewrite (Z.mod_eq z (2 ^ h * 2 ^ h)) by nia.
    replace (z - 2 ^ h * 2 ^ h * (z / (2 ^ h * 2 ^ h)))
      with (z + - (2 ^ h * (z / (2 ^ h * 2 ^ h))) * 2 ^ h) by lia.
    apply Z.mod_add. lia. }
  rewrite E. rewrite <- Z.add_mod_idemp_l by lia.
  pose proof (Z.mod_pos_bound a (2 ^ h) ltac:(lia)) as B. set (r := a mod 2 ^ h) in *.
  unfold sig. destruct (Z.ltb_spec r (2 ^ (h - 1))).
  - rewrite Z.mod_small by lia. lia.
  - replace (r + 2 ^ (h - 1)) with (r - 2 ^ (h - 1) + 1 * 2 ^ h) by lia.
    rewrite Z.mod_add, Z.mod_small by lia. lia.
Qed.

Lemma mulx_s_ok h a b u v : 1 <= h -> stands h (a mod 2 ^ h) u -> stands h (b mod 2 ^ h) v ->
  stands (2 * h) (mulx_s h a b) (u * v).
Proof.
  intros Hh Hu Hv. unfold mulx_s, lmullo. cbv zeta. rewrite !ext_low by assumption.
  rewrite (sig_stands h _ u), (sig_stands h _ v) by assumption.
  rewrite <- Z.mul_mod by (apply Z.pow_nonzero; lia).
  apply stands_mod; [lia|].
  destruct Hu as (_ & Hu & _), Hv as (_ & Hv & _). pose proof (pow_pos (h - 1) ltac:(lia)).
  replace (2 ^ (2 * h - 1)) with (2 * (2 ^ (h - 1) * 2 ^ (h - 1)))
    by (rewrite <- Z.pow_add_r by lia; rewrite <- (Z.pow_1_r 2) at 1; rewrite <- Z.pow_add_r by lia; f_equal; lia).
  set (p := 2 ^ (h - 1)) in *. nia.
Qed.

Lemma mulx_u_ok h a b : 1 <= h -> lane (2 * h) a -> lane (2 * h) b ->
  mulx_u h a b = (a mod 2 ^ h) * (b mod 2 ^ h).
Proof.
  intros Hh Ha Hb. unfold mulx_u, lmullo.
  replace (2 ^ h - 1) with (Z.ones h) by (rewrite Z.ones_equiv; lia).
  rewrite !Z.land_ones by lia. apply Z.mod_small.
  replace (2 ^ (2 * h)) with (2 ^ h * 2 ^ h) by (rewrite <- Z.pow_add_r by lia; f_equal; lia).
  pose proof (pow_pos h ltac:(lia)).
  pose proof (Z.mod_pos_bound a (2 ^ h) ltac:(lia)). pose proof (Z.mod_pos_bound b (2 ^ h) ltac:(lia)).
  set (p := 2 ^ h) in *. nia.
Qed.

(** ** mulhi on 32-bit lanes *)
Lemma high_mod z : z mod 2 ^ 64 / 2 ^ 32 = (z / 2 ^ 32) mod 2 ^ 32.
Proof.
  rewrite (Z.mod_eq z (2 ^ 64)) by lia.
  replace (z - 2 ^ 64 * (z / 2 ^ 64)) with (z + - (2 ^ 32 * (z / 2 ^ 64)) * 2 ^ 32) by lia.
  rewrite Z.div_add by lia.
  assert (z / 2 ^ 64 = z / 2 ^ 32 / 2 ^ 32) as -> by (rewrite Z.div_div by lia; reflexivity).
  rewrite (Z.mod_eq (z / 2 ^ 32)) by lia. lia.
Qed.

Lemma lor_halves c d : 0 <= c < 2 ^ 32 -> 0 <= d < 2 ^ 32 -> Z.lor c (lsll 64 32 d) = c + 2 ^ 32 * d.
Proof.
  intros Hc Hd. unfold lsll. rewrite Z.mod_small by lia.
  rewrite <- Z.shiftl_mul_pow2 by lia. rewrite <- Z.lxor_lor.
  - rewrite <- Z.add_nocarry_lxor; [rewrite Z.shiftl_mul_pow2 by lia; lia|].
    apply Z.bits_inj'; intros n Hn. rewrite Z.land_spec, Z.bits_0.
    destruct (Z.lt_ge_cases n 32).
    + rewrite Z.shiftl_spec_low by lia. apply andb_false_r.
    + replace (Z.testbit c n) with false; [reflexivity|]. symmetry.
      rewrite Z.testbit_false by lia. rewrite Z.div_small; [reflexivity|].
      split; [lia|]. apply Z.lt_le_trans with (2 ^ 32); [lia|]. apply Z.pow_le_mono_r; lia.
  - apply Z.bits_inj'; intros n Hn. rewrite Z.land_spec, Z.bits_0.
    destruct (Z.lt_ge_cases n 32).
    + rewrite Z.shiftl_spec_low by lia. apply andb_false_r.
    + replace (Z.testbit c n) with false; [reflexivity|]. symmetry.
      rewrite Z.testbit_false by lia. rewrite Z.div_small; [reflexivity|].
      split; [lia|]. apply Z.lt_le_trans with (2 ^ 32); [lia|]. apply Z.pow_le_mono_r; lia.
Qed.

Lemma low_part a0 a1 : 0 <= a0 < 2 ^ 32 -> (a0 + 2 ^ 32 * a1) mod 2 ^ 32 = a0.
Proof. intros H. rewrite Z.mul_comm, Z.mod_add by lia. apply Z.mod_small; lia. Qed.
Lemma high_part a0 a1 : 0 <= a0 < 2 ^ 32 -> (a0 + 2 ^ 32 * a1) / 2 ^ 32 = a1.
Proof. intros H. rewrite Z.mul_comm, Z.div_add, Z.div_small by lia. lia. Qed.

Lemma mulhi32_s_ok a0 a1 b0 b1 u0 u1 v0 v1 :
  stands 32 a0 u0 -> stands 32 a1 u1 -> stands 32 b0 v0 -> stands 32 b1 v1 ->
  exists h0 h1, mulhi32 mul_epi32 (a0 + 2 ^ 32 * a1) (b0 + 2 ^ 32 * b1) = h0 + 2 ^ 32 * h1 /\
    stands 32 h0 (u0 * v0 / 2 ^ 32) /\ stands 32 h1 (u1 * v1 / 2 ^ 32).
Proof.
  intros A0 A1 B0 B1. unfold mulhi32, mul_epi32, lsrl. cbv zeta.
  assert (La0 := proj1 A0). assert (La1 := proj1 A1). assert (Lb0 := proj1 B0). assert (Lb1 := proj1 B1).
  unfold lane in La0, La1, Lb0, Lb1.
  rewrite !high_part, !low_part by assumption.
  rewrite (Z.mod_small a1), (Z.mod_small b1) by assumption.
  rewrite (sig_stands 32 a0 u0), (sig_stands 32 a1 u1), (sig_stands 32 b0 v0), (sig_stands 32 b1 v1)
    by (assumption || lia).
  rewrite !high_mod.
  rewrite lor_halves by (apply Z.mod_pos_bound; lia).
  assert (S : forall u v, - 2 ^ (32 - 1) <= u < 2 ^ (32 - 1) -> - 2 ^ (32 - 1) <= v < 2 ^ (32 - 1) ->
              stands 32 ((u * v / 2 ^ 32) mod 2 ^ 32) (u * v / 2 ^ 32)).
  { clear. intros u v Hu Hv. apply stands_mod; [lia|]. change (32 - 1) with 31 in *. split.
    - apply Z.div_le_lower_bound; [lia|]. nia.
    - apply Z.div_lt_upper_bound; [lia|]. nia. }
  eexists; eexists; split; [reflexivity|]. split; apply S; [apply A0|apply B0|apply A1|apply B1].
Qed.

Lemma mulhi32_u_ok a0 a1 b0 b1 : lane 32 a0 -> lane 32 a1 -> lane 32 b0 -> lane 32 b1 ->
  mulhi32 mul_epu32 (a0 + 2 ^ 32 * a1) (b0 + 2 ^ 32 * b1) = a0 * b0 / 2 ^ 32 + 2 ^ 32 * (a1 * b1 / 2 ^ 32).
Proof.
  intros La0 La1 Lb0 Lb1. unfold mulhi32, mul_epu32, lsrl. cbv zeta. unfold lane in *.
  rewrite !high_part, !low_part by assumption.
  rewrite (Z.mod_small a1), (Z.mod_small b1) by assumption.
  apply lor_halves; (split; [apply Z.div_pos; nia|apply Z.div_lt_upper_bound; nia]).
Qed.

(** ** mullo on 64-bit lanes *)
Lemma mullo64_ok a b u v : stands 64 a u -> stands 64 b v ->
  match mullo64 a b with
  | Some r => - 2 ^ 63 <= u * v < 2 ^ 63 /\ stands 64 r (u * v)
  | None => ~ (- 2 ^ 63 <= u * v < 2 ^ 63)
  end.
Proof.
  intros Ha Hb. unfold mullo64. cbv zeta.
  rewrite (sig_stands 64 a u), (sig_stands 64 b v) by (assumption || lia).
  destruct (Z.leb_spec (- 2 ^ 63) (u * v)), (Z.ltb_spec (u * v) (2 ^ 63)); cbn [andb]; try lia.
  split; [lia|]. apply stands_mod; [lia|]. exact (conj H H0).
Qed.

(** ** mulhi_fast: the unsigned part is right up to one; only the sign
    correction is wrong *)
Lemma mulhi_fast_ok x y : lane 64 x -> lane 64 y ->
  exists h, x * y / 2 ^ 64 - 1 <= h <= x * y / 2 ^ 64 /\
    mulhi_fast_simd x y =
      (h - Z.land ((- (x / 2 ^ 31)) mod 2 ^ 64) y - Z.land ((- (y / 2 ^ 31)) mod 2 ^ 64) x) mod 2 ^ 64.
Proof.
  intros Hx Hy. unfold lane in *. unfold mulhi_fast_simd, signbits, mul_epu32, lsrl, lsub, ladd. cbv zeta.
  change (ones 64 / 2 ^ 32) with (Z.ones 32). rewrite !Z.land_ones by lia.
  change (4 * 8 - 1) with 31. rewrite (Z.sub_0_l (x / 2 ^ 31)), (Z.sub_0_l (y / 2 ^ 31)).
  set (sx := Z.land ((- (x / 2 ^ 31)) mod 2 ^ 64) y). set (sy := Z.land ((- (y / 2 ^ 31)) mod 2 ^ 64) x).
  assert (X1 : 0 <= x / 2 ^ 32 < 2 ^ 32) by (split; [apply Z.div_pos; lia|apply Z.div_lt_upper_bound; lia]).
  assert (Y1 : 0 <= y / 2 ^ 32 < 2 ^ 32) by (split; [apply Z.div_pos; lia|apply Z.div_lt_upper_bound; lia]).
  rewrite !Z.mod_mod by lia. rewrite (Z.mod_small (x / 2 ^ 32)), (Z.mod_small (y / 2 ^ 32)) by assumption.
  pose proof (Z.mod_pos_bound x (2 ^ 32) ltac:(lia)) as X0. pose proof (Z.mod_pos_bound y (2 ^ 32) ltac:(lia)) as Y0.
  pose proof (Z.div_mod x (2 ^ 32) ltac:(lia)) as EX. pose proof (Z.div_mod y (2 ^ 32) ltac:(lia)) as EY.
  revert X1 Y1 X0 Y0 EX EY. generalize (x / 2 ^ 32) (y / 2 ^ 32) (x mod 2 ^ 32) (y mod 2 ^ 32).
  intros x1 y1 x0 y0 X1 Y1 X0 Y0 EX EY.
  set (m := x1 * y0).
  pose proof (Z.mod_pos_bound m (2 ^ 32) ltac:(lia)) as Bm. pose proof (Z.div_mod m (2 ^ 32) ltac:(lia)) as Em.
  set (ml := m mod 2 ^ 32) in *. set (mh := m / 2 ^ 32) in *.
  rewrite (Z.mod_small (ml + x0 * y1)) by nia.
  rewrite Z.add_mod_idemp_r by lia. rewrite Zminus_mod_idemp_l, <- !Z.sub_add_distr, Zminus_mod_idemp_l.
  exists ((ml + x0 * y1) / 2 ^ 32 + (x1 * y1 + mh)). split; [|f_equal; lia].
  set (t := (ml + x0 * y1) / 2 ^ 32).
  pose proof (Z.mul_div_le (ml + x0 * y1) (2 ^ 32) ltac:(lia)) as T1.
  pose proof (Z.mul_succ_div_gt (ml + x0 * y1) (2 ^ 32) ltac:(lia)) as T2. fold t in T1, T2.
  pose proof (Z.mul_div_le (x * y) (2 ^ 64) ltac:(lia)) as U1.
  pose proof (Z.mul_succ_div_gt (x * y) (2 ^ 64) ltac:(lia)) as U2.
  set (u := x * y / 2 ^ 64) in *.
  assert (E : x * y = 2 ^ 64 * (x1 * y1 + mh) + 2 ^ 32 * (ml + x0 * y1) + x0 * y0).
  { rewrite EX, EY. unfold m in *. change (2 ^ 64) with (2 ^ 32 * 2 ^ 32). 
    transitivity (2 ^ 32 * 2 ^ 32 * (x1 * y1) + 2 ^ 32 * (x1 * y0) + 2 ^ 32 * (x0 * y1) + x0 * y0); [ring|].
    rewrite Em. ring. }
  assert (P : 0 <= x0 * y0 < 2 ^ 64) by nia.
  clearbody t u m ml mh sx sy. clear X0 Y0 X1 Y1 EX EY Bm Em Hx Hy. 
  change (2 ^ 64) with (2 ^ 32 * 2 ^ 32) in *. lia.
Qed.
