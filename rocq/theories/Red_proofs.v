(** * Proofs about modular reductions and vector additions *)
From Coq Require Import ZArith List Lia Bool Psatz.
From Verif Require Import Delayed_model Delayed_spec Delayed_proofs Red_model Red_spec.
Import ListNotations.
Open Scope Z_scope.

(** ** Rounding is monotone with respect to representable numbers *)

Lemma rnd_opp prec z : rnd prec (- z) = - rnd prec z.
Proof.
  unfold rnd. destruct (Z.ltb_spec (- z) 0), (Z.ltb_spec z 0); try lia.
  - rewrite Z.opp_involutive. reflexivity.
  - assert (z = 0) by lia. subst z. cbn [Z.opp]. unfold rnd_pos.
    rewrite (proj2 (Z.leb_le _ _)); [reflexivity|]. apply Z.pow_nonneg. lia.
Qed.

Section Rnd.
Variables (prec : Z).
Hypothesis Hprec : 1 <= prec.

Lemma rnd_pos_shape z : 2 ^ prec < z ->
  exists e q r, 1 <= e /\ z = q * 2 ^ e + r /\ 0 <= r < 2 ^ e /\
    2 ^ (prec - 1) <= q /\ q < 2 ^ prec /\
    (rnd_pos prec z = q * 2 ^ e \/ (rnd_pos prec z = (q + 1) * 2 ^ e /\ 0 < r)).
Proof.
  intro Hz. pose (e := Z.log2 z + 1 - prec).
  assert (P : 0 < 2 ^ prec) by (apply Z.pow_pos_nonneg; lia).
  assert (L : prec <= Z.log2 z) by (apply Z.log2_le_pow2; lia).
  assert (E : 0 < 2 ^ e) by (apply Z.pow_pos_nonneg; unfold e; lia).
  assert (S := Z.log2_spec z ltac:(lia)).
  exists e, (z / 2 ^ e), (z mod 2 ^ e).
  assert (D := Z.div_mod z (2 ^ e) ltac:(lia)).
  assert (B := Z.mod_pos_bound z (2 ^ e) E).
  split; [unfold e; lia|]. split; [lia|]. split; [lia|].
  split. { apply Z.div_le_lower_bound; [lia|]. rewrite <- Z.pow_add_r by (unfold e; lia).
    replace (e + (prec - 1)) with (Z.log2 z) by (unfold e; lia). lia. }
  split. { apply Z.div_lt_upper_bound; [lia|]. rewrite <- Z.pow_add_r by (unfold e; lia).
    replace (e + prec) with (Z.succ (Z.log2 z)) by (unfold e; lia). lia. }
  unfold rnd_pos. rewrite (proj2 (Z.leb_gt _ _)) by lia. fold e.
  destruct (Z.ltb_spec (2 * (z mod 2 ^ e)) (2 ^ e)); [left; reflexivity|].
  destruct (Z.ltb_spec (2 ^ e) (2 * (z mod 2 ^ e))); [right; split; [reflexivity|lia]|].
  destruct (Z.even (z / 2 ^ e)); [left; reflexivity|right; split; [reflexivity|lia]].
Qed.

(** m * 2^j, with 0 <= m <= 2^prec, at least 2^(prec-1+e), is a multiple of 2^e *)
Lemma rep_multiple m j e : 0 <= m <= 2 ^ prec -> 0 <= j -> 1 <= e ->
  2 ^ (prec - 1) * 2 ^ e <= m * 2 ^ j -> exists d, m * 2 ^ j = d * 2 ^ e.
Proof.
  intros Hm Hj He H.
  assert (P : 0 < 2 ^ (prec - 1)) by (apply Z.pow_pos_nonneg; lia).
  assert (PP : 2 ^ prec = 2 * 2 ^ (prec - 1)).
  { rewrite <- Z.pow_succ_r by lia. f_equal. lia. }
  destruct (Z_le_gt_dec e j) as [L|G].
  - exists (m * 2 ^ (j - e)). rewrite <- Z.mul_assoc, <- Z.pow_add_r by lia. do 2 f_equal. lia.
  - assert (J : 0 < 2 ^ j) by (apply Z.pow_pos_nonneg; lia).
    destruct (Z.eq_dec j (e - 1)) as [->|N].
    + assert (Ee : 2 ^ e = 2 * 2 ^ (e - 1)). { rewrite <- Z.pow_succ_r by lia. f_equal. lia. }
      assert (m = 2 ^ prec) by nia. subst m. exists (2 ^ (prec - 1)). rewrite PP, Ee. ring.
    + exfalso. assert (Ee : 2 ^ e = 4 * 2 ^ (e - 2 - j) * 2 ^ j).
      { rewrite <- Z.mul_assoc, <- Z.pow_add_r by lia. change 4 with (2 ^ 2).
        rewrite <- Z.pow_add_r by lia. f_equal. lia. }
      assert (1 <= 2 ^ (e - 2 - j)). { assert (0 < 2 ^ (e - 2 - j)) by (apply Z.pow_pos_nonneg; lia). lia. }
      assert (4 * 2 ^ j <= 2 ^ e) by nia. nia.
Qed.

Lemma rnd_pos_le z m j : 0 <= z -> 0 <= m <= 2 ^ prec -> 0 <= j ->
  z <= m * 2 ^ j -> rnd_pos prec z <= m * 2 ^ j.
Proof.
  intros Hz Hm Hj H. destruct (Z_le_gt_dec z (2 ^ prec)) as [L|G].
  { unfold rnd_pos. rewrite (proj2 (Z.leb_le _ _)) by lia. lia. }
  destruct (rnd_pos_shape z) as (e & q & r & He & Ez & Br & Q1 & Q2 & [->|[-> R]]); try lia.
  assert (E : 0 < 2 ^ e) by (apply Z.pow_pos_nonneg; lia).
  destruct (rep_multiple m j e) as [d Ed]; try lia; [nia|].
  rewrite Ed in H |- *. assert (q < d) by nia. nia.
Qed.

Lemma rnd_pos_ge z m j : 0 <= z -> 0 <= m <= 2 ^ prec -> 0 <= j ->
  m * 2 ^ j <= z -> m * 2 ^ j <= rnd_pos prec z.
Proof.
  intros Hz Hm Hj H. destruct (Z_le_gt_dec z (2 ^ prec)) as [L|G].
  { unfold rnd_pos. rewrite (proj2 (Z.leb_le _ _)) by lia. lia. }
  destruct (rnd_pos_shape z) as (e & q & r & He & Ez & Br & Q1 & Q2 & C); try lia.
  assert (E : 0 < 2 ^ e) by (apply Z.pow_pos_nonneg; lia).
  assert (m * 2 ^ j <= q * 2 ^ e).
  { destruct (Z_le_gt_dec (2 ^ (prec - 1) * 2 ^ e) (m * 2 ^ j)) as [L2|G2]; [|nia].
    destruct (rep_multiple m j e) as [d Ed]; try lia. rewrite Ed in *. assert (d < q + 1) by nia. nia. }
  destruct C as [->|[-> R]]; nia.
Qed.

Lemma rnd_pos_nonneg z : 0 <= z -> 0 <= rnd_pos prec z.
Proof.
  intro H. assert (0 < 2 ^ prec) by (apply Z.pow_pos_nonneg; lia).
  pose proof (rnd_pos_ge z 0 0 H). lia.
Qed.

Lemma rnd_ge z n k : Z.abs n <= 2 ^ prec -> 0 <= k -> n * 2 ^ k <= z -> n * 2 ^ k <= rnd prec z.
Proof.
  intros Hn Hk H. assert (K : 0 < 2 ^ k) by (apply Z.pow_pos_nonneg; lia).
  unfold rnd. destruct (Z.ltb_spec z 0).
  - assert (n < 0) by nia. pose proof (rnd_pos_le (- z) (- n) k). nia.
  - pose proof (rnd_pos_nonneg z ltac:(lia)). destruct (Z_lt_le_dec n 0); [nia|].
    apply rnd_pos_ge; lia.
Qed.

Lemma rnd_le z n k : Z.abs n <= 2 ^ prec -> 0 <= k -> z <= n * 2 ^ k -> rnd prec z <= n * 2 ^ k.
Proof.
  intros Hn Hk H. pose proof (rnd_ge (- z) (- n) k). rewrite rnd_opp in *. lia.
Qed.

(** ** The quotient is off by at most one *)

Section Quot.
Variables (A B : Z).
Hypothesis HB : 2 <= B <= 2 ^ prec.
Hypothesis HA : Z.abs A <= 2 ^ prec.

Lemma inv_mant_spec :
  let K := 2 ^ inv_exp prec B in
  2 ^ prec * B < 2 * K /\ 0 < K /\ 2 * K - B < 2 * (inv_mant prec B * B) <= 2 * K + B.
Proof.
  cbn zeta. assert (L0 : 0 <= Z.log2 B) by apply Z.log2_nonneg.
  assert (S := Z.log2_spec B ltac:(lia)).
  assert (KE : 2 ^ inv_exp prec B = 2 ^ prec * 2 ^ Z.log2 B).
  { unfold inv_exp. rewrite Z.pow_add_r by lia. reflexivity. }
  assert (P : 0 < 2 ^ prec) by (apply Z.pow_pos_nonneg; lia).
  rewrite Z.pow_succ_r in S by lia.
  assert (K0 : 0 < 2 ^ inv_exp prec B) by (rewrite KE; nia).
  split; [rewrite KE; nia|]. split; [exact K0|].
  unfold inv_mant. rewrite Z.pow_add_r by (unfold inv_exp; lia). change (2 ^ 1) with 2.
  set (K := 2 ^ inv_exp prec B) in *.
  pose proof (Z.div_mod (K * 2 + B) (2 * B) ltac:(lia)).
  pose proof (Z.mod_pos_bound (K * 2 + B) (2 * B) ltac:(lia)). lia.
Qed.

Lemma qfloor_spec : exists n r, A = n * B + r /\ 0 <= r < B /\
  (qfloor prec A B = n \/ qfloor prec A B = n + 1 \/ (qfloor prec A B = n - 1 /\ r = 0)).
Proof.
  destruct inv_mant_spec as (K1 & K0 & M1 & M2). unfold qfloor.
  set (k := inv_exp prec B) in *. set (K := 2 ^ k) in *. set (mi := inv_mant prec B) in *.
  assert (k0 : 0 <= k) by (unfold k, inv_exp; pose proof (Z.log2_nonneg B); lia).
  assert (P : 2 <= 2 ^ prec).
  { replace prec with (Z.succ (prec - 1)) by lia. rewrite Z.pow_succ_r by lia.
    assert (0 < 2 ^ (prec - 1)) by (apply Z.pow_pos_nonneg; lia). lia. }
  exists (A / B), (A mod B).
  assert (D := Z.div_mod A B ltac:(lia)). assert (R := Z.mod_pos_bound A B ltac:(lia)).
  set (n := A / B) in *. set (r := A mod B) in *. clearbody n r.
  split; [lia|]. split; [lia|].
  assert (PE : exists w, 2 ^ prec = 2 * w /\ 1 <= w).
  { exists (2 ^ (prec - 1)). rewrite <- Z.pow_succ_r by lia. split; [f_equal; lia|].
    assert (0 < 2 ^ (prec - 1)) by (apply Z.pow_pos_nonneg; lia). lia. }
  destruct PE as (w & PE & W1).
  assert (N : - w - 1 < n <= w) by nia.
  (* |A*mi*B - A*K| <= |A|*B/2 *)
  assert (Err : 2 * Z.abs (A * (mi * B) - A * K) <= Z.abs A * B).
  { replace (A * (mi * B) - A * K) with (A * (mi * B - K)) by ring. rewrite Z.abs_mul.
    assert (2 * Z.abs (mi * B - K) <= B) by lia. nia. }
  assert (AB : Z.abs A * B < 2 * K) by nia.
  assert (AK : A * K = n * K * B + r * K) by (rewrite D; ring).
  assert (AM : A * (mi * B) = A * mi * B) by ring.
  set (x := A * mi) in *. rewrite AM, AK in Err.
  (* upper bound *)
  assert (rK : r * K <= B * K - K) by (clear - R K0; nia).
  assert (U : x <= (n + 1) * K).
  { assert (x * B < (n + 1) * K * B) by (replace ((n+1)*K*B) with (n*K*B + B*K) by ring; lia).
    apply Z.mul_le_mono_pos_r with B; lia. }
  assert (U' : rnd prec x <= (n + 1) * K) by (apply rnd_le; lia).
  assert (Q1 : rnd prec x / K <= n + 1).
  { apply Z.div_le_upper_bound; lia. }
  destruct (Z.eq_dec r 0) as [R0|R1].
  - assert (V : (n - 1) * K <= x).
    { assert ((n - 1) * K * B <= x * B) by (replace ((n-1)*K*B) with (n*K*B - B*K) by ring; rewrite R0 in *; nia).
      apply Z.mul_le_mono_pos_r with B; lia. }
    assert (V' : (n - 1) * K <= rnd prec x) by (apply rnd_ge; lia).
    assert (n - 1 <= rnd prec x / K) by (apply Z.div_le_lower_bound; lia). lia.
  - assert (V : n * K <= x).
    { assert (K <= r * K) by (clear - K0 R R1; nia).
      apply Z.mul_le_mono_pos_r with B; lia. }
    assert (V' : n * K <= rnd prec x) by (apply rnd_ge; lia).
    assert (n <= rnd prec x / K) by (apply Z.div_le_lower_bound; lia). lia.
Qed.

End Quot.
End Rnd.

(** ** Scalar and SIMD reductions *)

Lemma sub_mul_exact prec fma A B Q : 1 <= prec -> Z.abs (A - Q * B) <= 2 ^ prec ->
  (fma = false -> Z.abs (Q * B) <= 2 ^ prec) -> sub_mul prec fma A Q B = A - Q * B.
Proof.
  intros. unfold sub_mul. destruct fma.
  - apply rnd_exact; lia.
  - rewrite (rnd_exact prec (Q * B)) by auto. apply rnd_exact; lia.
Qed.

Lemma reduce_flt_ok F prec fma A : wf F -> 1 <= prec -> fp F <= 2 ^ prec ->
  Z.abs A <= 2 ^ prec -> (fma = false -> Z.abs A + fp F <= 2 ^ prec) ->
  is_repr (fp F) (flo F) A (reduce_flt prec fma A (fp F) (flo F) (fhi F)).
Proof.
  intros [W1 W2] Hp HB HA HN. unfold fhi in *. set (p := fp F) in *. set (lo := flo F) in *.
  destruct (qfloor_spec prec Hp A p) as (n & r & E & R & Q); try lia.
  unfold reduce_flt. set (q := qfloor prec A p) in *.
  assert (C : q * p = A - r \/ q * p = A - r + p \/ (q * p = A - p /\ r = 0)).
  { destruct Q as [-> | [-> | [-> ->]]]; [left|right; left|right; right]; lia. }
  assert (S : sub_mul prec fma A q p = A - q * p).
  { apply sub_mul_exact; [lia|lia|]. intro X. specialize (HN X). lia. }
  rewrite S. set (a := A - q * p) in *.
  assert (C' : a = r \/ a = r - p \/ (a = p /\ r = 0)) by (unfold a; lia).
  assert (Hq : A = a + q * p) by (unfold a; ring). clearbody a q.
  destruct (Z.ltb_spec a lo).
  - rewrite (rnd_exact prec (a + p)) by lia.
    rewrite (proj2 (Z.ltb_ge _ _)) by lia. split; [lia|]. exists (1 - q). lia.
  - destruct (Z.ltb_spec (lo + p - 1) a).
    + rewrite rnd_exact by lia. split; [lia|]. exists (-1 - q). lia.
    + split; [lia|]. exists (- q). lia.
Qed.

Lemma mod_simd_ok F prec A : wf F -> 1 <= prec -> fp F <= 2 ^ prec -> Z.abs A <= 2 ^ prec ->
  is_repr (fp F) (flo F) A (mod_simd prec A (fp F) (flo F) (fhi F)).
Proof.
  intros [W1 W2] Hp HB HA. unfold fhi in *. set (p := fp F) in *. set (lo := flo F) in *.
  destruct (qfloor_spec prec Hp A p) as (n & r & E & R & Q); try lia.
  unfold mod_simd. set (q := qfloor prec A p) in *.
  assert (C : q * p = A - r \/ q * p = A - r + p \/ (q * p = A - p /\ r = 0)).
  { destruct Q as [-> | [-> | [-> ->]]]; [left|right; left|right; right]; lia. }
  assert (S : sub_mul prec true A q p = A - q * p).
  { apply sub_mul_exact; [lia|lia|discriminate]. }
  rewrite S. set (a := A - q * p) in *.
  assert (C' : a = r \/ a = r - p \/ (a = p /\ r = 0)) by (unfold a; lia).
  assert (Hq : A = a + q * p) by (unfold a; ring). clearbody a q.
  destruct (Z.ltb_spec (lo + p - 1) a).
  - rewrite rnd_exact by lia. split; [lia|]. exists (-1 - q). lia.
  - destruct (Z.ltb_spec a lo); rewrite rnd_exact by lia.
    + split; [lia|]. exists (1 - q). lia.
    + split; [lia|]. exists (- q). lia.
Qed.

Lemma wrap_id bits z : 1 <= bits -> - 2 ^ (bits - 1) <= z < 2 ^ (bits - 1) -> wrap bits z = z.
Proof.
  intros Hb H. unfold wrap.
  assert (2 ^ bits = 2 * 2 ^ (bits - 1)). { rewrite <- Z.pow_succ_r by lia. f_equal. lia. }
  rewrite Z.mod_small; lia.
Qed.

Lemma is_repr_trans p lo a b r : (exists q, b - a = q * p) -> is_repr p lo b r -> is_repr p lo a r.
Proof. intros [q1 E1] [H [q2 E2]]. split; [exact H|]. exists (q1 + q2). lia. Qed.

(** The values on which int64 reduction works: no intermediate overflow. *)
Lemma reduce_int64_ok F fma vec A : wf F -> fp F < 2 ^ 33 -> - 2 ^ 63 <= A < 2 ^ 63 ->
  is_repr (fp F) (flo F) A (reduce_int64 fma vec A (fp F) (flo F) (fhi F)).
Proof.
  intros W HB HA. pose proof W as [W1 W2]. unfold reduce_int64.
  rewrite Z.shiftr_div_pow2 by lia. change (2 ^ 50 - 1) with (Z.ones 50).
  rewrite Z.land_ones by lia.
  pose proof (Z.div_mod A (2 ^ 50) ltac:(lia)). pose proof (Z.mod_pos_bound A (2 ^ 50) ltac:(lia)).
  set (q := A / 2 ^ 50) in *. set (r := A mod 2 ^ 50) in *.
  pose proof (Z.div_mod (2 ^ 50) (fp F) ltac:(lia)). pose proof (Z.mod_pos_bound (2 ^ 50) (fp F) ltac:(lia)).
  set (c := 2 ^ 50 mod fp F) in *. set (d := 2 ^ 50 / fp F) in *.
  change (2 ^ 50) with 1125899906842624 in *. change (2 ^ 63) with 9223372036854775808 in *.
  change (2 ^ 33) with 8589934592 in *.
  assert (Bq : -8192 <= q < 8192) by (clearbody q r c d; lia).
  assert (Bc : Z.abs (q * c) <= 8192 * 8589934592).
  { rewrite Z.abs_mul. clearbody q r c d. nia. }
  assert (T63 : 2 ^ (64 - 1) = 9223372036854775808) by reflexivity.
  rewrite (wrap_id 64 (q * c)) by (rewrite ?T63; clearbody q r c d; lia).
  rewrite (wrap_id 64 (q * c + r)) by (rewrite ?T63; clearbody q r c d; lia).
  assert (T53 : 2 ^ 53 = 9007199254740992) by reflexivity.
  rewrite (rnd_exact 53) by (rewrite T53; clearbody q r c d; lia).
  apply is_repr_trans with (q * c + r).
  { exists (- q * d). clearbody q r c d. nia. }
  destruct vec; [apply mod_simd_ok|apply reduce_flt_ok]; rewrite ?T53; auto; clearbody q r c d; lia.
Qed.

(** ** One lane of the SIMD field operations *)

Lemma stored_id s M z : holds s M -> Z.abs z <= M -> stored s z = z.
Proof.
  destruct s; cbn; intros [H1 H2] Hz.
  - apply rnd_exact. lia.
  - apply wrap_id; lia.
Qed.

Section Ops.
Variables (F : fld) (s : storage) (a b : Z).
Hypothesis W : wf F.
Hypothesis Hs : holds s (2 * fp F).
Hypothesis Ha : reduced (fp F) (flo F) a.
Hypothesis Hb : reduced (fp F) (flo F) b.

Ltac fin := repeat rewrite (stored_id s (2 * fp F)) by (auto; lia).
Ltac wit := first [ split; [lia| first [exists 0; lia | exists 1; lia | exists (-1); lia]] ].

Lemma bounds : 2 <= fp F /\ flo F <= 0 <= fhi F /\ fhi F = flo F + fp F - 1 /\
  flo F <= a <= fhi F /\ flo F <= b <= fhi F.
Proof. destruct W. unfold fhi, reduced in *. lia. Qed.

Lemma fs_add_ok : flo F = 0 ->
  is_repr (fp F) (flo F) (a + b) (fs_add s (fp F) (fhi F) a b).
Proof.
  intro Z0. destruct bounds as (B1 & B2 & B3 & B4 & B5). unfold fs_add, is_repr. cbv zeta.
  rewrite (stored_id s (2 * fp F) (a + b)) by (auto; lia).
  destruct (Z.ltb_spec (fhi F) (a + b)); fin; wit.
Qed.

Lemma fs_sub3_ok : flo F = 0 ->
  is_repr (fp F) (flo F) (a - b) (fs_sub3 s (fp F) (flo F) a b).
Proof.
  intro Z0. destruct bounds as (B1 & B2 & B3 & B4 & B5). unfold fs_sub3, is_repr. cbv zeta.
  rewrite (stored_id s (2 * fp F) (a - b)) by (auto; lia).
  destruct (Z.ltb_spec (a - b) (flo F)); fin; wit.
Qed.

Lemma add_scalar_ok positive : (positive = true -> flo F = 0) ->
  is_repr (fp F) (flo F) (a + b) (add_scalar s positive (fp F) (flo F) (fhi F) a b).
Proof.
  intro Z0. destruct bounds as (B1 & B2 & B3 & B4 & B5). unfold add_scalar, is_repr. cbv zeta.
  rewrite (stored_id s (2 * fp F) (a + b)) by (auto; lia).
  destruct (Z.ltb_spec (fhi F) (a + b)).
  - rewrite (stored_id s (2 * fp F) (a + b - fp F)) by (auto; lia).
    destruct positive; [wit|]. rewrite (proj2 (Z.ltb_ge _ _)) by lia. fin. wit.
  - rewrite (stored_id s (2 * fp F) (a + b - 0)) by (auto; lia).
    destruct positive; [specialize (Z0 eq_refl); wit|].
    destruct (Z.ltb_spec (a + b - 0) (flo F)); fin; wit.
Qed.

Lemma add_lane_ok positive : (positive = true -> flo F = 0) ->
  is_repr (fp F) (flo F) (a + b) (add_lane s positive (fp F) (flo F) (fhi F) a b).
Proof.
  intro Z0. destruct bounds as (B1 & B2 & B3 & B4 & B5). unfold add_lane, is_repr. cbv zeta.
  rewrite (stored_id s (2 * fp F) (a + b)) by (auto; lia).
  destruct (Z.ltb_spec (fhi F) (a + b)); [fin; wit|].
  destruct positive; cbn [negb andb]; [specialize (Z0 eq_refl); fin; wit|].
  destruct (Z.ltb_spec (a + b) (flo F)); fin; wit.
Qed.

Lemma sub_scalar_ok positive : (positive = true -> flo F = 0) ->
  is_repr (fp F) (flo F) (a - b) (sub_scalar s positive (fp F) (flo F) (fhi F) a b).
Proof.
  intro Z0. destruct bounds as (B1 & B2 & B3 & B4 & B5). unfold sub_scalar, is_repr. cbv zeta.
  rewrite (stored_id s (2 * fp F) (a - b)) by (auto; lia).
  destruct positive; [specialize (Z0 eq_refl); destruct (Z.ltb_spec (a - b) (flo F)); fin; wit|].
  destruct (Z.ltb_spec (fhi F) (a - b)).
  - rewrite (stored_id s (2 * fp F) (a - b - fp F)) by (auto; lia).
    rewrite (proj2 (Z.ltb_ge _ _)) by lia. fin. wit.
  - rewrite (stored_id s (2 * fp F) (a - b - 0)) by (auto; lia).
    destruct (Z.ltb_spec (a - b - 0) (flo F)); fin; wit.
Qed.

Lemma sub_lane_ok positive : (positive = true -> flo F = 0) ->
  is_repr (fp F) (flo F) (a - b) (sub_lane s positive (fp F) (flo F) (fhi F) a b).
Proof.
  intro Z0. destruct bounds as (B1 & B2 & B3 & B4 & B5). unfold sub_lane, is_repr. cbv zeta.
  rewrite (stored_id s (2 * fp F) (a - b)) by (auto; lia).
  destruct positive; cbn [negb andb].
  - specialize (Z0 eq_refl). destruct (Z.ltb_spec (a - b) (flo F)); fin; wit.
  - destruct (Z.ltb_spec (fhi F) (a - b)); [fin; wit|].
    destruct (Z.ltb_spec (a - b) (flo F)); fin; wit.
Qed.
End Ops.

(** ** Vectorised loops *)

Section Loops.
Variables (R : Z -> Z -> Z -> Prop) (fs fv : Z -> Z -> Z) (vs t a b n : nat) (m0 : mem).
Hypothesis Hvs : (0 < vs)%nat.
Hypothesis Ta : same_or_disjoint t a n.
Hypothesis Tb : same_or_disjoint t b n.
Hypothesis Rs : forall i, (i < n)%nat ->
  R (m0 (a + i)%nat) (m0 (b + i)%nat) (fs (m0 (a + i)%nat) (m0 (b + i)%nat)).
Hypothesis Rv : forall i, (i < n)%nat ->
  R (m0 (a + i)%nat) (m0 (b + i)%nat) (fv (m0 (a + i)%nat) (m0 (b + i)%nat)).

Definition inv (i : nat) (m : mem) : Prop := (i <= n)%nat /\ elementwise R t a b i m0 m.

Lemma inv_read i j x m : inv i m -> same_or_disjoint t x n -> (i <= j < n)%nat -> m (x + j)%nat = m0 (x + j)%nat.
Proof.
  intros [L [_ E]] S J. apply E. unfold same_or_disjoint in S. lia.
Qed.

Lemma scalar_step_inv i m : inv i m -> (i < n)%nat -> inv (S i) (scalar_step fs t a b i m).
Proof.
  intros I L. split; [lia|]. unfold scalar_step. split.
  - intros j J. destruct (Nat.eqb_spec (t + j) (t + i)) as [E|E].
    + assert (j = i) by lia. subst j.
      rewrite (inv_read i i a m), (inv_read i i b m) by (auto; lia). apply Rs; lia.
    + apply I. lia.
  - intros x X. destruct (Nat.eqb_spec x (t + i)); [lia|]. apply I. lia.
Qed.

Lemma scalar_loop_inv k : forall i m, inv i m -> (i + k <= n)%nat ->
  inv (i + k) (scalar_loop fs t a b k i m).
Proof.
  induction k; intros i m I L; cbn.
  - rewrite Nat.add_0_r. exact I.
  - replace (i + S k)%nat with (S i + k)%nat by lia. apply IHk; [|lia].
    apply scalar_step_inv; [exact I|lia].
Qed.

Lemma vector_step_inv i m : inv i m -> (i + vs <= n)%nat -> inv (i + vs) (vector_step vs fv t a b i m).
Proof.
  intros I L. split; [lia|]. unfold vector_step. split.
  - intros j J. destruct (Nat.leb_spec (t + i) (t + j)), (Nat.ltb_spec (t + j) (t + i + vs)); cbn [andb];
      try (apply I; lia); try lia.
    replace (t + j - t)%nat with j by lia.
    rewrite (inv_read i j a m), (inv_read i j b m) by (auto; lia). apply Rv; lia.
  - intros x X. destruct (Nat.leb_spec (t + i) x), (Nat.ltb_spec x (t + i + vs)); cbn [andb];
      try (apply I; lia); lia.
Qed.

Lemma vector_loop_inv fuel : forall i m, inv i m -> (vs <= n)%nat ->
  let '(i', m') := vector_loop vs fv t a b fuel n i m in inv i' m'.
Proof.
  induction fuel; intros i m I L; cbn; [exact I|].
  destruct (Nat.leb_spec i (n - vs)); [|exact I].
  apply IHfuel; [|exact L]. apply vector_step_inv; [exact I|lia].
Qed.

Lemma inv_init : inv 0 m0.
Proof. split; [lia|]. split; [intros; lia|reflexivity]. Qed.

Lemma vloop_ok : elementwise R t a b n m0 (vloop vs fs fv t a b n m0).
Proof.
  unfold vloop. destruct (Nat.ltb_spec n vs).
  - apply (scalar_loop_inv n 0 m0 inv_init ltac:(lia)).
  - set (i0 := if (t mod vs =? 0)%nat then 0%nat else (vs - t mod vs)%nat).
    assert (L : (i0 <= n)%nat).
    { unfold i0. pose proof (Nat.mod_upper_bound t vs ltac:(lia)). destruct (t mod vs =? 0)%nat; lia. }
    assert (I := scalar_loop_inv i0 0 m0 inv_init ltac:(lia)). cbn [Nat.add] in I.
    set (m1 := scalar_loop fs t a b i0 0 m0) in *.
    set (P := if (((a + i0) mod vs =? 0) && ((b + i0) mod vs =? 0))%nat then vector_loop vs fv t a b (S n) n i0 m1 else (i0, m1)).
    assert (J : inv (fst P) (snd P)).
    { unfold P. destruct (_ && _)%bool; [|exact I].
      pose proof (vector_loop_inv (S n) i0 m1 I ltac:(lia)) as V.
      destruct (vector_loop _ _ _ _ _ _ _ _ _). exact V. }
    destruct P as [i m]. cbn [fst snd] in J.
    pose proof (proj1 J). pose proof (scalar_loop_inv (n - i) i m J ltac:(lia)) as K.
    replace (i + (n - i))%nat with n in K by lia. exact (proj2 K).
Qed.

End Loops.

Lemma strided_ok (f : Z -> Z -> Z) c incc a inca b incb m0 n : (0 < incc)%nat ->
  (forall i j, (i < j < n)%nat -> (c + i * incc)%nat <> (a + j * inca)%nat /\ (c + i * incc)%nat <> (b + j * incb)%nat) ->
  forall m, m = strided n 0 f c incc a inca b incb m0 ->
  (forall i, (i < n)%nat -> m (c + i * incc)%nat = f (m0 (a + i * inca)%nat) (m0 (b + i * incb)%nat)) /\
  (forall x, (forall i, (i < n)%nat -> x <> (c + i * incc)%nat) -> m x = m0 x).
Proof.
  intros Hc Hd m ->.
  assert (G : forall k i0 m1, (i0 + k = n)%nat ->
    (forall i, (i < i0)%nat -> m1 (c + i * incc)%nat = f (m0 (a + i * inca)%nat) (m0 (b + i * incb)%nat)) ->
    (forall x, (forall i, (i < i0)%nat -> x <> (c + i * incc)%nat) -> m1 x = m0 x) ->
    (forall i, (i < n)%nat -> strided k i0 f c incc a inca b incb m1 (c + i * incc)%nat
        = f (m0 (a + i * inca)%nat) (m0 (b + i * incb)%nat)) /\
    (forall x, (forall i, (i < n)%nat -> x <> (c + i * incc)%nat) ->
       strided k i0 f c incc a inca b incb m1 x = m0 x)).
  { induction k; intros i0 m1 L D U; cbn.
    - assert (i0 = n) by lia. subst i0. split; assumption.
    - apply IHk; [lia| |].
      + intros i I. destruct (Nat.eqb_spec (c + i * incc) (c + i0 * incc)) as [E|E].
        * assert (i = i0) by nia. subst i. rewrite !U; [reflexivity| |]; intros j J EJ;
            [apply (proj2 (Hd j i0 ltac:(lia)))|apply (proj1 (Hd j i0 ltac:(lia)))]; lia.
        * apply D. destruct (Nat.eq_dec i i0); [subst; congruence|lia].
      + intros x X. destruct (Nat.eqb_spec x (c + i0 * incc)); [exfalso; apply (X i0); lia|].
        apply U. intros i I. apply X. lia. }
  apply G; [lia|intros; lia|reflexivity].
Qed.

Lemma fadd_generic_ok fa fs ADD n a inca b incb c incc m :
  strided_safe n c incc a inca b incb ->
  (ADD = true \/ (inca = 1 /\ incb = 1 /\ incc = 1)%nat) ->
  strided_result (if ADD then fa else fs) n c incc a inca b incb m
    (fadd_generic fa fs ADD n a inca b incb c incc m).
Proof.
  intros [H1 H2] H. unfold fadd_generic, strided_result.
  destruct ((inca =? 1) && (incb =? 1) && (incc =? 1))%nat eqn:E.
  - apply andb_prop in E as [E E3]. apply andb_prop in E as [E1 E2].
    apply Nat.eqb_eq in E1, E2, E3. subst. apply (strided_ok (if ADD then fa else fs) c 1 a 1 b 1 m n); auto.
  - destruct H as [-> | (-> & -> & ->)]; [|discriminate].
    apply (strided_ok fa c incc a inca b incb m n); auto.
Qed.

(** ** Statements on vectors *)

Lemma modp_flt_ok F prec fma vs t u n m : wf F -> 1 <= prec -> fp F <= 2 ^ prec ->
  (0 < vs)%nat -> same_or_disjoint t u n ->
  (forall i, (i < n)%nat -> Z.abs (m (u + i)%nat) <= 2 ^ prec) ->
  (fma = false -> forall i, (i < n)%nat -> Z.abs (m (u + i)%nat) + fp F <= 2 ^ prec) ->
  elementwise (fun x _ y => is_repr (fp F) (flo F) x y) t u u n m
    (modp_flt prec fma (fp F) (flo F) (fhi F) vs t u n m).
Proof.
  intros W Hp HB Hv Hd HA HN. unfold modp_flt. apply vloop_ok; auto; intros i I.
  - apply reduce_flt_ok; auto.
  - apply mod_simd_ok; auto.
Qed.

Lemma modp_int64_ok F fma vs t u n m : wf F -> fp F < 2 ^ 33 ->
  (0 < vs)%nat -> same_or_disjoint t u n ->
  (forall i, (i < n)%nat -> - 2 ^ 63 <= m (u + i)%nat < 2 ^ 63) ->
  elementwise (fun x _ y => is_repr (fp F) (flo F) x y) t u u n m
    (modp_int64 fma (fp F) (flo F) (fhi F) vs t u n m).
Proof.
  intros W HB Hv Hd HA. unfold modp_int64. apply vloop_ok; auto; intros i I; apply reduce_int64_ok; auto.
Qed.

Lemma addsub_ok F s positive vs t a b n m : wf F -> holds s (2 * fp F) ->
  (positive = true -> flo F = 0) -> (0 < vs)%nat ->
  same_or_disjoint t a n -> same_or_disjoint t b n ->
  (forall i, (i < n)%nat -> reduced (fp F) (flo F) (m (a + i)%nat) /\ reduced (fp F) (flo F) (m (b + i)%nat)) ->
  elementwise (fun x y z => is_repr (fp F) (flo F) (x + y) z) t a b n m
    (addp s positive (fp F) (flo F) (fhi F) vs t a b n m) /\
  elementwise (fun x y z => is_repr (fp F) (flo F) (x - y) z) t a b n m
    (subp s positive (fp F) (flo F) (fhi F) vs t a b n m).
Proof.
  intros W Hs HP Hv Ha Hb HR. unfold addp, subp.
  split; apply vloop_ok; auto; intros i I; destruct (HR i I) as [R1 R2].
  - apply add_scalar_ok; auto.
  - apply add_lane_ok; auto.
  - apply sub_scalar_ok; auto.
  - apply sub_lane_ok; auto.
Qed.

Lemma fieldsimd_ok F s a b : wf F -> flo F = 0 -> holds s (2 * fp F) ->
  reduced (fp F) (flo F) a -> reduced (fp F) (flo F) b ->
  is_repr (fp F) (flo F) (a + b) (fs_add s (fp F) (fhi F) a b) /\
  is_repr (fp F) (flo F) (a - b) (fs_sub3 s (fp F) (flo F) a b).
Proof. intros. split; [apply fs_add_ok|apply fs_sub3_ok]; auto. Qed.

Lemma fieldsimd_mul_ok F prec a b c : wf F -> 2 <= prec ->
  absmax F * absmax F + absmax F <= 2 ^ prec ->
  reduced (fp F) (flo F) a -> reduced (fp F) (flo F) b -> reduced (fp F) (flo F) c ->
  is_repr (fp F) (flo F) (a * b) (fs_mul prec (fp F) (flo F) (fhi F) a b) /\
  is_repr (fp F) (flo F) (a * b + c) (fs_axpy prec (fp F) (flo F) (fhi F) a b c) /\
  is_repr (fp F) (flo F) (a * b - c) (fs_maxpy prec (fp F) (flo F) (fhi F) a b c).
Proof.
  intros W Hp HM Ha Hb Hc.
  assert (A := absmax_ok F a). assert (B := absmax_ok F b). assert (C := absmax_ok F c).
  unfold reduced in *. unfold fhi in A, B, C. specialize (A Ha). specialize (B Hb). specialize (C Hc).
  assert (P := abs_mul_le a b _ A B). assert (M1 := absmax_pos F W).
  assert (HB : fp F <= 2 ^ prec).
  { destruct W as [W1 W2]. assert (fp F <= absmax F + absmax F + 1) by (unfold absmax, fhi in *; lia).
    destruct (Z.eq_dec (absmax F) 1) as [E|E]; [|nia].
    rewrite E in *. assert (fp F <= 3) by lia.
    assert (2 ^ 2 <= 2 ^ prec) by (apply Z.pow_le_mono_r; lia). lia. }
  unfold fs_mul, fs_axpy, fs_maxpy.
  rewrite !rnd_exact by lia. split; [|split]; apply mod_simd_ok; auto; lia.
Qed.
