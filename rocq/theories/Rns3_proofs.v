From Coq Require Import ZArith Znumtheory List Lia Bool Permutation.
From Verif Require Import Delayed_model Delayed_spec Delayed_proofs Red_model Red_proofs Rns_model Rns_spec Rns_proofs Rns2_proofs.
Import ListNotations.
Open Scope Z_scope.

(** ** Errors of summation *)
Lemma rnd_pos_err prec z : 1 <= prec -> 0 <= z -> 2 ^ prec * Z.abs (rnd_pos prec z - z) <= z.
Proof.
  intros Hp Hz. unfold rnd_pos. destruct (Z.leb_spec z (2 ^ prec)) as [L|G].
  { rewrite Z.sub_diag. cbn. lia. }
  assert (P0 : 0 < 2 ^ prec) by (apply Z.pow_pos_nonneg; lia).
  pose proof (Z.log2_spec z ltac:(lia)) as [L1 L2].
  assert (Hlog : prec <= Z.log2 z).
  { destruct (Z.le_gt_cases prec (Z.log2 z)); auto.
    assert (2 ^ Z.succ (Z.log2 z) <= 2 ^ prec) by (apply Z.pow_le_mono_r; lia). lia. }
  set (e := Z.log2 z + 1 - prec). set (u := 2 ^ e).
  assert (Hu : 2 ^ prec * u = 2 * 2 ^ Z.log2 z).
  { unfold u, e. rewrite <- Z.pow_add_r by lia. replace (prec + (Z.log2 z + 1 - prec)) with (1 + Z.log2 z) by lia.
    rewrite Z.pow_add_r by (try lia; apply Z.log2_nonneg). reflexivity. }
  assert (U0 : 0 < u) by (apply Z.pow_pos_nonneg; unfold e; lia).
  pose proof (Z.div_mod z u ltac:(lia)) as D. pose proof (Z.mod_pos_bound z u U0) as B.
  set (q := z / u) in *. set (r := z mod u) in *. cbn zeta.
  assert (K : forall w, (w = q * u \/ w = (q + 1) * u) -> 2 * Z.abs (w - z) <= u -> 2 ^ prec * Z.abs (w - z) <= z).
  { intros w _ Hw. nia. }
  destruct (Z.ltb_spec (2 * r) u); [apply K; [auto|lia]|].
  destruct (Z.ltb_spec u (2 * r)); [apply K; [auto|lia]|].
  destruct (Z.even q); apply K; auto; lia.
Qed.

Lemma rnd_err prec z : 1 <= prec -> 2 ^ prec * Z.abs (rnd prec z - z) <= Z.abs z.
Proof.
  intro Hp. unfold rnd. destruct (Z.ltb_spec z 0).
  - pose proof (rnd_pos_err prec (- z) Hp ltac:(lia)). lia.
  - pose proof (rnd_pos_err prec z Hp ltac:(lia)). lia.
Qed.

Lemma err_cancel P d a e : 0 < P -> 0 <= a -> 2 * d <= P -> P * e <= 2 * d * a -> e <= a.
Proof.
  intros H1 H2 H3 H4. apply (Z.mul_le_mono_pos_l e a P H1).
  eapply Z.le_trans; [exact H4|]. now apply Z.mul_le_mono_nonneg_r.
Qed.
Lemma err_step P d a e w t v : 0 < P -> P * w <= v -> v <= 2 * a -> t <= w + e -> P * e <= 2 * d * a ->
  P * t <= 2 * (d + 1) * a.
Proof.
  intros H1 H2 H3 H4 H5. apply Z.le_trans with (P * (w + e)); [apply Z.mul_le_mono_nonneg_l; lia|].
  rewrite Z.mul_add_distr_l. lia.
Qed.

Lemma eval_err prec t : 1 <= prec -> 2 * Z.of_nat (depth t) <= 2 ^ prec ->
  2 ^ prec * Z.abs (eval prec t - lsum (leaves t)) <= 2 * Z.of_nat (depth t) * labs (leaves t).
Proof.
  intro Hp. assert (P0 : 0 < 2 ^ prec) by (apply Z.pow_pos_nonneg; lia).
  assert (N : forall l, 0 <= labs l) by (intro l; pose proof (lsum_le_labs l); lia).
  induction t as [|z|l IHl r IHr|z t IH]; intro Hd; cbn [eval leaves depth] in *.
  - cbn. lia.
  - pose proof (rnd_err prec z Hp). replace (lsum [z]) with z by (cbn; lia).
    replace (labs [z]) with (Z.abs z) by (rewrite labs_cons; cbn; lia). lia.
  - rewrite lsum_app, labs_app. set (d := Nat.max (depth l) (depth r)) in *.
    specialize (IHl ltac:(lia)). specialize (IHr ltac:(lia)).
    pose proof (rnd_err prec (eval prec l + eval prec r) Hp) as E.
    pose proof (N (leaves l)). pose proof (N (leaves r)).
    pose proof (lsum_le_labs (leaves l)). pose proof (lsum_le_labs (leaves r)).
    assert (Hl : 2 ^ prec * Z.abs (eval prec l - lsum (leaves l)) <= 2 * Z.of_nat d * labs (leaves l)).
    { eapply Z.le_trans; [exact IHl|]. apply Z.mul_le_mono_nonneg_r; lia. }
    assert (Hr : 2 ^ prec * Z.abs (eval prec r - lsum (leaves r)) <= 2 * Z.of_nat d * labs (leaves r)).
    { eapply Z.le_trans; [exact IHr|]. apply Z.mul_le_mono_nonneg_r; lia. }
    assert (Hl' := err_cancel _ (Z.of_nat d) _ _ P0 H ltac:(lia) Hl).
    assert (Hr' := err_cancel _ (Z.of_nat d) _ _ P0 H0 ltac:(lia) Hr).
    replace (Z.of_nat (S d)) with (Z.of_nat d + 1) by lia.
    eapply (err_step _ _ _ (Z.abs (eval prec l - lsum (leaves l)) + Z.abs (eval prec r - lsum (leaves r))));
      [exact P0|exact E|lia|lia|].
    rewrite !Z.mul_add_distr_l. lia.
  - rewrite labs_cons. change (lsum (z :: leaves t)) with (z + lsum (leaves t)).
    specialize (IH ltac:(lia)).
    pose proof (N (leaves t)). pose proof (lsum_le_labs (leaves t)).
    pose proof (rnd_err prec (z + eval prec t) Hp) as E.
    assert (Hl' := err_cancel _ (Z.of_nat (depth t)) _ _ P0 H ltac:(lia) IH).
    replace (Z.of_nat (S (depth t))) with (Z.of_nat (depth t) + 1) by lia.
    eapply (err_step _ _ _ (Z.abs (eval prec t - lsum (leaves t)))); [exact P0|exact E|lia|lia|].
    eapply Z.le_trans; [exact IH|]. apply Z.mul_le_mono_nonneg_l; lia.
Qed.

Lemma err_add P e1 e2 gm w K : 0 < P -> 0 <= gm -> P * Z.abs e1 <= w -> P * Z.abs e2 <= K ->
  P * Z.abs (e1 + gm * e2) <= w + gm * K.
Proof.
  intros H1 H2 H3 H4. apply Z.le_trans with (P * (Z.abs e1 + gm * Z.abs e2)).
  - apply Z.mul_le_mono_nonneg_l; [lia|]. pose proof (Z.abs_triangle e1 (gm * e2)).
    rewrite (Z.abs_mul gm e2), (Z.abs_eq gm) in * by lia. lia.
  - rewrite Z.mul_add_distr_l. apply Z.add_le_mono; auto.
    rewrite Z.mul_assoc, (Z.mul_comm P gm), <- Z.mul_assoc. now apply Z.mul_le_mono_nonneg_l.
Qed.
Lemma err_total P d T w M e1 e2 t : 0 < P -> 0 <= d -> 0 <= T -> 0 <= M -> 0 <= w -> T * M <= 2 * w ->
  P * e1 <= 2 * d * T -> P * e2 <= w -> t <= e1 * M + e2 -> P * t <= (4 * d + 1) * w.
Proof.
  intros H1 H2 H3 H4 H5 H6 H7 H8 H9. apply Z.le_trans with (P * (e1 * M + e2)); [apply Z.mul_le_mono_nonneg_l; lia|].
  assert (P * e1 * M <= 2 * d * T * M) by (apply Z.mul_le_mono_nonneg_r; auto).
  assert (2 * d * (T * M) <= 2 * d * (2 * w)) by (apply Z.mul_le_mono_nonneg_l; lia).
  rewrite Z.mul_add_distr_l, Z.mul_assoc. lia.
Qed.
Lemma double_bound P v w : 2 <= P -> 0 <= w -> P * Z.abs (v - w) <= w -> v <= 2 * w.
Proof. intros. assert (2 * Z.abs (v - w) <= P * Z.abs (v - w)) by (apply Z.mul_le_mono_nonneg_r; lia). lia. Qed.
Lemma dist_arith P K M D e ax c1 c2 : 0 < P -> 0 < K -> 0 < M -> D * M <= e + ax * K ->
  P * e <= c1 * (M * K) -> P * (2 * ax) + M * (2 * c1 + c2) < P * M ->
  2 * P * D < K * (P - c2).
Proof.
  intros HP HK HM HD He Hc. apply (Zmult_lt_reg_r _ _ M); [lia|].
  assert (2 * P * (D * M) <= 2 * P * (e + ax * K)) by (apply Z.mul_le_mono_nonneg_l; lia).
  assert (K * (P * (2 * ax) + M * (2 * c1 + c2)) < K * (P * M)) by (apply Z.mul_lt_mono_pos_l; lia).
  replace (2 * P * D * M) with (2 * P * (D * M)) by ring.
  replace (K * (P - c2) * M) with (K * (P * M) - K * (M * c2)) by ring.
  replace (2 * P * (e + ax * K)) with (2 * (P * e) + K * (P * (2 * ax))) in H by ring.
  replace (K * (P * (2 * ax) + M * (2 * c1 + c2))) with (K * (P * (2 * ax)) + 2 * (c1 * (M * K)) + K * (M * c2)) in H0 by ring.
  lia.
Qed.
Lemma lt_cancel P a b : 0 < P -> P * a < P * b -> a < b.
Proof. intros. apply (Z.mul_lt_mono_pos_l P); auto. Qed.

Lemma near_quot K q rr al a : al = K * q + rr -> 0 <= rr < K -> 2 * Z.abs (al - a * K) < K ->
  (2 * rr < K /\ q = a) \/ (K < 2 * rr /\ q + 1 = a).
Proof.
  intros -> H1 H2. replace (K * q + rr - a * K) with (K * (q - a) + rr) in H2 by ring.
  assert (q - a = 0 \/ q - a = -1) as [C|C] by nia; rewrite C in H2; [left|right]; lia.
Qed.

(** ** Reduction modulo p *)
Section Modp.
Variables (prec : Z) (ord : order) (how : option bool) (flr : bool) (ms : list Z) (p x : Z) (r : list Z) (d : nat).
Hypotheses (Hp : 1 <= prec) (Hf : fair ord) (Hb : basis_ok ms) (Hpp : 2 <= p) (Hx : residues ms x r).
Let n := length ms.
Let M := Mprod ms.
Let g j := gam ms r j.
Let G := Zsum (fun j => g j * Mi ms j) n.

Lemma g_range j : (j < n)%nat -> 0 <= g j <= modulus ms j - 1.
Proof.
  intro Hj. unfold g, gam. pose proof (modulus_ge ms j Hb Hj).
  pose proof (Z.mod_pos_bound (nth j r 0 * MMi ms j) (modulus ms j) ltac:(lia)). lia.
Qed.

Lemma G_range : 0 <= G <= Z.of_nat n * M.
Proof.
  unfold G. assert (K : forall k, (k <= n)%nat -> 0 <= Zsum (fun j => g j * Mi ms j) k <= Z.of_nat k * M).
  { induction k as [|k IH]; intro Hk; cbn [Zsum]; [lia|]. specialize (IH ltac:(lia)).
    pose proof (g_range k ltac:(lia)). pose proof (Mi_pos ms k Hb ltac:(unfold n in *; lia)).
    pose proof (Mi_mul ms k Hb ltac:(unfold n in *; lia)) as HM. fold M in HM. nia. }
  apply K. lia.
Qed.

Lemma G_congr i : (i < n)%nat -> congr (modulus ms i) G x.
Proof.
  intro Hi. pose proof (modulus_ge ms i Hb Hi). pose proof (residues_nth ms x r i Hx Hi) as [_ R].
  apply (congr_trans _ _ (nth i r 0)); [|exact R].
  apply (congr_trans _ _ (Zsum (fun j => nth j r 0 * (Mi ms j * MMi ms j)) n)); [|apply (crt_sum ms (fun j => nth j r 0) i Hb Hi)].
  apply Zsum_congr. intros j Hj. unfold g, gam.
  destruct (Nat.eq_dec j i) as [->|Hn].
  - replace (nth i r 0 * (Mi ms i * MMi ms i)) with (nth i r 0 * MMi ms i * Mi ms i) by ring.
    apply congr_mul; [apply congr_mod; lia|apply congr_refl].
  - destruct (Mi_other ms j i Hb Hj Hi Hn) as [q ->].
    exists (((nth j r 0 * MMi ms j) mod modulus ms j) * q - nth j r 0 * q * MMi ms j). ring.
Qed.

Lemma G_quot : exists a, G = x + a * M.
Proof.
  assert (D : (Mprod ms | G - x)).
  { apply crt_div; [apply Hb|]. apply Forall_forall. intros m Hm. apply (In_nth _ _ 1) in Hm.
    destruct Hm as (i & Hi & <-). destruct (G_congr i Hi) as [q H]. exists q. exact H. }
  destruct D as [a H]. exists a. fold M in H. lia.
Qed.

Lemma iM_eq i a : iM_modp ms p i a = (Z.of_nat a * M mod p) mod modulus ms i.
Proof.
  unfold iM_modp. f_equal. induction a as [|a IH].
  - change (0 = 0 mod p). rewrite Z.mod_0_l by lia. reflexivity.
  - change (Nat.iter (S a) (fun iM => (iM + Mprod ms) mod p) 0)
      with ((Nat.iter a (fun iM => (iM + Mprod ms) mod p) 0 + Mprod ms) mod p).
    rewrite IH. fold M. rewrite Z.add_mod_idemp_l by lia. f_equal. lia.
Qed.

(** the element computed *)
Let y a := Zsum (fun j => g j * (Mi ms j mod p)) n - (Z.of_nat a * M) mod p.

Lemma y_congr a : G = x + Z.of_nat a * M -> congr p (y a) x.
Proof.
  intro H. unfold y. replace x with (G - Z.of_nat a * M) by lia.
  unfold Z.sub. apply congr_add.
  - apply Zsum_congr. intros j Hj. apply congr_mul; [apply congr_refl|apply congr_mod; lia].
  - apply congr_opp, congr_mod; lia.
Qed.

Let S := fold_right (fun m s => m - 1 + s) 0 ms.

Lemma sum_list (f : nat -> Z) c ms' off : 0 <= c ->
  (forall i, (i < length ms')%nat -> 0 <= f (off + i)%nat <= nth i ms' 1 - 1) ->
  0 <= Zsumr (fun j => c * f j) off (length ms') <= c * fold_right (fun m s => m - 1 + s) 0 ms'.
Proof.
  intro Hc. revert off; induction ms' as [|m ms' IH]; intros off H; cbn [length Zsumr fold_right]; [lia|].
  pose proof (H 0%nat ltac:(cbn; lia)) as H0. rewrite Nat.add_0_r in H0. cbn [nth] in H0.
  assert (K := IH (Datatypes.S off)). rewrite Z.mul_add_distr_l.
  assert (0 <= c * f off <= c * (m - 1)) by nia.
  enough (0 <= Zsumr (fun j => c * f j) (Datatypes.S off) (length ms') <= c * fold_right (fun m s => m - 1 + s) 0 ms') by lia.
  apply K. intros i Hi. specialize (H (Datatypes.S i) ltac:(cbn; lia)). cbn [nth] in H. now rewrite Nat.add_succ_comm.
Qed.

Lemma Zsum_le f h k : (forall i, (i < k)%nat -> f i <= h i) -> Zsum f k <= Zsum h k.
Proof. induction k as [|k IH]; intro H; cbn [Zsum]; [lia|]. pose proof (H k ltac:(lia)). specialize (IH ltac:(auto)). lia. Qed.
Lemma Zsum_ge0 f k : (forall i, (i < k)%nat -> 0 <= f i) -> 0 <= Zsum f k.
Proof. induction k as [|k IH]; intro H; cbn [Zsum]; [lia|]. pose proof (H k ltac:(lia)). specialize (IH ltac:(auto)). lia. Qed.

Lemma sum_bound (t : nat -> Z) c : 0 <= c -> (forall j, (j < n)%nat -> 0 <= t j <= c) ->
  0 <= Zsum (fun j => g j * t j) n <= c * S.
Proof.
  intros Hc Ht. split.
  - apply Zsum_ge0. intros j Hj. pose proof (g_range j Hj). pose proof (Ht j Hj). nia.
  - apply Z.le_trans with (Zsum (fun j => c * g j) n).
    + apply Zsum_le. intros j Hj. pose proof (g_range j Hj). pose proof (Ht j Hj). nia.
    + rewrite Zsum_Zsumr. apply (sum_list g c ms 0 Hc). intros i Hi. apply (g_range i Hi).
Qed.

Lemma y_range a : - p < y a <= (p - 1) * S.
Proof.
  unfold y. pose proof (sum_bound (fun j => Mi ms j mod p) (p - 1) ltac:(lia)) as B.
  pose proof (Z.mod_pos_bound (Z.of_nat a * M) p ltac:(lia)).
  enough (0 <= Zsum (fun j => g j * (Mi ms j mod p)) n <= (p - 1) * S) by lia.
  apply B. intros j _. pose proof (Z.mod_pos_bound (Mi ms j) p ltac:(lia)). lia.
Qed.

Hypothesis Hroom : Forall (fun m => (m - 1) * S + m <= 2 ^ prec) ms.

Lemma S_ge i : (i < n)%nat -> modulus ms i - 1 <= S.
Proof.
  unfold S, n, modulus. clear -Hb. destruct Hb as [H _]. clear Hb. revert i.
  induction H as [|m ms Hm H IH]; intros i Hi; cbn [length] in Hi; [lia|]. cbn [fold_right].
  assert (0 <= fold_right (fun m s => m - 1 + s) 0 ms) by (clear -H; induction H; cbn [fold_right]; lia).
  destruct i as [|i]; cbn [nth]; [lia|]. specialize (IH i ltac:(lia)). lia.
Qed.

Lemma entry_ok_modp i a : (i < n)%nat ->
  is_repr (modulus ms i) 0 (y a)
    (rns_red prec how (rnd prec (modp_z prec ord ms p r i - iM_modp ms p i a)) (modulus ms i)).
Proof.
  intro Hi. pose proof (modulus_ge ms i Hb Hi) as Hm. pose proof (Forall_nth_in ms i Hroom Hi) as R. cbn beta in R.
  set (m := modulus ms i) in *.
  assert (T : forall j, (j < n)%nat -> 0 <= Mi_modp ms p i j <= m - 1).
  { intros j _. unfold Mi_modp. fold m. pose proof (Z.mod_pos_bound (Mi ms j mod p) m ltac:(lia)). lia. }
  pose proof (sum_bound (Mi_modp ms p i) (m - 1) ltac:(lia) T) as B.
  assert (E : modp_z prec ord ms p r i = Zsum (fun j => g j * Mi_modp ms p i j) n).
  { unfold modp_z. rewrite blas_sum; auto.
    - rewrite lsum_prods. apply Zsum_ext. intros; unfold g; ring.
    - assert (L : labs (prods (Mi_modp ms p i) (gam ms r) 0 (length ms)) <= fold_right (fun q s => (m - 1) * (q - 1) + s) 0 ms).
      { unfold prods. apply (labs_list ms _ (fun q => (m - 1) * (q - 1))). intros j Hj. cbn [Nat.add].
        pose proof (T j Hj). pose proof (g_range j Hj) as Gj. unfold g, modulus in Gj. rewrite Z.abs_mul, !Z.abs_eq by lia.
        apply Z.mul_le_mono_nonneg; lia. }
      assert (L2 : fold_right (fun q s => (m - 1) * (q - 1) + s) 0 ms = (m - 1) * S).
      { unfold S. clearbody m. clear. induction ms as [|q l IH]; cbn [fold_right]; [lia|]. rewrite IH. ring. }
      lia. }
  assert (I : 0 <= iM_modp ms p i a <= m - 1).
  { rewrite iM_eq. fold m. pose proof (Z.mod_pos_bound ((Z.of_nat a * M) mod p) m ltac:(lia)). lia. }
  assert (S0 := S_ge i Hi). fold m in S0.
  assert (Ab : Z.abs (modp_z prec ord ms p r i - iM_modp ms p i a) <= (m - 1) * S) by (rewrite E in *; nia).
  rewrite rnd_exact by lia.
  eapply is_repr_congr; [|apply rns_red_ok; auto; [nia|destruct (two_roundings how); lia]].
  unfold y. rewrite E, iM_eq. fold m.
  unfold Z.sub. apply congr_add.
  - apply Zsum_congr. intros j Hj. apply congr_mul; [apply congr_refl|]. unfold Mi_modp. fold m. apply congr_mod; lia.
  - apply congr_opp, congr_mod; lia.
Qed.

(** the quotient *)
Let E := modp_E prec ms.
Let t j := inv_mant prec (modulus ms j) * 2 ^ (E - inv_exp prec (modulus ms j)).
Let alpha := modp_alpha prec ord ms r.

Lemma E_ge i : (i < n)%nat -> inv_exp prec (modulus ms i) <= E.
Proof.
  unfold E, n, modulus. clear. revert i.
  induction ms as [|m l IH]; intros i Hi; cbn [length] in Hi; [lia|]. cbn [modp_E fold_right].
  destruct i as [|i]; cbn [nth].
  - apply Z.le_max_l.
  - specialize (IH i ltac:(lia)). change (fold_right (fun m e => Z.max (inv_exp prec m) e) 0 l) with (modp_E prec l). lia.
Qed.

Lemma t_ok j : (j < n)%nat ->
  0 <= t j /\ 2 ^ prec * Z.abs (t j * modulus ms j - 2 ^ E) <= 2 ^ E.
Proof.
  intro Hj. pose proof (modulus_ge ms j Hb Hj) as Hm. set (m := modulus ms j) in *.
  assert (Hmp : m <= 2 ^ prec).
  { pose proof (Forall_nth_in ms j Hroom Hj) as R. cbn beta in R. fold m in R. pose proof (S_ge j Hj). fold m in H. nia. }
  pose proof (inv_mant_spec prec Hp 0 m ltac:(lia) ltac:(cbn; lia)) as H. cbn zeta in H. destruct H as (H1 & H2 & H3).
  pose proof (E_ge j Hj) as HE. fold m in HE. unfold t. fold m.
  assert (0 <= inv_exp prec m) by (unfold inv_exp; pose proof (Z.log2_nonneg m); lia).
  replace (2 ^ E) with (2 ^ inv_exp prec m * 2 ^ (E - inv_exp prec m)) by (rewrite <- Z.pow_add_r by lia; f_equal; lia).
  set (K := 2 ^ inv_exp prec m) in *. set (u := 2 ^ (E - inv_exp prec m)).
  assert (0 < u) by (apply Z.pow_pos_nonneg; lia). set (v := inv_mant prec m) in *.
  assert (0 < 2 ^ prec) by (apply Z.pow_pos_nonneg; lia).
  assert (0 <= v) by nia. split; [nia|].
  replace (v * u * m - K * u) with ((v * m - K) * u) by ring. rewrite Z.abs_mul, (Z.abs_eq u) by lia.
  assert (2 ^ prec * Z.abs (v * m - K) <= K) by nia. nia.
Qed.

Let T := Zsum (fun j => g j * t j) n.

Lemma T_ok : 0 <= T /\ 2 ^ prec * Z.abs (T * M - G * 2 ^ E) <= G * 2 ^ E.
Proof.
  assert (P : 0 < 2 ^ prec) by (apply Z.pow_pos_nonneg; lia).
  unfold T, G. assert (K : forall k, (k <= n)%nat -> 0 <= Zsum (fun j => g j * t j) k /\
     2 ^ prec * Z.abs (Zsum (fun j => g j * t j) k * M - Zsum (fun j => g j * Mi ms j) k * 2 ^ E)
       <= Zsum (fun j => g j * Mi ms j) k * 2 ^ E).
  { induction k as [|k IH]; intro Hk; cbn [Zsum]; [cbn; lia|]. destruct (IH ltac:(lia)) as [I1 I2].
    destruct (t_ok k ltac:(lia)) as [t1 t2]. pose proof (g_range k ltac:(lia)).
    pose proof (Mi_mul ms k Hb ltac:(unfold n in *; lia)) as HM. fold M in HM.
    pose proof (Mi_pos ms k Hb ltac:(unfold n in *; lia)).
    set (s := Zsum (fun j => g j * t j) k) in *. set (w := Zsum (fun j => g j * Mi ms j) k) in *.
    split; [nia|].
    replace ((s + g k * t k) * M - (w + g k * Mi ms k) * 2 ^ E)
      with ((s * M - w * 2 ^ E) + g k * Mi ms k * (t k * modulus ms k - 2 ^ E)) by (rewrite <- HM; ring).
    assert (0 <= g k * Mi ms k) by (apply Z.mul_nonneg_nonneg; lia).
    rewrite (Z.mul_add_distr_r w). apply err_add; auto. }
  apply K. lia.
Qed.

Hypothesis Hd : (depth (ord n (prods (gam ms r) t 0 n)) <= d)%nat.
Hypothesis Hd2 : 2 * Z.of_nat d <= 2 ^ prec.

Lemma alpha_err : 2 ^ prec * Z.abs (alpha * M - G * 2 ^ E) <= (4 * Z.of_nat d + 1) * (G * 2 ^ E).
Proof.
  assert (P : 0 < 2 ^ prec) by (apply Z.pow_pos_nonneg; lia).
  assert (P2 : 2 <= 2 ^ prec) by (change 2 with (2 ^ 1) at 1; apply Z.pow_le_mono_r; lia).
  assert (M0 : 1 <= M) by (apply Mprod_pos, Hb).
  pose proof T_ok as [T0 T1]. pose proof G_range as [G0 _].
  assert (E0 : 0 <= 2 ^ E) by (apply Z.pow_nonneg; lia).
  assert (A : 2 ^ prec * Z.abs (alpha - T) <= 2 * Z.of_nat d * T).
  { unfold alpha, modp_alpha. fold n. fold E. change (fun j => inv_mant prec (modulus ms j) * 2 ^ (E - inv_exp prec (modulus ms j))) with t.
    set (tr := ord n (prods (gam ms r) t 0 n)) in *.
    pose proof (eval_err prec tr Hp ltac:(lia)) as HH.
    assert (L1 : lsum (leaves tr) = T).
    { unfold tr. rewrite (lsum_perm _ _ (Hf n _)). apply lsum_prods. }
    assert (L2 : labs (leaves tr) = T).
    { unfold tr. rewrite (labs_perm _ _ (Hf n _)). unfold prods, T. rewrite Zsum_Zsumr.
      assert (Q : forall off len, (off + len <= n)%nat -> labs (map (fun i => gam ms r i * t i) (seq off len)) = Zsumr (fun j => g j * t j) off len).
      { intros off len; revert off; induction len as [|len IH]; intros off Ho; cbn [seq map Zsumr]; [reflexivity|].
        rewrite labs_cons, IH by lia. fold (g off). rewrite Z.abs_eq; [reflexivity|].
        pose proof (g_range off ltac:(lia)). pose proof (t_ok off ltac:(lia)). nia. }
      apply Q. lia. }
    rewrite L1, L2 in HH. eapply Z.le_trans; [exact HH|]. apply Z.mul_le_mono_nonneg_r; lia. }
  assert (W0 : 0 <= G * 2 ^ E) by (apply Z.mul_nonneg_nonneg; lia).
  assert (TM : T * M <= 2 * (G * 2 ^ E)) by (apply (double_bound (2 ^ prec)); auto).
  apply (err_total (2 ^ prec) (Z.of_nat d) T (G * 2 ^ E) M _ _ _ P ltac:(lia) T0 ltac:(lia) W0 TM A T1).
  rewrite <- (Z.abs_eq M) at 2 by lia. rewrite <- Z.abs_mul.
  replace (alpha * M - G * 2 ^ E) with ((alpha - T) * M + (T * M - G * 2 ^ E)) by ring.
  apply Z.abs_triangle.
Qed.

Hypothesis Hn : (0 < n)%nat.
Hypothesis Hclose :
  2 ^ prec * (2 * Z.abs x) + M * (8 * Z.of_nat n * Z.of_nat d + 10 * Z.of_nat n + 2) < 2 ^ prec * M.

Lemma quot_ok : exists a : nat, G = x + Z.of_nat a * M /\ (a <= n)%nat /\
  modp_quot prec flr E alpha = Z.of_nat a.
Proof.
  assert (P : 0 < 2 ^ prec) by (apply Z.pow_pos_nonneg; lia).
  assert (M0 : 1 <= M) by (apply Mprod_pos, Hb).
  destruct G_quot as [a Ha]. pose proof G_range as [G0 G1].
  assert (EE : 1 <= E).
  { pose proof (E_ge 0 ltac:(lia)). unfold inv_exp in *. pose proof (Z.log2_nonneg (modulus ms 0)). lia. }
  assert (E0 : 0 < 2 ^ E) by (apply Z.pow_pos_nonneg; lia).
  set (nz := Z.of_nat n) in *. set (dz := Z.of_nat d) in *. assert (1 <= nz) by lia. assert (0 <= dz) by lia.
  assert (Xs : 2 * Z.abs x < M) by nia.
  assert (a0 : 0 <= a) by nia. assert (an : a <= nz) by nia.
  exists (Z.to_nat a). rewrite Z2Nat.id by lia. split; [exact Ha|]. split; [lia|].
  pose proof alpha_err as Er. fold dz in Er.
  assert (Er2 : 2 ^ prec * Z.abs (alpha * M - G * 2 ^ E) <= (4 * dz + 1) * nz * (M * 2 ^ E)).
  { eapply Z.le_trans; [exact Er|]. rewrite <- Z.mul_assoc. apply Z.mul_le_mono_nonneg_l; [lia|].
    rewrite Z.mul_assoc. apply Z.mul_le_mono_nonneg_r; lia. }
  (* distance to a *)
  assert (Dist : 2 * 2 ^ prec * Z.abs (alpha - a * 2 ^ E) < 2 ^ E * (2 ^ prec - (8 * nz + 2))).
  { assert (Q : Z.abs (alpha * M - a * 2 ^ E * M) <= Z.abs (alpha * M - G * 2 ^ E) + Z.abs x * 2 ^ E).
    { rewrite <- (Z.abs_eq (2 ^ E)) at 3 by lia. rewrite <- Z.abs_mul.
      replace (alpha * M - a * 2 ^ E * M) with ((alpha * M - G * 2 ^ E) + x * 2 ^ E) by (rewrite Ha; ring).
      apply Z.abs_triangle. }
    replace (alpha * M - a * 2 ^ E * M) with ((alpha - a * 2 ^ E) * M) in Q by ring.
    rewrite Z.abs_mul, (Z.abs_eq M) in Q by lia.
    assert (M1 : 0 < M) by lia. apply (dist_arith _ _ _ _ _ _ ((4 * dz + 1) * nz) _ P E0 M1 Q Er2).
    eapply Z.le_lt_trans; [|exact Hclose]. apply Z.add_le_mono_l. apply Z.mul_le_mono_nonneg_l; [lia|]. lia. }
  set (D := Z.abs (alpha - a * 2 ^ E)) in *.
  assert (Half : 2 * D < 2 ^ E).
  { apply (lt_cancel _ _ _ P). assert (0 <= 2 ^ E * (8 * nz + 2)) by (apply Z.mul_nonneg_nonneg; lia). lia. }
  unfold modp_quot. destruct flr.
  - assert (Eh : 2 * 2 ^ (E - 1) = 2 ^ E) by (rewrite <- Z.pow_succ_r by lia; f_equal; lia).
    set (h := 2 ^ (E - 1)) in *. pose proof (rnd_err prec (alpha + h) Hp) as Rr. set (w := rnd prec (alpha + h)) in *.
    assert (Sm : Z.abs (alpha + h) <= (nz + 1) * 2 ^ E).
    { assert (a * 2 ^ E <= nz * 2 ^ E) by (apply Z.mul_le_mono_nonneg_r; lia).
      assert (0 <= a * 2 ^ E) by (apply Z.mul_nonneg_nonneg; lia). unfold D in Half. lia. }
    assert (W : 2 ^ prec * Z.abs (w - (alpha + h)) <= (nz + 1) * 2 ^ E) by lia.
    set (ew := Z.abs (w - (alpha + h))) in *.
    assert (F : 2 ^ prec * (2 * D + 2 * ew) < 2 ^ prec * 2 ^ E).
    { assert (2 * (nz + 1) * 2 ^ E <= (8 * nz + 2) * 2 ^ E) by (apply Z.mul_le_mono_nonneg_r; lia). lia. }
    assert (F2 : 2 * D + 2 * ew < 2 ^ E) by (apply (lt_cancel _ _ _ P); auto).
    assert (F3 : a * 2 ^ E <= w < (a + 1) * 2 ^ E) by (unfold D, ew in *; lia).
    symmetry. apply (Z.div_unique w (2 ^ E) a (w - a * 2 ^ E)); lia.
  - pose proof (Z.div_mod alpha (2 ^ E) ltac:(lia)) as DM. pose proof (Z.mod_pos_bound alpha (2 ^ E) E0) as MB.
    cbn zeta. unfold D in Half.
    destruct (near_quot _ _ _ _ _ DM MB Half) as [[C1 C2]|[C1 C2]].
    + rewrite (proj2 (Z.ltb_lt _ _) C1). exact C2.
    + rewrite (proj2 (Z.ltb_ge _ _)) by lia. rewrite (proj2 (Z.ltb_lt _ _) C1). exact C2.
Qed.

Theorem reduce_modp_ok : exists y r', reduce_modp prec ord how flr ms p r = Some r' /\
  residues ms y r' /\ (exists q, y - x = q * p) /\
  - p < y <= (p - 1) * fold_right (fun m s => m - 1 + s) 0 ms.
Proof.
  destruct quot_ok as (a & Ha & Han & Eq). unfold reduce_modp. fold E. fold alpha. rewrite Eq.
  assert ((0 <=? Z.of_nat a) && (Z.of_nat a <=? Z.of_nat (length ms)) = true) as ->.
  { apply andb_true_iff. split; apply Z.leb_le; fold n; lia. }
  rewrite Nat2Z.id. exists (y a). eexists. split; [reflexivity|]. split; [|split].
  - apply residues_map. intros i Hi. now apply entry_ok_modp.
  - apply y_congr, Ha.
  - apply y_range.
Qed.
End Modp.
