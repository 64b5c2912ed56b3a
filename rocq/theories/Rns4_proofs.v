From Coq Require Import ZArith Znumtheory List Lia Bool Permutation.
From Verif Require Import Delayed_model Delayed_spec Delayed_proofs Red_model Red_proofs Rns_model Rns_spec Rns_proofs Rns2_proofs Rns3_proofs.
Import ListNotations.
Open Scope Z_scope.

(** ** Products over the integers and modulo an integer *)
Lemma infnorm_le m n A a : 0 <= a -> (forall i j, (i < m)%nat -> (j < n)%nat -> Z.abs (A i j) <= a) ->
  infnorm m n A <= a.
Proof.
  intros Ha H. unfold infnorm.
  assert (G : forall (f : nat -> Z) l mx, (forall q, In q l -> Z.abs (f q) <= a) -> Z.abs mx <= a ->
     Z.abs (fold_left (fun mx j => if Z.abs mx <? Z.abs (f j) then f j else mx) l mx) <= a).
  { intros f l; induction l as [|q l IH]; intros mx Hl Hm; cbn [fold_left]; auto.
    apply IH; [intros; apply Hl; now right|]. destruct (Z.abs mx <? Z.abs (f q)); auto. apply Hl; now left. }
  assert (G2 : forall l mx, (forall q, In q l -> (q < m)%nat) -> Z.abs mx <= a ->
     Z.abs (fold_left (fun mx i => fold_left (fun mx j => if Z.abs mx <? Z.abs (A i j) then A i j else mx) (seq 0 n) mx) l mx) <= a).
  { induction l as [|q l IH]; intros mx Hl Hm; cbn [fold_left]; auto.
    apply IH; [intros; apply Hl; now right|]. apply G; auto. intros j Hj. apply in_seq in Hj. apply H; [apply Hl; now left|lia]. }
  apply G2; [intros q Hq; apply in_seq in Hq; lia|cbn; lia].
Qed.

Lemma build_mono draws b b' ms M s : b * s <= b' * s -> forall ms',
  build_loop draws b' false ms M s = Some ms' -> exists ms'', build_loop draws b false ms M s = Some ms''.
Proof.
  intro Hb. revert ms M. induction draws as [|p draws IH]; intros ms M ms' E; cbn [build_loop] in *.
  - destruct (Z.leb_spec (b' * s) M); [|discriminate]. rewrite (proj2 (Z.leb_le _ _)) by lia. eauto.
  - destruct (Z.leb_spec (b * s) M); [eauto|]. destruct (Z.leb_spec (b' * s) M); [lia|].
    destruct (M mod p =? 0); eauto.
Qed.
Lemma rns_bound_mono draws b b' ms' : b <= b' -> rns_bound draws b' false = Some ms' ->
  exists ms, rns_bound draws b false = Some ms.
Proof. intros H E. eapply build_mono; [|exact E]. lia. Qed.


Theorem fgemm_integer_ok prec R m n k alpha A B beta C a b ms0 :
  let D := draws R (prime_bitsize prec k) in
  1 <= prec <= 63 -> run_ok R ->
  Forall prime D -> Forall (fun p => 2 < p < 2 ^ prime_bitsize prec k) D ->
  0 <= a -> 0 <= b ->
  (forall i l, (i < m)%nat -> (l < k)%nat -> Z.abs (A i l) <= a) ->
  (forall l j, (l < k)%nat -> (j < n)%nat -> Z.abs (B l j) <= b) ->
  rns_bound D (2 * Z.of_nat k * a * b * Z.abs alpha) false = Some ms0 ->
  (forall bound ms, rns_bound D bound false = Some ms ->
     room_in prec (two_roundings (red_how R)) ms (ldm ms) /\ room_out prec ms) ->
  ((exists i l, (i < m)%nat /\ (l < k)%nat /\ A i l <> 0) /\
   (exists l j, (l < k)%nat /\ (j < n)%nat /\ B l j <> 0)) \/ beta = 1 ->
  forall i j, (i < m)%nat -> (j < n)%nat ->
  fgemm_integer prec R m n k alpha A B beta C i j
    = Some (alpha * Zsum (fun l => A i l * B l j) k + beta * C i j).
Proof.
  intros D Hp HR Hpr Hrg Ha Hb BA BB E Hroom Hnz i j Hi Hj. unfold fgemm_integer.
  rewrite (proj2 (Nat.ltb_lt i m)), (proj2 (Nat.ltb_lt j n)) by auto. cbn [andb].
  destruct (Nat.eqb_spec k 0) as [->|Hk]; cbn [orb]; [cbn [Zsum]; f_equal; lia|].
  destruct (Z.eqb_spec alpha 0) as [->|Hal]; [f_equal; lia|].
  assert (NA : 0 <= infnorm m k A) by apply Z.abs_nonneg. assert (NB : 0 <= infnorm k n B) by apply Z.abs_nonneg.
  pose proof (infnorm_le m k A a Ha BA) as LA. pose proof (infnorm_le k n B b Hb BB) as LB.
  destruct (Z.eq_dec (infnorm m k A) 0) as [ZA|ZA].
  { (* A = 0 *)
    destruct Hnz as [[(i' & l & I1 & I2 & I3) _]| ->].
    { pose proof (infnorm_bound m k A i' l I1 I2). lia. }
    unfold fgemm_Z. destruct (Z.eqb_spec alpha 0); [lia|]. destruct (Nat.eqb_spec k 0); [lia|].
    cbn [Z.eqb]. rewrite ZA. rewrite Z.mul_0_r, !Z.mul_0_l. cbn [Z.eqb]. f_equal.
    rewrite (Zsum_ext _ (fun _ => 0 * 0)).
    - rewrite Zsum_scale. lia.
    - intros l Hl. pose proof (infnorm_bound m k A i l Hi Hl). assert (A i l = 0) by lia. rewrite H0. lia. }
  destruct (Z.eq_dec (infnorm k n B) 0) as [ZB|ZB].
  { destruct Hnz as [[_ (l & j' & I1 & I2 & I3)]| ->].
    { pose proof (infnorm_bound k n B l j' I1 I2). lia. }
    unfold fgemm_Z. destruct (Z.eqb_spec alpha 0); [lia|]. destruct (Nat.eqb_spec k 0); [lia|].
    cbn [Z.eqb]. rewrite ZB. rewrite Z.mul_0_r, Z.mul_0_l. cbn [Z.eqb]. f_equal.
    rewrite (Zsum_ext _ (fun _ => 0 * 0)).
    - rewrite Zsum_scale. lia.
    - intros l Hl. pose proof (infnorm_bound k n B l j Hl Hj). assert (B l j = 0) by lia. rewrite H0. lia. }
  assert (Lb : 2 * Z.of_nat k * infnorm m k A * infnorm k n B * Z.abs alpha <= 2 * Z.of_nat k * a * b * Z.abs alpha).
  { apply Z.mul_le_mono_nonneg_r; [lia|]. apply Z.mul_le_mono_nonneg; [nia|nia|lia|lia]. }
  destruct (rns_bound_mono _ _ _ _ Lb E) as [ms Ems]. destruct (Hroom _ _ Ems) as [R1 R2].
  eapply (fgemm_Z_ok prec R m n k alpha A B beta C 0 0 (infnorm m k A) (infnorm k n B)); eauto; try lia.
  - intros; now apply infnorm_bound.
  - intros; now apply infnorm_bound.
Qed.

Theorem fgemm_modinteger_ok prec R p m n k alpha A B beta C ms :
  let D := draws R (prime_bitsize prec k) in
  1 <= prec <= 63 -> run_ok R -> 2 <= p ->
  Forall prime D -> Forall (fun q => 2 < q < 2 ^ prime_bitsize prec k) D ->
  (forall i l, (i < m)%nat -> (l < k)%nat -> reduced p 0 (A i l)) ->
  (forall l j, (l < k)%nat -> (j < n)%nat -> reduced p 0 (B l j)) ->
  rns_bound D (2 * Z.of_nat k * p * p * Z.abs alpha) false = Some ms ->
  room_in prec (two_roundings (red_how R)) ms (ldm ms) -> room_out prec ms ->
  forall i j, (i < m)%nat -> (j < n)%nat ->
  exists z, fgemm_modinteger prec R p m n k alpha A B beta C i j = Some z /\
    is_repr p 0 (alpha * Zsum (fun l => A i l * B l j) k + beta * C i j) z.
Proof.
  intros D Hp HR Hp2 Hpr Hrg BA BB E R1 R2 i j Hi Hj. unfold fgemm_modinteger.
  rewrite (proj2 (Nat.ltb_lt i m)), (proj2 (Nat.ltb_lt j n)) by auto. cbn [andb].
  assert (W : wf (modular p)) by (split; cbn; unfold fhi; cbn; lia).
  destruct (Nat.eqb_spec k 0) as [->|Hk]; cbn [orb].
  { eexists. split; [reflexivity|]. cbn [Zsum]. rewrite Z.mul_0_r, Z.add_0_l. exact (proj2 (is_repr_canon _ _ _ W) eq_refl). }
  destruct (Z.eqb_spec alpha 0) as [->|Hal].
  { eexists. split; [reflexivity|]. rewrite Z.mul_0_l, Z.add_0_l. exact (proj2 (is_repr_canon _ _ _ W) eq_refl). }
  rewrite (fgemm_Z_ok prec R m n k alpha A B beta C p p p p i j ms); auto; try lia.
  - eexists. split; [reflexivity|]. exact (proj2 (is_repr_canon _ _ _ W) eq_refl).
  - destruct (Z.eqb_spec p 0); lia.
  - destruct (Z.eqb_spec p 0); lia.
  - intros i' l Hi' Hl. pose proof (BA i' l Hi' Hl) as [? ?]. lia.
  - intros l j' Hl Hj'. pose proof (BB l j' Hl Hj') as [? ?]. lia.
Qed.

(** ** rns_double_extended *)
Theorem ext_init_ok ms a : Forall (fun m => 2 <= m) ms -> 0 <= a -> residues ms a (ext_init ms a).
Proof.
  intros Hm Ha. unfold residues, ext_init. induction Hm as [|m ms Hm _ IH]; cbn [map]; constructor; auto.
  rewrite Z.rem_mod_nonneg by lia. pose proof (Z.mod_pos_bound a m ltac:(lia)).
  rewrite Z.abs_eq by lia. split; [lia|]. exists (- (a / m)). pose proof (Z.div_mod a m ltac:(lia)). lia.
Qed.

Lemma fold_left_Zsum (f : nat -> Z) k s : fold_left (fun s j => s + f j) (seq 0 k) s = s + Zsum f k.
Proof.
  rewrite Zsum_Zsumr. generalize 0%nat. revert s.
  induction k as [|k IH]; intros s off; cbn [seq fold_left Zsumr]; [lia|]. rewrite IH. lia.
Qed.

Theorem ext_convert_ok ms x r : basis_ok ms -> residues ms x r -> centred (product ms) x ->
  ext_convert ms r = x.
Proof.
  intros Hb Hx Hc. unfold ext_convert. rewrite fold_left_Zsum, Z.add_0_l.
  pose proof (Mprod_pos ms (proj1 Hb)) as M0.
  destruct (G_quot ms x r Hb Hx) as [a Ha]. unfold gam in Ha. rewrite Ha.
  destruct (centre_ok (Mprod ms) (x + a * Mprod ms) M0) as [[q Hq] C]. rewrite <- product_Mprod in Hc.
  unfold centred in *. set (y := centre (Mprod ms) (x + a * Mprod ms)) in *.
  assert (q + a = 0) by nia. nia.
Qed.

(** ** The scalar remainder of the RNS-major reduction *)
Theorem rns_tail_ok prec fma a m : 2 <= m -> 1 <= prec -> m <= 2 ^ prec ->
  Z.abs a <= 2 ^ prec -> (fma = false -> Z.abs a + m <= 2 ^ prec) ->
  is_repr m 0 a (rns_tail prec fma a m).
Proof.
  intros Hm Hp Hmp Ha HN. unfold rns_tail.
  destruct (qfloor_spec prec Hp a m) as (n & r & E & R & Q); try lia.
  set (q := qfloor prec a m) in *.
  assert (C : q * m = a - r \/ q * m = a - r + m \/ (q * m = a - m /\ r = 0)).
  { destruct Q as [-> | [-> | [-> ->]]]; [left|right; left|right; right]; lia. }
  assert (S : sub_mul prec fma a q m = a - q * m).
  { apply sub_mul_exact; [lia|lia|]. intro X. specialize (HN X). lia. }
  rewrite S. set (b := a - q * m) in *.
  assert (C' : b = r \/ b = r - m \/ (b = m /\ r = 0)) by (unfold b; lia).
  assert (Hq : a = b + q * m) by (unfold b; ring). clearbody b q.
  destruct (Z.leb_spec m b).
  - rewrite rnd_exact by lia. split; [lia|]. exists (- q - 1). lia.
  - destruct (Z.ltb_spec b 0).
    + rewrite rnd_exact by lia. split; [lia|]. exists (1 - q). lia.
    + split; [lia|]. exists (- q). lia.
Qed.

(** ** Refutations *)
Definition bad_run := mkrun (fun _ => [1009; 1013]) ltr (fun _ _ _ => ltr) ltr None.

Lemma integer_zero_refuted : exists prec R m n k alpha A B beta C i j,
  (i < m)%nat /\ (j < n)%nat /\
  fgemm_integer prec R m n k alpha A B beta C i j
    <> Some (alpha * Zsum (fun l => A i l * B l j) k + beta * C i j).
Proof.
  exists 53, bad_run, 1%nat, 1%nat, 1%nat, 1, (fun _ _ => 0), (fun _ _ => 1), 2, (fun _ _ => 3), 0%nat, 0%nat.
  split; [lia|]. split; [lia|]. vm_compute. discriminate.
Qed.


Lemma repeated_prime_refuted : exists draws size a,
  let ms := rns_size draws size in
  Forall prime draws /\ centred (product ms) a /\
  exists r, rns_init 53 ltr None ms (nwords a) a = Some r /\ residues ms a r /\
    rns_convert 53 ltr ms 0 r 0 <> Some a.
Proof.
  exists [7; 7; 5], 3%nat, 1. cbn zeta. split; [|split; [vm_compute; split; [reflexivity|discriminate]|]].
  - assert (prime 7).
    { constructor; [lia|]. intros n Hn. assert (n = 1 \/ n = 2 \/ n = 3 \/ n = 4 \/ n = 5 \/ n = 6) as C by lia.
      repeat destruct C as [->|C]; try subst n; apply Zgcd_1_rel_prime; reflexivity. }
    assert (prime 5).
    { constructor; [lia|]. intros n Hn. assert (n = 1 \/ n = 2 \/ n = 3 \/ n = 4) as C by lia.
      repeat destruct C as [->|C]; try subst n; apply Zgcd_1_rel_prime; reflexivity. }
    repeat (apply Forall_cons; [assumption|]). apply Forall_nil.
  - eexists. split; [vm_compute; reflexivity|]. split.
    + unfold rns_size. cbn [firstn]. repeat (constructor; [split; [lia|exists 0; reflexivity]|]). constructor.
    + vm_compute. discriminate.
Qed.

(** whatever the inverses are: with a repeated modulus every combination of
    the M/mi is a multiple of it *)
Lemma repeated_prime_any ms i j (c : nat -> Z) : Forall (fun m => 2 <= m) ms -> (i < j < length ms)%nat ->
  modulus ms i = modulus ms j ->
  (modulus ms i | Zsum (fun q => c q * Mi ms q) (length ms)).
Proof.
  intros Hm Hij E.
  assert (G : forall q, (q < length ms)%nat -> (modulus ms i | Mi ms q)).
  { intros q Hq. unfold Mi. rewrite (Mprod_split ms q Hq).
    assert (2 <= modulus ms q) by (apply (Forall_nth_in ms q Hm Hq)).
    rewrite Z.mul_comm, Z.div_mul by lia.
    assert (K : forall s, (s < length ms)%nat -> s <> q -> (modulus ms s | Mprod (firstn q ms) * Mprod (skipn (S q) ms))).
    { intros s Hs Hn. destruct (Nat.lt_ge_cases s q).
      - apply Z.divide_mul_l. replace (modulus ms s) with (modulus (firstn q ms) s) by (unfold modulus; now apply nth_firstn).
        apply modulus_div. rewrite firstn_length. lia.
      - apply Z.divide_mul_r. replace (modulus ms s) with (modulus (skipn (S q) ms) (s - S q)).
        + apply modulus_div. rewrite skipn_length. lia.
        + unfold modulus. rewrite nth_skipn. f_equal. lia. }
    destruct (Nat.eq_dec i q) as [->|].
    - rewrite E. apply K; lia.
    - apply K; lia. }
  assert (H : forall k, (k <= length ms)%nat -> (modulus ms i | Zsum (fun q => c q * Mi ms q) k)).
  { induction k as [|k IH]; intro Hk; cbn [Zsum]; [apply Z.divide_0_r|].
    apply Z.divide_add_r; [apply IH; lia|]. apply Z.divide_mul_r, G. lia. }
  now apply H.
Qed.

Lemma major_scalar_refuted :
  (exists ms A A', basis_ok ms /\ reduce_major_scalar ms 1 A = Some A' /\ ~ (modulus ms 1 | A 1%nat - A' 1%nat)) /\
  (exists ms A, basis_ok ms /\ reduce_major_scalar ms 3 A = None).
Proof.
  assert (Hb : basis_ok [3; 5]).
  { split; [repeat constructor; lia|]. cbn. repeat split; repeat constructor; try exact I; try (apply Z.divide_1_l); apply Zgcd_1_rel_prime; reflexivity. }
  split.
  - exists [3; 5], (fun _ => 4). eexists. split; [exact Hb|]. split; [reflexivity|].
    intros [q H]. change (3 = q * 5) in H. lia.
  - exists [3; 5], (fun _ => 0). split; [exact Hb|reflexivity].
Qed.

Lemma ext_init_refuted : exists ms a, basis_ok ms /\ centred (product ms) a /\
  ~ residues ms a (ext_init ms a) /\ ext_convert ms (ext_init ms a) <> a.
Proof.
  exists [7; 5], (-1). split; [|split; [vm_compute; split; [reflexivity|discriminate]|split]].
  - split; [repeat constructor; lia|]. cbn. repeat split; repeat constructor; try exact I; try (apply Z.divide_1_l); apply Zgcd_1_rel_prime; reflexivity.
  - intro H. pose proof (residues_nth _ _ _ 0%nat H ltac:(cbn; lia)) as [_ [q K]]. change (1 - -1 = q * 7) in K. lia.
  - vm_compute. discriminate.
Qed.

(** an integer of RNSIntegerMod is truncated to the words of p *)
Lemma rnsmod_init_refuted : exists ms p y r, basis_ok ms /\ 2 <= p /\ centred (product ms) y /\
  rnsmod_init 53 ltr None ms p y = Some r /\
  (forall x, residues ms x r -> centred (product ms) x -> ~ (exists q, x - y = q * p)).
Proof.
  exists [251; 241; 239; 233], 1000, 70000. eexists. assert (Hb : basis_ok [251; 241; 239; 233]).
  { split; [repeat constructor; lia|]. cbn. repeat split; repeat constructor; try exact I; try (apply Z.divide_1_l); apply Zgcd_1_rel_prime; reflexivity. }
  split; [exact Hb|]. split; [lia|]. split; [vm_compute; split; [reflexivity|discriminate]|].
  split; [vm_compute; reflexivity|]. intros x Hx Hc.
  assert (x = 4464).
  { eapply residues_unique; [exact Hb|exact Hx| |exact Hc|vm_compute; split; [reflexivity|discriminate]].
    apply residues_intro; [reflexivity|]. intros i Hi. cbn in Hi.
    destruct i as [|[|[|[|i]]]]; try lia; (split; [vm_compute; split; discriminate|]).
    - exists (-17). reflexivity.
    - exists (-18). reflexivity.
    - exists (-18). reflexivity.
    - exists (-19). reflexivity. }
  subst x. intros [q H]. lia.
Qed.

(** two representations of the same element modulo p that are not equal *)
Lemma rnsmod_areEqual_refuted : exists ms p x y z, basis_ok ms /\
  rnsmod_init 53 ltr None ms p 999 = Some x /\ rnsmod_init 53 ltr None ms p 1 = Some y /\
  rnsmod_init 53 ltr None ms p 0 = Some z /\ p = 1000 /\
  rnsmod_areEqual ms (rnsmod_add ms x y) z = false.
Proof.
  exists [251; 241], 1000. do 3 eexists. split.
  { split; [repeat constructor; lia|]. cbn. repeat split; repeat constructor; try exact I; try (apply Z.divide_1_l); apply Zgcd_1_rel_prime; reflexivity. }
  split; [vm_compute; reflexivity|]. split; [vm_compute; reflexivity|]. split; [vm_compute; reflexivity|].
  split; [reflexivity|]. vm_compute. reflexivity.
Qed.

(** ** reduce_modp, restated with the vocabulary of the specification *)
Theorem reduce_modp_spec prec ord how flr ms p x r d :
  1 <= prec -> fair ord -> basis_ok ms -> ms <> [] -> 2 <= p -> residues ms x r ->
  Forall (fun m => (m - 1) * sum_max ms + m <= 2 ^ prec) ms ->
  (forall l, length l = length ms -> (depth (ord (length ms) l) <= d)%nat) ->
  2 * Z.of_nat d <= 2 ^ prec ->
  2 ^ prec * (2 * Z.abs x) +
    product ms * (8 * Z.of_nat (length ms) * Z.of_nat d + 10 * Z.of_nat (length ms) + 2)
    < 2 ^ prec * product ms ->
  exists y r', reduce_modp prec ord how flr ms p r = Some r' /\ residues ms y r' /\
    (exists q, y - x = q * p) /\ - p < y <= (p - 1) * sum_max ms.
Proof.
  intros Hp Hf Hb Hn Hpp Hx Hr Hd Hd2 Hc. apply (reduce_modp_ok prec ord how flr ms p x r d); auto.
  - apply Hd. unfold prods. now rewrite map_length, seq_length.
  - destruct ms; [congruence|cbn; lia].
Qed.
