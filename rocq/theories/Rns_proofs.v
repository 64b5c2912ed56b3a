From Coq Require Import ZArith Znumtheory List Lia Bool Permutation.
From Verif Require Import Delayed_model Delayed_spec Delayed_proofs Red_model Red_proofs Rns_model Rns_spec.
Import ListNotations.
Open Scope Z_scope.

(** ** Chinese remaindering *)
Lemma product_Mprod ms : Mprod ms = product ms.
Proof. induction ms; cbn; auto; now rewrite <- IHms. Qed.

Lemma Mprod_pos ms : Forall (fun m => 2 <= m) ms -> 1 <= Mprod ms.
Proof. induction 1; cbn [Mprod fold_right]; [cbn; lia|change (fold_right Z.mul 1 l) with (Mprod l); nia]. Qed.

Lemma rel_prime_prod m ms : Forall (fun q => rel_prime m q) ms -> rel_prime m (Mprod ms).
Proof.
  induction 1; cbn; [apply rel_prime_1_r || (apply rel_prime_sym, rel_prime_1)|].
  now apply rel_prime_mult.
Qed.

Lemma crt_div ms z : coprimes ms -> Forall (fun m => (m | z)) ms -> (Mprod ms | z).
Proof.
  induction ms as [|m ms IH]; cbn; intros Hc Hz; [apply Z.divide_1_l|].
  destruct Hc as [H1 H2]. inversion_clear Hz.
  apply Z.divide_trans with (m * Mprod ms); [apply Z.divide_refl|].
  destruct (IH H2 ltac:(auto)) as [q ->].
  apply Z.mul_divide_mono_r.
  apply Gauss with (Mprod ms); [|apply rel_prime_prod; auto].
  now rewrite Z.mul_comm.
Qed.

Lemma Mprod_split ms i : (i < length ms)%nat ->
  Mprod ms = modulus ms i * (Mprod (firstn i ms) * Mprod (skipn (S i) ms)).
Proof.
  revert i; induction ms as [|m ms IH]; intros [|i] Hi; cbn [length] in Hi; try lia.
  - change (Mprod (m :: ms)) with (m * Mprod ms). change (skipn 1 (m :: ms)) with ms.
    change (modulus (m :: ms) 0) with m. change (Mprod (firstn 0 (m :: ms))) with 1. ring.
  - change (modulus (m :: ms) (S i)) with (modulus ms i).
    change (Mprod (m :: ms)) with (m * Mprod ms).
    change (Mprod (firstn (S i) (m :: ms))) with (m * Mprod (firstn i ms)).
    change (skipn (S (S i)) (m :: ms)) with (skipn (S i) ms).
    rewrite (IH i) at 1 by lia. ring.
Qed.

Lemma modulus_in ms i : (i < length ms)%nat -> In (modulus ms i) ms.
Proof. intro. now apply nth_In. Qed.

Lemma modulus_ge ms i : basis_ok ms -> (i < length ms)%nat -> 2 <= modulus ms i.
Proof. intros [H _] Hi. rewrite Forall_forall in H. apply H, modulus_in, Hi. Qed.

Lemma Mi_eq ms i : basis_ok ms -> (i < length ms)%nat ->
  Mi ms i = Mprod (firstn i ms) * Mprod (skipn (S i) ms).
Proof.
  intros Hb Hi. pose proof (modulus_ge ms i Hb Hi). unfold Mi. rewrite (Mprod_split ms i Hi).
  rewrite Z.mul_comm. apply Z.div_mul. lia.
Qed.

Lemma Mi_mul ms i : basis_ok ms -> (i < length ms)%nat -> modulus ms i * Mi ms i = Mprod ms.
Proof. intros. rewrite Mi_eq by auto. symmetry. now apply Mprod_split. Qed.

Lemma coprimes_nth ms : coprimes ms -> forall i j, (i < j < length ms)%nat ->
  rel_prime (modulus ms i) (modulus ms j).
Proof.
  unfold modulus. induction ms as [|m ms IH]; cbn [length coprimes]; intros Hc i j Hij; [lia|].
  destruct Hc as [H1 H2]. destruct j as [|j]; [lia|]. destruct i as [|i]; cbn [nth].
  - rewrite Forall_forall in H1. apply H1, nth_In. lia.
  - apply IH; auto; lia.
Qed.

Lemma coprimes_ne ms i j : coprimes ms -> (i < length ms)%nat -> (j < length ms)%nat -> i <> j ->
  rel_prime (modulus ms i) (modulus ms j).
Proof.
  intros Hc Hi Hj Hn. destruct (Nat.lt_ge_cases i j).
  - apply coprimes_nth; auto.
  - apply rel_prime_sym, coprimes_nth; auto; lia.
Qed.

Lemma modulus_div ms i : (i < length ms)%nat -> (modulus ms i | Mprod ms).
Proof. intro Hi. rewrite (Mprod_split ms i Hi). apply Z.divide_factor_l. Qed.

Lemma Mi_other ms i j : basis_ok ms -> (i < length ms)%nat -> (j < length ms)%nat -> i <> j ->
  (modulus ms j | Mi ms i).
Proof.
  intros Hb Hi Hj Hn. apply Gauss with (modulus ms i).
  - rewrite Mi_mul by auto. now apply modulus_div.
  - apply coprimes_ne; auto. apply Hb.
Qed.

Lemma nth_firstn {A} (l : list A) i q d : (q < i)%nat -> nth q (firstn i l) d = nth q l d.
Proof.
  revert i q; induction l as [|x l IH]; intros [|i] [|q] H; cbn; auto; try lia. apply IH; lia.
Qed.
Lemma nth_skipn {A} (l : list A) i q d : nth q (skipn i l) d = nth (i + q) l d.
Proof.
  revert i q; induction l as [|x l IH]; intros [|i] q; cbn; auto. now destruct q.
Qed.

Lemma Mi_rel_prime ms i : basis_ok ms -> (i < length ms)%nat -> rel_prime (Mi ms i) (modulus ms i).
Proof.
  intros Hb Hi. rewrite Mi_eq by auto. apply rel_prime_sym, rel_prime_mult.
  - apply rel_prime_prod, Forall_forall. intros x Hx. apply (In_nth _ _ 1) in Hx.
    destruct Hx as (q & Hq & <-). rewrite firstn_length in Hq.
    rewrite nth_firstn by lia. apply (coprimes_ne ms i q); try apply Hb; lia.
  - apply rel_prime_prod, Forall_forall. intros x Hx. apply (In_nth _ _ 1) in Hx.
    destruct Hx as (q & Hq & <-). rewrite skipn_length in Hq.
    rewrite nth_skipn. apply (coprimes_ne ms i (S i + q)); try apply Hb; lia.
Qed.

Lemma zinv_coprime p a : 2 <= p -> rel_prime a p -> congr p (a * zinv p a) 1 /\ 0 <= zinv p a < p.
Proof.
  intros H2 Hr. unfold zinv.
  apply rel_prime_bezout in Hr. destruct Hr as [u v Huv].
  set (f := fun x : nat => (a * Z.of_nat x) mod p =? 1).
  assert (exists x, In x (seq 0 (Z.to_nat p)) /\ f x = true) as (x & Hx & Hfx).
  { exists (Z.to_nat (u mod p)). pose proof (Z.mod_pos_bound u p ltac:(lia)). split.
    - apply in_seq. lia.
    - unfold f. rewrite Z2Nat.id by lia. apply Z.eqb_eq.
      rewrite Z.mul_mod_idemp_r by lia. replace (a * u) with (1 + (- v) * p) by lia.
      rewrite Z.mod_add by lia. apply Z.mod_1_l. lia. }
  destruct (find f (seq 0 (Z.to_nat p))) as [y|] eqn:E.
  - apply find_some in E. destruct E as [I E]. unfold f in E. apply Z.eqb_eq in E. split.
    + exists (a * Z.of_nat y / p). pose proof (Z.div_mod (a * Z.of_nat y) p ltac:(lia)). lia.
    + apply in_seq in I. lia.
  - pose proof (find_none _ _ E x Hx). congruence.
Qed.

Lemma congr_mod p a : 2 <= p -> congr p (a mod p) a.
Proof. intro H. exists (- (a / p)). pose proof (Z.div_mod a p ltac:(lia)). lia. Qed.

Lemma MMi_ok ms i : basis_ok ms -> (i < length ms)%nat ->
  congr (modulus ms i) (Mi ms i * MMi ms i) 1 /\ 0 <= MMi ms i < modulus ms i.
Proof.
  intros Hb Hi. pose proof (modulus_ge ms i Hb Hi) as H2. unfold MMi.
  destruct (zinv_coprime (modulus ms i) (Mi ms i mod modulus ms i)) as [H1 H3]; auto.
  - apply rel_prime_mod; [lia|]. now apply Mi_rel_prime.
  - split; auto. eapply congr_trans; [|exact H1].
    apply congr_mul; [apply congr_sym, congr_mod; lia|apply congr_refl].
Qed.

Lemma Mi_pos ms i : basis_ok ms -> (i < length ms)%nat -> 1 <= Mi ms i.
Proof.
  intros Hb Hi. pose proof (modulus_ge ms i Hb Hi). pose proof (Mi_mul ms i Hb Hi).
  pose proof (Mprod_pos ms (proj1 Hb)). nia.
Qed.

(** ** Base 2^16 *)
Lemma pow16_pos l : 0 < 2 ^ (16 * Z.of_nat l).
Proof. apply Z.pow_pos_nonneg; lia. Qed.
Lemma pow16_S l : 2 ^ (16 * Z.of_nat (S l)) = 2 ^ 16 * 2 ^ (16 * Z.of_nat l).
Proof. rewrite <- Z.pow_add_r by lia. f_equal. lia. Qed.

Lemma digits_mag a k : 0 <= a ->
  Zsum (fun l => a / 2 ^ (16 * Z.of_nat l) mod 2 ^ 16 * 2 ^ (16 * Z.of_nat l)) k
  = a mod 2 ^ (16 * Z.of_nat k).
Proof.
  intro Ha. induction k as [|k IH]; cbn [Zsum]; [cbn; now rewrite Z.mod_1_r|].
  rewrite IH, pow16_S. pose proof (pow16_pos k).
  rewrite (Z.mul_comm (2 ^ 16)), Z.rem_mul_r by lia. lia.
Qed.

Lemma Zsum_ext f g n : (forall i, (i < n)%nat -> f i = g i) -> Zsum f n = Zsum g n.
Proof. induction n as [|n IH]; cbn [Zsum]; intro H; auto. rewrite IH, H; auto. Qed.
Lemma Zsum_scale c f n : Zsum (fun i => c * f i) n = c * Zsum f n.
Proof. induction n as [|n IH]; cbn [Zsum]; [lia|]. rewrite IH. ring. Qed.
Lemma Zsum_add f g n : Zsum (fun i => f i + g i) n = Zsum f n + Zsum g n.
Proof. induction n as [|n IH]; cbn [Zsum]; [lia|]. rewrite IH. ring. Qed.
Lemma Zsum_swap f m n : Zsum (fun i => Zsum (fun j => f i j) n) m = Zsum (fun j => Zsum (fun i => f i j) m) n.
Proof.
  induction m as [|m IH]; cbn [Zsum].
  - induction n as [|n IHn]; cbn [Zsum]; lia.
  - rewrite IH, <- Zsum_add. reflexivity.
Qed.
Lemma Zsum_congr p f g n : (forall i, (i < n)%nat -> congr p (f i) (g i)) -> congr p (Zsum f n) (Zsum g n).
Proof.
  induction n as [|n IH]; cbn [Zsum]; intro H; [apply congr_refl|].
  apply congr_add; auto.
Qed.

Lemma digits_sum a k : Z.abs a < 2 ^ (16 * Z.of_nat k) ->
  Zsum (fun l => digit a l * 2 ^ (16 * Z.of_nat l)) k = a.
Proof.
  intro Ha. unfold digit.
  rewrite (Zsum_ext _ (fun l => Z.sgn a * (Z.abs a / 2 ^ (16 * Z.of_nat l) mod 2 ^ 16 * 2 ^ (16 * Z.of_nat l))))
    by (intros; ring).
  rewrite Zsum_scale, digits_mag by lia. rewrite Z.mod_small by lia. lia.
Qed.

Lemma digit_bound a l : Z.abs (digit a l) <= 2 ^ 16 - 1.
Proof.
  unfold digit. pose proof (Z.mod_pos_bound (Z.abs a / 2 ^ (16 * Z.of_nat l)) (2 ^ 16) ltac:(lia)).
  rewrite Z.abs_mul. pose proof (Z.sgn_spec a). nia.
Qed.
Lemma digit_nonneg a l : 0 <= a -> 0 <= digit a l.
Proof.
  intro. unfold digit. pose proof (Z.mod_pos_bound (Z.abs a / 2 ^ (16 * Z.of_nat l)) (2 ^ 16) ltac:(lia)).
  pose proof (Z.sgn_spec a). nia.
Qed.

Lemma nwords_bound n : Z.abs n < 2 ^ (16 * Z.of_nat (nwords n)).
Proof.
  assert (H : bitsize n <= 16 * Z.of_nat (nwords n)).
  { unfold nwords. assert (0 < bitsize n) by (unfold bitsize; destruct (n =? 0); [lia|pose proof (Z.log2_nonneg (Z.abs n)); lia]).
    pose proof (Z.div_mod (bitsize n) 16 ltac:(lia)). pose proof (Z.mod_pos_bound (bitsize n) 16 ltac:(lia)).
    pose proof (Z.div_pos (bitsize n) 16 ltac:(lia) ltac:(lia)).
    rewrite Z2Nat.id by (destruct (bitsize n mod 16 =? 0); lia).
    destruct (Z.eqb_spec (bitsize n mod 16) 0); lia. }
  apply Z.lt_le_trans with (2 ^ bitsize n); [|apply Z.pow_le_mono_r; lia].
  unfold bitsize. destruct (Z.eqb_spec n 0) as [->|Hn]; [cbn; lia|].
  pose proof (Z.log2_spec (Z.abs n) ltac:(lia)). rewrite <- Z.add_1_r in *. lia.
Qed.

Lemma nwords_mono a b : Z.abs a <= Z.abs b -> (nwords a <= nwords b)%nat.
Proof.
  intro H. unfold nwords. set (x := bitsize a). set (y := bitsize b).
  assert (x <= y).
  { unfold x, y, bitsize. destruct (Z.eqb_spec a 0), (Z.eqb_spec b 0); try lia.
    - pose proof (Z.log2_nonneg (Z.abs b)). lia.
    - pose proof (Z.log2_le_mono _ _ H). lia. }
  pose proof (Z.div_mod x 16 ltac:(lia)). pose proof (Z.mod_pos_bound x 16 ltac:(lia)).
  pose proof (Z.div_mod y 16 ltac:(lia)). pose proof (Z.mod_pos_bound y 16 ltac:(lia)).
  destruct (Z.eqb_spec (x mod 16) 0), (Z.eqb_spec (y mod 16) 0); lia.
Qed.

(** ** Conversion to residues *)
Lemma crt_in_ok m l : 2 <= m -> congr m (crt_in m l) (2 ^ (16 * Z.of_nat l)) /\ 0 <= crt_in m l <= m - 1.
Proof.
  intro Hm. induction l as [|l [IH1 IH2]].
  - cbn. split; [apply congr_refl|lia].
  - change (crt_in m (S l)) with ((crt_in m l * 2 ^ 16) mod m). split.
    + eapply congr_trans; [apply congr_mod; lia|]. rewrite pow16_S, Z.mul_comm.
      apply congr_mul; [apply congr_refl|exact IH1].
    + pose proof (Z.mod_pos_bound (crt_in m l * 2 ^ 16) m ltac:(lia)). lia.
Qed.

Definition two_roundings (how : option bool) : bool :=
  match how with Some false => true | _ => false end.

Lemma rns_red_ok prec how a m : 2 <= m -> 1 <= prec -> m <= 2 ^ prec ->
  Z.abs a + (if two_roundings how then m else 0) <= 2 ^ prec ->
  is_repr m 0 a (rns_red prec how a m).
Proof.
  intros Hm Hp Hmp Ha. assert (W : wf (modular m)) by (split; cbn; unfold fhi; cbn; lia).
  destruct how as [[|]|]; cbn [two_roundings rns_red] in *.
  - pose proof (reduce_flt_ok (modular m) prec true a W Hp Hmp ltac:(lia) ltac:(discriminate)) as H.
    exact H.
  - pose proof (reduce_flt_ok (modular m) prec false a W Hp Hmp ltac:(lia) ltac:(cbn; intros; lia)) as H.
    exact H.
  - pose proof (mod_simd_ok (modular m) prec a W Hp Hmp ltac:(lia)) as H. exact H.
Qed.

Lemma labs_prods x y k B : (forall l, (l < k)%nat -> Z.abs (x l * y l) <= B) ->
  labs (prods x y 0 k) <= Z.of_nat k * B.
Proof. intro H. unfold prods. apply labs_map_le. intros i Hi. apply H. lia. Qed.

Lemma lsum_prods x y k : lsum (prods x y 0 k) = Zsum (fun l => x l * y l) k.
Proof. unfold prods. now rewrite lsum_map, Zsum_Zsumr. Qed.

Lemma is_repr_congr m lo x y r : congr m x y -> is_repr m lo x r -> is_repr m lo y r.
Proof.
  intros Hc [H1 H2]. split; auto. change (congr m r y). eapply congr_trans; [exact H2|exact Hc].
Qed.

Lemma init_residue prec ord how m k a i : fair ord -> 1 <= prec -> 2 <= m -> m <= 2 ^ prec ->
  Z.of_nat k * ((m - 1) * (2 ^ 16 - 1)) + (if two_roundings how then m else 0) <= 2 ^ prec ->
  Z.abs a < 2 ^ (16 * Z.of_nat k) ->
  is_repr m 0 a (rns_red prec how (eval prec (ord i (prods (crt_in m) (digit a) 0 k))) m).
Proof.
  intros Hf Hp Hm Hmp Hr Ha.
  assert (L : labs (prods (crt_in m) (digit a) 0 k) <= Z.of_nat k * ((m - 1) * (2 ^ 16 - 1))).
  { apply labs_prods. intros l _. pose proof (crt_in_ok m l Hm). pose proof (digit_bound a l).
    rewrite Z.abs_mul. rewrite (Z.abs_eq (crt_in m l)) by lia. apply Z.mul_le_mono_nonneg; lia. }
  assert (E : eval prec (ord i (prods (crt_in m) (digit a) 0 k)) = Zsum (fun l => crt_in m l * digit a l) k).
  { rewrite blas_sum; auto. apply lsum_prods. destruct (two_roundings how); lia. }
  eapply is_repr_congr; [|apply rns_red_ok; auto].
  - rewrite E. pose proof (digits_sum a k Ha) as D.
    apply (congr_trans _ _ (Zsum (fun l => digit a l * 2 ^ (16 * Z.of_nat l)) k)); [|rewrite D; apply congr_refl].
    apply Zsum_congr. intros l _.
    rewrite (Z.mul_comm (digit a l)). apply congr_mul; [apply crt_in_ok; lia|apply congr_refl].
  - rewrite E, <- lsum_prods. pose proof (lsum_le_labs (prods (crt_in m) (digit a) 0 k)). lia.
Qed.

Lemma residues_map ms x (f : nat -> Z) :
  (forall i, (i < length ms)%nat -> is_repr (modulus ms i) 0 x (f i)) ->
  residues ms x (map f (seq 0 (length ms))).
Proof.
  unfold residues, modulus. intro H.
  assert (G : forall off, (forall i, (i < length ms)%nat -> is_repr (nth i ms 1) 0 x (f (off + i)%nat)) ->
     Forall2 (fun m r => is_repr m 0 x r) ms (map f (seq off (length ms)))).
  { clear H. induction ms as [|m ms IH]; intros off H; cbn [length seq map]; constructor.
    - specialize (H 0%nat ltac:(cbn; lia)). now rewrite Nat.add_0_r in H.
    - apply IH. intros i Hi. specialize (H (S i) ltac:(cbn; lia)). cbn [nth] in H.
      now rewrite Nat.add_succ_comm. }
  apply (G 0%nat). intros. cbn [Nat.add]. auto.
Qed.

Lemma residues_intro ms x r : length r = length ms ->
  (forall i, (i < length ms)%nat -> is_repr (modulus ms i) 0 x (nth i r 0)) -> residues ms x r.
Proof.
  unfold residues, modulus. revert r; induction ms as [|m ms IH]; intros [|r0 r] Hl H; try discriminate; constructor.
  - exact (H 0%nat ltac:(cbn; lia)).
  - apply IH; [cbn in Hl; lia|]. intros i Hi. exact (H (S i) ltac:(cbn; lia)).
Qed.

Lemma residues_nth ms x r i : residues ms x r -> (i < length ms)%nat ->
  is_repr (modulus ms i) 0 x (nth i r 0).
Proof.
  unfold residues, modulus. intro H. revert i. induction H as [|m r0 ms r H1 H2 IH]; intros i Hi; [cbn in Hi; lia|].
  destruct i as [|i]; cbn [nth]; auto. apply IH. cbn in Hi; lia.
Qed.

Lemma residues_length ms x r : residues ms x r -> length r = length ms.
Proof. unfold residues. induction 1; cbn; congruence. Qed.

Lemma Forall_nth_in {P : Z -> Prop} ms i : Forall P ms -> (i < length ms)%nat -> P (modulus ms i).
Proof. intros H Hi. rewrite Forall_forall in H. apply H, modulus_in, Hi. Qed.

Theorem init_ok prec ord how ms k a : fair ord -> 1 <= prec ->
  Forall (fun m => 2 <= m) ms -> room_in prec (two_roundings how) ms k ->
  (k <= ldm ms)%nat -> Z.abs a < 2 ^ (16 * Z.of_nat k) ->
  exists r, rns_init prec ord how ms k a = Some r /\ residues ms a r.
Proof.
  intros Hf Hp Hm Hr Hk Ha. unfold rns_init.
  destruct (Nat.ltb_spec (ldm ms) k); [lia|]. eexists. split; [reflexivity|].
  apply residues_map. intros i Hi. pose proof (Forall_nth_in ms i Hm Hi).
  pose proof (Forall_nth_in ms i Hr Hi) as [R1 R2]. cbn beta zeta in *.
  apply init_residue; auto.
Qed.

(** ** Conversion back *)
Lemma labs_list ms f g off : (forall i, (i < length ms)%nat -> Z.abs (f (off + i)%nat) <= g (nth i ms 1)) ->
  labs (map f (seq off (length ms))) <= fold_right (fun m s => g m + s) 0 ms.
Proof.
  revert off; induction ms as [|m ms IH]; intros off H; cbn [length seq map fold_right]; [cbn; lia|].
  rewrite labs_cons. pose proof (H 0%nat ltac:(cbn; lia)) as H0. rewrite Nat.add_0_r in H0. cbn [nth] in H0.
  specialize (IH (S off)). enough (labs (map f (seq (S off) (length ms))) <= fold_right (fun m s => g m + s) 0 ms) by lia.
  apply IH. intros i Hi. specialize (H (S i) ltac:(cbn; lia)). cbn [nth] in H. now rewrite Nat.add_succ_comm.
Qed.

Lemma fold_Zsum (f : nat -> Z) k : fold_right (fun l s => f l + s) 0 (seq 0 k) = Zsum f k.
Proof.
  rewrite Zsum_Zsumr. generalize 0%nat. induction k as [|k IH]; intro off; cbn [seq fold_right Zsumr]; auto.
  now rewrite IH.
Qed.

Lemma k4_ok k : (k + 3 <= 4 * k4 k)%nat.
Proof.
  unfold k4. pose proof (Nat.div_mod (k + 3) 4 ltac:(lia)). pose proof (Nat.mod_upper_bound (k + 3) 4 ltac:(lia)).
  destruct (Nat.eqb_spec (Nat.modulo (k + 3) 4) 0); lia.
Qed.

Lemma unkron_ok x k : (forall l, (l < k)%nat -> 0 <= x l < 2 ^ 64) ->
  unkron x k = Some (Zsum (fun l => x l * 2 ^ (16 * Z.of_nat l)) k).
Proof.
  intro H. unfold unkron.
  assert (E : forallb (fun l => (0 <=? x l) && (x l <? 2 ^ 64) && (l + 3 <? 4 * k4 k)%nat) (seq 0 k) = true).
  { apply forallb_forall. intros l Hl. apply in_seq in Hl. pose proof (H l ltac:(lia)). pose proof (k4_ok k).
    rewrite !andb_true_iff. repeat split; [apply Z.leb_le|apply Z.ltb_lt|apply Nat.ltb_lt]; lia. }
  rewrite E. f_equal. cbn zeta. rewrite !fold_Zsum, <- !Zsum_add. apply Zsum_ext. intros l Hl.
  pose proof (H l Hl) as Hx. pose proof (digits_mag (x l) 4 ltac:(lia)) as D.
  change (2 ^ (16 * Z.of_nat 4)) with (2 ^ 64) in D. rewrite Z.mod_small in D by lia.
  cbn [Zsum] in D. rewrite <- D at 5.
  assert (P : forall q, 2 ^ (16 * Z.of_nat (l + q)) = 2 ^ (16 * Z.of_nat q) * 2 ^ (16 * Z.of_nat l)).
  { intro q. rewrite <- Z.pow_add_r by lia. f_equal. lia. }
  rewrite !P. ring.
Qed.

Lemma accum_eq gamma c x : accum gamma c x = gamma * c + x.
Proof.
  unfold accum. destruct (Z.eqb_spec gamma 0) as [->|]; [lia|].
  destruct (Z.eqb_spec gamma 1) as [->|]; [lia|]. destruct (Z.eqb_spec gamma (-1)) as [->|]; lia.
Qed.

Lemma centre_ok M s : 1 <= M -> congr M (centre M s) s /\ centred M (centre M s).
Proof.
  intro HM. unfold centre, centred. pose proof (Z.div_mod s M ltac:(lia)). pose proof (Z.mod_pos_bound s M ltac:(lia)).
  pose proof (Z.div_mod (M - 1) 2 ltac:(lia)). pose proof (Z.mod_pos_bound (M - 1) 2 ltac:(lia)).
  destruct (Z.ltb_spec ((M - 1) / 2) (s mod M)); (split; [|lia]).
  - exists (- (s / M) - 1). lia.
  - exists (- (s / M)). lia.
Qed.

Lemma congr_div d p x y : (d | p) -> congr p x y -> congr d x y.
Proof. intros [e ->] [q H]. exists (q * e). lia. Qed.

Lemma Zsum_one f n i : (i < n)%nat -> (forall j, (j < n)%nat -> j <> i -> f j = 0) -> Zsum f n = f i.
Proof.
  induction n as [|n IH]; intros Hi H; [lia|]. cbn [Zsum]. destruct (Nat.eq_dec i n) as [->|Hn].
  - assert (G : forall k, (k <= n)%nat -> Zsum f k = 0).
    { induction k as [|k IHk]; intro Hk; cbn [Zsum]; auto. rewrite IHk, H by lia. lia. }
    rewrite G by lia. lia.
  - rewrite IH; [rewrite (H n) by lia; lia|lia|intros; apply H; lia].
Qed.

Lemma crt_sum ms (r : nat -> Z) i : basis_ok ms -> (i < length ms)%nat ->
  congr (modulus ms i) (Zsum (fun j => r j * (Mi ms j * MMi ms j)) (length ms)) (r i).
Proof.
  intros Hb Hi.
  apply (congr_trans _ _ (Zsum (fun j => if Nat.eq_dec j i then r i else 0) (length ms))).
  - apply Zsum_congr. intros j Hj. destruct (Nat.eq_dec j i) as [->|Hn].
    + pose proof (MMi_ok ms i Hb Hi) as [[q H] _]. exists (r i * q).
      rewrite <- Z.mul_assoc, <- H. ring.
    + destruct (Mi_other ms j i Hb Hj Hi Hn) as [q ->]. exists (r j * q * MMi ms j). ring.
  - rewrite (Zsum_one _ _ i Hi).
    + destruct (Nat.eq_dec i i); [apply congr_refl|lia].
    + intros j _ Hj. now destruct (Nat.eq_dec j i).
Qed.

Lemma kron_ok prec ord ms r l : fair ord -> basis_ok ms -> room_out prec ms ->
  (forall i, (i < length ms)%nat -> 0 <= nth i r 0 < modulus ms i) ->
  kron prec ord ms r l = Zsum (fun i => nth i r 0 * crt_out ms i l) (length ms) /\
  0 <= kron prec ord ms r l <= 2 ^ prec.
Proof.
  intros Hf Hb Ho Hr. unfold kron.
  assert (L : labs (prods (fun i => nth i r 0) (fun i => crt_out ms i l) 0 (length ms)) <= 2 ^ prec).
  { eapply Z.le_trans; [|exact Ho]. unfold prods. apply (labs_list ms _ (fun m => (m - 1) * (2 ^ 16 - 1))).
    intros i Hi. cbn [Nat.add]. pose proof (Hr i Hi) as R. unfold modulus in R.
    rewrite Z.abs_mul. pose proof (digit_bound (Mi ms i * MMi ms i) l). unfold crt_out.
    apply Z.mul_le_mono_nonneg; lia. }
  assert (E : eval prec (ord l (prods (fun i => nth i r 0) (fun i => crt_out ms i l) 0 (length ms)))
     = Zsum (fun i => nth i r 0 * crt_out ms i l) (length ms)).
  { rewrite blas_sum; auto. apply lsum_prods. }
  split; [exact E|]. pose proof (lsum_le_labs (prods (fun i => nth i r 0) (fun i => crt_out ms i l) 0 (length ms))) as B.
  rewrite E. rewrite lsum_prods in B. split; [|lia].
  clear -Hr Hb. assert (G : forall k, (k <= length ms)%nat -> 0 <= Zsum (fun i => nth i r 0 * crt_out ms i l) k).
  { induction k as [|k IH]; intro Hk; cbn [Zsum]; [lia|].
    assert (0 <= crt_out ms k l).
    { apply digit_nonneg. pose proof (Mi_pos ms k Hb ltac:(lia)). pose proof (MMi_ok ms k Hb ltac:(lia)). nia. }
    pose proof (Hr k ltac:(lia)). specialize (IH ltac:(lia)). nia. }
  now apply G.
Qed.

Lemma convert_sum prec ord ms gamma r c : fair ord -> prec <= 63 -> basis_ok ms -> room_out prec ms ->
  (forall i, (i < length ms)%nat -> 0 <= nth i r 0 < modulus ms i) ->
  rns_convert prec ord ms gamma r c
  = Some (gamma * c + centre (Mprod ms) (Zsum (fun i => nth i r 0 * (Mi ms i * MMi ms i)) (length ms))).
Proof.
  intros Hf Hp Hb Ho Hr. unfold rns_convert.
  assert (2 ^ prec < 2 ^ 64).
  { apply Z.le_lt_trans with (2 ^ 63); [apply Z.pow_le_mono_r; lia|reflexivity]. }
  rewrite unkron_ok.
  2:{ intros l Hl. pose proof (kron_ok prec ord ms r l Hf Hb Ho Hr). lia. }
  rewrite accum_eq. do 3 f_equal.
  rewrite (Zsum_ext _ (fun l => Zsum (fun i => nth i r 0 * crt_out ms i l * 2 ^ (16 * Z.of_nat l)) (length ms))).
  2:{ intros l _. rewrite (proj1 (kron_ok prec ord ms r l Hf Hb Ho Hr)).
      rewrite Z.mul_comm, <- Zsum_scale. apply Zsum_ext. intros; ring. }
  rewrite Zsum_swap. apply Zsum_ext. intros i Hi.
  rewrite (Zsum_ext _ (fun l => nth i r 0 * (crt_out ms i l * 2 ^ (16 * Z.of_nat l)))) by (intros; ring).
  rewrite Zsum_scale. f_equal. unfold crt_out. apply digits_sum.
  eapply Z.lt_trans; [|exact (nwords_bound (Mprod ms))].
  pose proof (Mi_pos ms i Hb Hi). pose proof (MMi_ok ms i Hb Hi) as [_ R]. pose proof (Mi_mul ms i Hb Hi).
  pose proof (Mprod_pos ms (proj1 Hb)). rewrite !Z.abs_eq by nia. nia.
Qed.

Lemma crt_centre ms r i : basis_ok ms -> (i < length ms)%nat ->
  congr (modulus ms i) (centre (Mprod ms) (Zsum (fun j => r j * (Mi ms j * MMi ms j)) (length ms))) (r i).
Proof.
  intros Hb Hi. eapply congr_trans; [|apply crt_sum; auto].
  eapply congr_div; [apply modulus_div; exact Hi|]. apply centre_ok, Mprod_pos, Hb.
Qed.

Theorem convert_ok prec ord ms gamma r c : fair ord -> prec <= 63 -> basis_ok ms -> room_out prec ms ->
  length r = length ms ->
  (forall i, (i < length ms)%nat -> 0 <= nth i r 0 < nth i ms 1) ->
  exists x, rns_convert prec ord ms gamma r c = Some (gamma * c + x) /\
    residues ms x r /\ centred (product ms) x.
Proof.
  intros Hf Hp Hb Ho Hl Hr. eexists. split; [apply convert_sum; auto|]. split.
  - apply residues_intro; auto. intros i Hi. pose proof (Hr i Hi). unfold is_repr.
    split; [unfold modulus; lia|]. change (congr (modulus ms i) (nth i r 0) (centre (Mprod ms) (Zsum (fun j => nth j r 0 * (Mi ms j * MMi ms j)) (length ms)))).
    apply congr_sym. now apply (crt_centre ms (fun j => nth j r 0)).
  - rewrite <- product_Mprod. apply centre_ok, Mprod_pos, Hb.
Qed.

Theorem residues_unique ms x y r : basis_ok ms -> residues ms x r -> residues ms y r ->
  centred (product ms) x -> centred (product ms) y -> x = y.
Proof.
  intros Hb Hx Hy Cx Cy. assert (D : (Mprod ms | x - y)).
  { apply crt_div; [apply Hb|]. apply Forall_forall. intros m Hm. apply (In_nth _ _ 1) in Hm.
    destruct Hm as (i & Hi & <-). destruct (residues_nth ms x r i Hx Hi) as [_ [q1 H1]].
    destruct (residues_nth ms y r i Hy Hi) as [_ [q2 H2]]. unfold modulus in *. exists (q2 - q1). lia. }
  rewrite product_Mprod in D. destruct D as [q D]. unfold centred in *.
  assert (q = 0) by nia. lia.
Qed.

Theorem round_trip prec ord ord' how ms k a gamma c : fair ord -> fair ord' -> 1 <= prec <= 63 ->
  basis_ok ms -> room_in prec (two_roundings how) ms k -> room_out prec ms ->
  (k <= ldm ms)%nat -> Z.abs a < 2 ^ (16 * Z.of_nat k) -> centred (product ms) a ->
  exists r, rns_init prec ord how ms k a = Some r /\
    rns_convert prec ord' ms gamma r c = Some (gamma * c + a).
Proof.
  intros Hf Hf' Hp Hb Hi Ho Hk Ha Hc.
  destruct (init_ok prec ord how ms k a Hf ltac:(lia) (proj1 Hb) Hi Hk Ha) as (r & E & Hr).
  exists r. split; auto.
  destruct (convert_ok prec ord' ms gamma r c Hf' ltac:(lia) Hb Ho) as (x & -> & Hx & Cx).
  - eapply residues_length; eauto.
  - intros i Hi'. pose proof (residues_nth ms a r i Hr Hi') as [R _]. unfold modulus in R. lia.
  - do 2 f_equal. eapply residues_unique; eauto.
Qed.
