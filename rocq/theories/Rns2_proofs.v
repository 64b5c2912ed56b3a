From Coq Require Import ZArith Znumtheory List Lia Bool Permutation.
From Verif Require Import Delayed_model Delayed_spec Delayed_proofs Red_model Red_proofs Rns_model Rns_spec Rns_proofs.
Import ListNotations.
Open Scope Z_scope.

(** ** Construction from a bound *)
Lemma coprimes_snoc ms p : coprimes ms -> Forall (fun q => rel_prime q p) ms -> coprimes (ms ++ [p]).
Proof.
  induction ms as [|m ms IH]; cbn; intros Hc Hp; auto. destruct Hc as [H1 H2]. inversion_clear Hp.
  split; auto. apply Forall_app. auto.
Qed.
Lemma Mprod_snoc ms p : Mprod (ms ++ [p]) = Mprod ms * p.
Proof. unfold Mprod. induction ms as [|m ms IH]; cbn [app fold_right]; [ring|]. rewrite IH. ring. Qed.

Fixpoint lsumz (l : list Z) : Z := match l with [] => 0 | x :: l => x + lsumz l end.
Lemma lsumz_snoc l x : lsumz (l ++ [x]) = lsumz l + x.
Proof. induction l as [|y l IH]; cbn; lia. Qed.

Lemma build_inv draws bound (rm : bool) : Forall prime draws -> forall ms M s,
  basis_ok ms -> M = Mprod ms -> s = 1 + (if rm then lsumz ms else 0) ->
  forall ms', build_loop draws bound rm ms M s = Some ms' ->
  basis_ok ms' /\ (forall x, In x ms' -> In x ms \/ In x draws) /\
  bound * (1 + (if rm then lsumz ms' else 0)) <= Mprod ms'.
Proof.
  induction draws as [|p draws IH]; intros Hd ms M s Hb HM Hs ms' E; cbn [build_loop] in E.
  - destruct (Z.leb_spec (bound * s) M); [|discriminate]. injection E as <-. subst. auto.
  - destruct (Z.leb_spec (bound * s) M); [injection E as <-; subst; auto|].
    inversion_clear Hd as [|? ? Hp Hd']. destruct (Z.eqb_spec (M mod p) 0) as [Hz|Hz].
    + destruct (IH Hd' ms M s Hb HM Hs ms' E) as (H1 & H2 & H3). repeat split; try apply H1; auto.
      intros x Hx. destruct (H2 x Hx); auto. right; now right.
    + pose proof (prime_ge_2 p Hp).
      assert (Hr : rel_prime p M).
      { apply prime_rel_prime; auto. intros [q Hq]. apply Hz. subst M. rewrite Hq. apply Z.mod_mul. lia. }
      assert (Hall : Forall (fun q => rel_prime q p) ms).
      { apply Forall_forall. intros q Hq.
        apply rel_prime_div with M; [apply rel_prime_sym; auto|]. subst M.
        apply (In_nth _ _ 1) in Hq. destruct Hq as (i & Hi & <-). now apply modulus_div. }
      destruct (IH Hd' (ms ++ [p]) (M * p) (if rm then s + p else s)) with (ms' := ms') as (H1 & H2 & H3); auto.
      * destruct Hb as [B1 B2]. split; [apply Forall_app; auto|apply coprimes_snoc; auto].
      * now rewrite Mprod_snoc, HM.
      * destruct rm; rewrite ?lsumz_snoc; lia.
      * repeat split; try apply H1; auto. intros x Hx. destruct (H2 x Hx) as [Hx'|]; [|right; now right].
        apply in_app_or in Hx'. destruct Hx' as [|[->|[]]]; auto. right; now left.
Qed.

Theorem rns_bound_ok draws bound (rm : bool) ms : Forall prime draws -> rns_bound draws bound rm = Some ms ->
  basis_ok ms /\ incl ms draws /\
  bound * (1 + (if rm then fold_right Z.add 0 ms else 0)) <= product ms.
Proof.
  intros Hd E. destruct (build_inv draws bound rm Hd [] 1 1) with (ms' := ms) as (H1 & H2 & H3); auto.
  - split; constructor.
  - destruct rm; reflexivity.
  - split; auto. split; [intros x Hx; destruct (H2 x Hx) as [[]|]; auto|].
    rewrite <- product_Mprod. destruct rm; auto.
 
Qed.

(** ** Norms *)
Lemma infnorm_bound m n A i j : (i < m)%nat -> (j < n)%nat -> Z.abs (A i j) <= infnorm m n A.
Proof.
  intros Hi Hj. unfold infnorm.
  assert (G1 : forall (f : nat -> Z) l mx, Z.abs mx <= Z.abs (fold_left (fun mx j => if Z.abs mx <? Z.abs (f j) then f j else mx) l mx)).
  { intros f l; induction l as [|q l IH]; intro mx; cbn [fold_left]; [lia|].
    eapply Z.le_trans; [|apply IH]. destruct (Z.ltb_spec (Z.abs mx) (Z.abs (f q))); lia. }
  assert (G2 : forall (f : nat -> Z) l mx q, In q l -> Z.abs (f q) <= Z.abs (fold_left (fun mx j => if Z.abs mx <? Z.abs (f j) then f j else mx) l mx)).
  { intros f l; induction l as [|q' l IH]; intros mx q Hq; [destruct Hq|]. cbn [fold_left].
    destruct Hq as [->|Hq]; [|auto]. eapply Z.le_trans; [|apply G1].
    destruct (Z.ltb_spec (Z.abs mx) (Z.abs (f q))); lia. }
  assert (G3 : forall l mx, Z.abs mx <= Z.abs (fold_left (fun mx i => fold_left (fun mx j => if Z.abs mx <? Z.abs (A i j) then A i j else mx) (seq 0 n) mx) l mx)).
  { induction l as [|q l IH]; intro mx; cbn [fold_left]; [lia|]. eapply Z.le_trans; [|apply IH]. apply G1. }
  assert (G4 : forall l mx, In i l -> Z.abs (A i j) <= Z.abs (fold_left (fun mx i => fold_left (fun mx j => if Z.abs mx <? Z.abs (A i j) then A i j else mx) (seq 0 n) mx) l mx)).
  { induction l as [|q l IH]; intros mx Hq; [destruct Hq|]. cbn [fold_left]. destruct Hq as [->|Hq]; [|auto].
    eapply Z.le_trans; [|apply G3]. apply G2. apply in_seq. lia. }
  apply G4. apply in_seq. lia.
Qed.

(** ** The product over the integers *)
Lemma Zsum_abs f n B : (forall l, (l < n)%nat -> Z.abs (f l) <= B) -> Z.abs (Zsum f n) <= Z.of_nat n * B.
Proof.
  induction n as [|n IH]; intro H; cbn [Zsum]; [lia|].
  pose proof (H n ltac:(lia)). specialize (IH ltac:(auto)). nia.
Qed.

Definition run_ok (R : mp_run) : Prop :=
  fair (ord_in R) /\ fair (ord_out R) /\ forall q i j, fair (ord_mm R q i j).

Lemma pb_bound prec k m : (0 < k)%nat -> 2 <= m -> m < 2 ^ prime_bitsize prec k ->
  Z.of_nat k * ((m - 1) * (m - 1)) <= 2 ^ prec - 1.
Proof.
  intros Hk Hm Hlt. unfold prime_bitsize in *. set (lk := Z.log2 (Z.of_nat k) + 1) in *.
  pose proof (Z.log2_spec (Z.of_nat k) ltac:(lia)) as [_ L]. rewrite <- Z.add_1_r in L. fold lk in L.
  pose proof (Z.log2_nonneg (Z.of_nat k)).
  set (pb := (prec - lk) / 2) in *. assert (2 * pb + lk <= prec).
  { unfold pb. pose proof (Z.div_mod (prec - lk) 2 ltac:(lia)). pose proof (Z.mod_pos_bound (prec - lk) 2 ltac:(lia)). lia. }
  assert (0 <= pb). { destruct (Z.le_gt_cases 0 pb); auto. rewrite Z.pow_neg_r in Hlt by lia. lia. }
  assert (E : 2 ^ (2 * pb + lk) = 2 ^ pb * 2 ^ pb * 2 ^ lk).
  { rewrite <- !Z.pow_add_r by lia. f_equal. lia. }
  pose proof (Z.pow_le_mono_r 2 _ _ ltac:(lia) H0). rewrite E in *.
  assert (0 < 2 ^ pb) by (apply Z.pow_pos_nonneg; lia).
  assert ((m - 1) * (m - 1) <= 2 ^ pb * 2 ^ pb - 1) by nia. nia.
Qed.

Lemma fgemm_Z_ok prec R m n k alpha A B beta C nA nB mx my i j ms :
  1 <= prec <= 63 -> run_ok R ->
  Forall prime (draws R (prime_bitsize prec k)) ->
  Forall (fun p => 2 < p < 2 ^ prime_bitsize prec k) (draws R (prime_bitsize prec k)) ->
  alpha <> 0 -> (0 < k)%nat -> (i < m)%nat -> (j < n)%nat ->
  (if nA =? 0 then infnorm m k A else nA) = mx -> (if nB =? 0 then infnorm k n B else nB) = my ->
  0 < mx -> 0 < my ->
  (forall i l, (i < m)%nat -> (l < k)%nat -> Z.abs (A i l) <= mx) ->
  (forall l j, (l < k)%nat -> (j < n)%nat -> Z.abs (B l j) <= my) ->
  rns_bound (draws R (prime_bitsize prec k)) (2 * Z.of_nat k * mx * my * Z.abs alpha) false = Some ms ->
  room_in prec (two_roundings (red_how R)) ms (ldm ms) -> room_out prec ms ->
  fgemm_Z prec R m n k alpha A B beta C nA nB i j
    = Some (alpha * Zsum (fun l => A i l * B l j) k + beta * C i j).
Proof.
  intros Hp (Fi & Fo & Fm) Hpr Hrange Hal Hk Hi Hj EA EB PA PB BA BB Ems Rin Rout.
  unfold fgemm_Z. destruct (Z.eqb_spec alpha 0); [lia|]. destruct (Nat.eqb_spec k 0); [lia|].
  rewrite EA, EB. clear EA EB. set (mC := 2 * Z.of_nat k * mx * my * Z.abs alpha) in *.
  assert (HmC : 0 < mC) by (unfold mC; repeat apply Z.mul_pos_pos; lia).
  destruct (Z.eqb_spec mC 0); [lia|]. rewrite Ems.
  destruct (rns_bound_ok _ _ _ _ Hpr Ems) as (Hb & Hincl & HM). cbn [fold_right] in HM.
  rewrite Z.add_0_r, Z.mul_1_r in HM.
  assert (HMx : mx <= Mprod ms /\ my <= Mprod ms /\ Z.abs alpha <= Mprod ms).
  { rewrite product_Mprod. assert (mx <= mC /\ my <= mC /\ Z.abs alpha <= mC); [|lia].
    unfold mC. set (q := Z.of_nat k) in *. assert (1 <= q) by lia. set (al := Z.abs alpha) in *. assert (1 <= al) by lia.
    assert (1 <= mx * my) by nia. assert (mx <= mx * my /\ my <= mx * my) by nia.
    assert (mx * my <= mx * my * al) by nia. assert (al <= mx * my * al) by nia.
    assert (mx * my * al <= 2 * q * mx * my * al) by nia. lia. }
  assert (ini_ok : forall w x, (w <= ldm ms)%nat -> Z.abs x < 2 ^ (16 * Z.of_nat w) ->
     exists r, rns_init prec (ord_in R) (red_how R) ms w x = Some r /\ residues ms x r).
  { intros w x Hw Hx. apply init_ok; auto; [lia|apply Hb|].
    unfold room_in in *. rewrite Forall_forall in *. intros q Hq. destruct (Rin q Hq) as [R1 R2]. split; auto.
    eapply Z.le_trans; [|exact R2]. apply Z.add_le_mono_r. apply Z.mul_le_mono_nonneg_r; [|lia].
    destruct Hb as [Hb _]. rewrite Forall_forall in Hb. pose proof (Hb q Hq). nia. }
  assert (NW : forall x y, 0 < y -> y <= Mprod ms -> Z.abs x <= y -> (nwords y <= ldm ms)%nat /\ Z.abs x < 2 ^ (16 * Z.of_nat (nwords y))).
  { intros x y H1 H2 H3. split; [apply nwords_mono; lia|]. pose proof (nwords_bound y). lia. }
  destruct (ini_ok (nwords alpha) alpha) as (ra & Ea & Hra).
  { apply nwords_mono. lia. } { apply nwords_bound. }
  assert (EA : forall i l, (i < m)%nat -> (l < k)%nat -> exists r, rns_init prec (ord_in R) (red_how R) ms (nwords mx) (A i l) = Some r /\ residues ms (A i l) r).
  { intros i' l Hi' Hl. destruct (NW (A i' l) mx) as [N1 N2]; auto; try lia. }
  assert (EB : forall l j, (l < k)%nat -> (j < n)%nat -> exists r, rns_init prec (ord_in R) (red_how R) ms (nwords my) (B l j) = Some r /\ residues ms (B l j) r).
  { intros l j' Hl Hj'. destruct (NW (B l j') my) as [N1 N2]; auto; try lia. }
  cbn zeta.
  assert (Hall : is_some (rns_init prec (ord_in R) (red_how R) ms (nwords alpha) alpha) &&
    forallb (fun l => is_some (rns_init prec (ord_in R) (red_how R) ms (nwords mx) (A i l)) &&
                      is_some (rns_init prec (ord_in R) (red_how R) ms (nwords my) (B l j))) (seq 0 k) = true).
  { rewrite Ea. cbn [is_some andb]. apply forallb_forall. intros l Hl. apply in_seq in Hl.
    destruct (EA i l Hi ltac:(lia)) as (r1 & -> & _). destruct (EB l j ltac:(lia) Hj) as (r2 & -> & _). reflexivity. }
  rewrite Hall. set (x := alpha * Zsum (fun l => A i l * B l j) k).
  set (r := map _ (seq 0 (length ms))).
  assert (Hr : residues ms x r).
  { apply residues_map. intros q Hq.
    assert (Hin : In (modulus ms q) (draws R (prime_bitsize prec k))) by (apply Hincl, modulus_in, Hq).
    rewrite Forall_forall in Hpr, Hrange. pose proof (Hpr _ Hin) as Hprm. pose proof (Hrange _ Hin) as Hrg.
    assert (W : wf (modular (modulus ms q))) by (split; cbn; unfold fhi; cbn; lia).
    pose proof (fgemm_delayed_ok (modular (modulus ms q)) prec (ord_mm R q) m n k
      (res_of (rns_init prec (ord_in R) (red_how R) ms (nwords alpha) alpha) q)
      (fun i l => res_of (rns_init prec (ord_in R) (red_how R) ms (nwords mx) (A i l)) q)
      (fun l j => res_of (rns_init prec (ord_in R) (red_how R) ms (nwords my) (B l j)) q) 0 (fun _ _ => 0)
      W Hprm ltac:(lia) (Fm q)) as G.
    cbn [fp flo modular] in G.
    assert (Ral : is_repr (modulus ms q) 0 alpha (res_of (rns_init prec (ord_in R) (red_how R) ms (nwords alpha) alpha) q)).
    { rewrite Ea. cbn [res_of]. now apply residues_nth. }
    assert (RA : forall i l, (i < m)%nat -> (l < k)%nat -> is_repr (modulus ms q) 0 (A i l) (res_of (rns_init prec (ord_in R) (red_how R) ms (nwords mx) (A i l)) q)).
    { intros i' l Hi' Hl. destruct (EA i' l Hi' Hl) as (r1 & -> & Hr1). cbn [res_of]. now apply residues_nth. }
    assert (RB : forall l j, (l < k)%nat -> (j < n)%nat -> is_repr (modulus ms q) 0 (B l j) (res_of (rns_init prec (ord_in R) (red_how R) ms (nwords my) (B l j)) q)).
    { intros l j' Hl Hj'. destruct (EB l j' Hl Hj') as (r1 & -> & Hr1). cbn [res_of]. now apply residues_nth. }
    destruct (G) with (i := i) (j := j) as [G1 _].
    - intros i' l Hi' Hl. apply (RA i' l Hi' Hl).
    - intros l j' Hl Hj'. apply (RB l j' Hl Hj').
    - intros. unfold reduced. lia.
    - apply Ral.
    - unfold reduced; lia.
    - intros _. left. cbn [fp flo modular]. rewrite Z.max_r by lia. 
      replace (0 + modulus ms q - 1) with (modulus ms q - 1) by lia. apply pb_bound; auto; lia.
    - eapply is_repr_congr; [|apply (G1 Hi Hj)]. rewrite Z.mul_0_l, Z.add_0_r. unfold x.
      apply congr_mul; [apply Ral|]. apply Zsum_congr. intros l Hl. apply congr_mul; [apply (RA i l Hi Hl)|apply (RB l j Hl Hj)]. }
  destruct (convert_ok prec (ord_out R) ms beta r (C i j)) as (y & E & Hy & Cy); auto; try lia.
  - eapply residues_length; eauto.
  - intros q Hq. pose proof (residues_nth ms x r q Hr Hq) as [D _]. unfold modulus in D. lia.
  - rewrite E. f_equal. assert (y = x); [|lia]. eapply residues_unique; eauto.
    assert (Hodd : Z.odd (product ms) = true).
    { assert (Ho : Forall (fun q => Z.odd q = true) ms).
      { apply Forall_forall. intros q Hq. pose proof (Hincl q Hq) as Hin. rewrite Forall_forall in Hpr, Hrange.
        pose proof (Hpr _ Hin) as Hprm. pose proof (Hrange _ Hin).
        destruct (Z.odd q) eqn:O; auto. exfalso. rewrite <- Z.negb_even in O. apply negb_false_iff in O.
        apply Z.even_spec in O. destruct O as [h ->].
        destruct (prime_divisors (2 * h) Hprm 2) as [|[|[|]]]; try lia. exists h; ring. }
      clear -Ho. induction Ho as [|q ms Hq Ho IH]; cbn [product]; auto. now rewrite Z.odd_mul, Hq, IH. }
    apply Z.odd_spec in Hodd. destruct Hodd as [h Hh].
    assert (Hx : 2 * Z.abs x <= mC).
    { unfold x, mC. rewrite Z.abs_mul.
      assert (Z.abs (Zsum (fun l => A i l * B l j) k) <= Z.of_nat k * (mx * my)).
      { apply Zsum_abs. intros l Hl. rewrite Z.abs_mul. pose proof (BA i l Hi Hl). pose proof (BB l j Hl Hj).
        apply Z.mul_le_mono_nonneg; lia. }
      replace (2 * Z.of_nat k * mx * my * Z.abs alpha) with (2 * (Z.abs alpha * (Z.of_nat k * (mx * my)))) by ring.
      apply Z.mul_le_mono_nonneg_l; [lia|]. apply Z.mul_le_mono_nonneg_l; lia. }
    unfold centred. rewrite Hh in *. replace (2 * h + 1 - 1) with (h * 2) by ring. rewrite Z.div_mul by lia. lia.
Qed.
