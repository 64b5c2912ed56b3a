(** * Proofs for the delayed triangular solver *)
From Coq Require Import ZArith List Lia Bool Znumtheory Permutation Psatz.
From Verif Require Import Delayed_model Delayed_spec Delayed_proofs Trsmb_model Trsmb_spec.
Import ListNotations.
Open Scope Z_scope.

(** ** Sums with separate bounds on the positive and negative terms *)

Definition lpos (l : list Z) := fold_right (fun z s => Z.max z 0 + s) 0 l.
Definition lneg (l : list Z) := fold_right (fun z s => Z.max (- z) 0 + s) 0 l.

Lemma lpos_nonneg l : 0 <= lpos l. Proof. unfold lpos, lneg. induction l; cbn; lia. Qed.
Lemma lneg_nonneg l : 0 <= lneg l. Proof. unfold lpos, lneg. induction l; cbn; lia. Qed.
Lemma lpos_app l l' : lpos (l ++ l') = lpos l + lpos l'. Proof. unfold lpos, lneg. induction l; cbn; lia. Qed.
Lemma lneg_app l l' : lneg (l ++ l') = lneg l + lneg l'. Proof. unfold lpos, lneg. induction l; cbn; lia. Qed.
Lemma lsum_between l : - lneg l <= lsum l <= lpos l.
Proof. unfold lsum, lpos, lneg. induction l; cbn; lia. Qed.
Lemma lpos_perm l l' : Permutation l l' -> lpos l = lpos l'.
Proof. unfold lpos. induction 1; cbn; lia. Qed.
Lemma lneg_perm l l' : Permutation l l' -> lneg l = lneg l'.
Proof. unfold lneg. induction 1; cbn; lia. Qed.

Lemma eval_exact2 prec t : lpos (leaves t) <= 2 ^ prec -> lneg (leaves t) <= 2 ^ prec ->
  eval prec t = lsum (leaves t).
Proof.
  induction t as [|z|l IHl r IHr|z t IH]; cbn [leaves eval]; intros HP HN.
  - reflexivity.
  - cbn in *. rewrite rnd_exact; lia.
  - rewrite lpos_app in HP. rewrite lneg_app in HN. rewrite lsum_app.
    pose proof (lpos_nonneg (leaves l)). pose proof (lpos_nonneg (leaves r)).
    pose proof (lneg_nonneg (leaves l)). pose proof (lneg_nonneg (leaves r)).
    rewrite IHl, IHr by lia.
    pose proof (lsum_between (leaves l)). pose proof (lsum_between (leaves r)).
    apply rnd_exact. lia.
  - cbn [lpos lneg fold_right] in HP, HN. fold (lpos (leaves t)) in HP. fold (lneg (leaves t)) in HN.
    rewrite lsum_cons.
    pose proof (lpos_nonneg (leaves t)). pose proof (lneg_nonneg (leaves t)).
    rewrite IH by lia. pose proof (lsum_between (leaves t)). apply rnd_exact. lia.
Qed.

Lemma blas_sum2 prec ord c l : fair ord -> lpos l <= 2 ^ prec -> lneg l <= 2 ^ prec ->
  eval prec (ord c l) = lsum l.
Proof.
  intros Hf HP HN. rewrite eval_exact2.
  - apply lsum_perm, Hf.
  - now rewrite (lpos_perm _ _ (Hf c l)).
  - now rewrite (lneg_perm _ _ (Hf c l)).
Qed.

(** ** Growth of the solution of a unit triangular system *)

(** Bounds on the sums of the positive and of the negative terms of row k. *)
Fixpoint PN (lo hi : Z) (k : nat) : Z * Z :=
  match k with
  | O => (hi, - lo)
  | S k => let '(U, L) := PN lo hi k in
           (U + Z.max (hi * L) (- lo * U), L + Z.max (hi * U) (- lo * L))
  end.
Definition Ub lo hi k := fst (PN lo hi k).
Definition Lb lo hi k := snd (PN lo hi k).

Lemma UbS lo hi k : Ub lo hi (S k) = Ub lo hi k + Z.max (hi * Lb lo hi k) (- lo * Ub lo hi k).
Proof. unfold Ub, Lb. cbn. destruct (PN lo hi k); reflexivity. Qed.
Lemma LbS lo hi k : Lb lo hi (S k) = Lb lo hi k + Z.max (hi * Ub lo hi k) (- lo * Lb lo hi k).
Proof. unfold Ub, Lb. cbn. destruct (PN lo hi k); reflexivity. Qed.

Lemma UL_nonneg lo hi k : lo <= 0 <= hi -> 0 <= Ub lo hi k /\ 0 <= Lb lo hi k.
Proof.
  intro H. induction k; [cbn; lia|]. rewrite UbS, LbS.
  assert (0 <= hi * Lb lo hi k) by (apply Z.mul_nonneg_nonneg; lia).
  assert (0 <= hi * Ub lo hi k) by (apply Z.mul_nonneg_nonneg; lia).
  lia.
Qed.

Lemma term_bound lo hi a x L U : lo <= 0 <= hi -> 0 <= L -> 0 <= U -> lo <= a <= hi -> - L <= x <= U ->
  Z.max (- (a * x)) 0 <= Z.max (hi * L) (- lo * U) /\ Z.max (- - (a * x)) 0 <= Z.max (hi * U) (- lo * L).
Proof.
  intros H HL HU Ha Hx.
  assert (0 <= hi * L) by nia. assert (0 <= hi * U) by nia.
  destruct (Z.le_gt_cases 0 a), (Z.le_gt_cases 0 x).
  - assert (0 <= a * x <= hi * U) by nia. lia.
  - assert (0 <= a * - x <= hi * L) by nia. lia.
  - assert (0 <= - a * x <= - lo * U) by nia. lia.
  - assert (0 <= - a * - x <= - lo * L) by nia. lia.
Qed.

Lemma PN_sums lo hi o (a x : nat -> Z) k : lo <= 0 <= hi ->
  (forall j, (j < k)%nat -> lo <= a (o + j)%nat <= hi) ->
  (forall j, (j < k)%nat -> - Lb lo hi j <= x (o + j)%nat <= Ub lo hi j) ->
  lpos (map (fun j => - (a j * x j)) (seq o k)) <= Ub lo hi k - hi /\
  lneg (map (fun j => - (a j * x j)) (seq o k)) <= Lb lo hi k + lo.
Proof.
  intros H Ha Hx. induction k as [|k IH]; [cbn; lia|].
  rewrite seq_S, map_app, lpos_app, lneg_app, UbS, LbS. cbn [map lpos lneg fold_right].
  destruct IH as [I1 I2]; [intros; apply Ha; lia|intros; apply Hx; lia|].
  pose proof (UL_nonneg lo hi k H) as [? ?].
  destruct (term_bound lo hi (a (o + k)%nat) (x (o + k)%nat) (Lb lo hi k) (Ub lo hi k)); auto.
  lia.
Qed.

Section Solve.
Variables (F : fld) (prec : Z) (ord : order) (unit : bool).
Hypotheses (W : wf F) (Hp : prime (fp F)) (Hprec : 0 < prec) (Hf : fair ord).

Let lo := flo F.
Let hi := fhi F.

(** Sum over j in [o, o+k) of A i j * x j. *)
Definition psum (A : nat -> nat -> Z) (x : nat -> Z) (i o k : nat) := Zsumr (fun j => A i j * x j) o k.

Lemma Zsumr_ext f g o k : (forall j, (o <= j < o + k)%nat -> f j = g j) -> Zsumr f o k = Zsumr g o k.
Proof. revert o. induction k; intros o H; cbn; [lia|]. rewrite H by lia. f_equal. apply IHk. intros; apply H; lia. Qed.

Lemma Zsumr_S f o k : Zsumr f o (S k) = Zsumr f o k + f (o + k)%nat.
Proof.
  replace (S k) with (k + 1)%nat by lia. rewrite Zsumr_app. cbn. lia.
Qed.

Lemma Zsumr_shift f o s k : Zsumr (fun l => f (o + l)%nat) s k = Zsumr f (o + s) k.
Proof. revert s. induction k; intro s; cbn; [reflexivity|]. rewrite IHk. f_equal. f_equal. lia. Qed.

Lemma psum_ext A x y i o k : (forall j, (o <= j < o + k)%nat -> x j = y j) -> psum A x i o k = psum A y i o k.
Proof. intro H. apply Zsumr_ext. intros. now rewrite H. Qed.

Lemma trsm_blas_out A b o k i : ~ (o <= i < o + k)%nat -> trsm_blas prec ord A b o k i = b i.
Proof.
  induction k; cbn; [reflexivity|]. intro H. destruct (Nat.eqb_spec i (o + k)); [lia|]. apply IHk. lia.
Qed.

Lemma trsm_blas_ok A b o k :
  (forall i j, (o <= j < i)%nat -> (i < o + k)%nat -> lo <= A i j <= hi) ->
  (forall i, (o <= i < o + k)%nat -> lo <= b i <= hi) ->
  (forall j, (j < k)%nat -> Ub lo hi j <= 2 ^ prec /\ Lb lo hi j <= 2 ^ prec) ->
  let x := trsm_blas prec ord A b o k in
  forall i, (i < k)%nat -> x (o + i)%nat = b (o + i)%nat - psum A x (o + i) o i /\
    - Lb lo hi i <= x (o + i)%nat <= Ub lo hi i.
Proof.
  induction k as [|k IH]; intros HA Hb HB x i Hi; [lia|].
  assert (lohi : lo <= 0 <= hi) by apply W.
  specialize (IH ltac:(intros; apply HA; lia) ltac:(intros; apply Hb; lia) ltac:(intros; apply HB; lia)).
  cbn zeta in IH.
  assert (Hx : forall j, (j <> o + k)%nat -> x j = trsm_blas prec ord A b o k j).
  { intros j Hj. unfold x. cbn. destruct (Nat.eqb_spec j (o + k)); [lia|reflexivity]. }
  destruct (Nat.eq_dec i k) as [->|Hik].
  - assert (PB := PN_sums lo hi o (A (o + k)%nat) (trsm_blas prec ord A b o k) k lohi).
    destruct PB as [P1 P2].
    { intros; apply HA; lia. }
    { intros j Hj. apply IH, Hj. }
    pose proof (HB k ltac:(lia)) as [B1 B2]. pose proof (Hb (o + k)%nat ltac:(lia)) as Hbk.
    assert (E : x (o + k)%nat = b (o + k)%nat - psum A (trsm_blas prec ord A b o k) (o + k) o k).
    { unfold x. cbn. rewrite Nat.eqb_refl. rewrite blas_sum2; auto.
      - rewrite lsum_cons, lsum_map. unfold psum.
        rewrite (Zsumr_ext (fun j => - (A (o + k)%nat j * trsm_blas prec ord A b o k j))
          (fun j => -1 * (A (o + k)%nat j * trsm_blas prec ord A b o k j))) by (intros; lia).
        rewrite Zsumr_scale. lia.
      - cbn [lpos fold_right]. fold (lpos (map (fun j => - (A (o + k)%nat j * trsm_blas prec ord A b o k j)) (seq o k))).
        lia.
      - cbn [lneg fold_right]. fold (lneg (map (fun j => - (A (o + k)%nat j * trsm_blas prec ord A b o k j)) (seq o k))).
        lia. }
    split.
    + rewrite E. f_equal. apply psum_ext. intros; symmetry; apply Hx; lia.
    + rewrite E.
      pose proof (lsum_between (map (fun j => - (A (o + k)%nat j * trsm_blas prec ord A b o k j)) (seq o k))) as HS.
      rewrite lsum_map in HS.
      rewrite (Zsumr_ext (fun j => - (A (o + k)%nat j * trsm_blas prec ord A b o k j))
          (fun j => -1 * (A (o + k)%nat j * trsm_blas prec ord A b o k j))) in HS by (intros; lia).
      rewrite Zsumr_scale in HS. unfold psum. lia.
  - destruct (IH i ltac:(lia)) as [I1 I2]. rewrite Hx by lia. split; [|exact I2].
    rewrite I1. f_equal. apply psum_ext. intros; symmetry; apply Hx; lia.
Qed.

(** Post-condition of a solver on the rows o..o+n-1: solution reduced and, row
    by row, right; other rows untouched. *)
Definition dg (A : nat -> nat -> Z) i := if unit then 1 else A i i.
Definition post (A : nat -> nat -> Z) (o n : nat) (b x : nat -> Z) :=
  (forall i, (o <= i < o + n)%nat -> lo <= x i <= hi /\
     congr (fp F) (psum A x i o (i - o) + dg A i * x i) (b i)) /\
  (forall i, ~ (o <= i < o + n)%nat -> x i = b i).

Definition Aok (A : nat -> nat -> Z) (n : nat) :=
  (forall i j, (j <= i < n)%nat -> lo <= A i j <= hi) /\
  (unit = false -> forall i, (i < n)%nat -> A i i <> 0).

Lemma congr_psum A x y i o k : (forall j, (o <= j < o + k)%nat -> congr (fp F) (x j) (y j)) ->
  congr (fp F) (psum A x i o k) (psum A y i o k).
Proof.
  unfold psum. revert o. induction k; intros o H; cbn; [apply congr_refl|].
  apply congr_add; [apply congr_mul; [apply congr_refl|apply H; lia]|].
  apply IHk. intros; apply H; lia.
Qed.

Lemma dinv_ok A i : lo <= A i i <= hi -> A i i <> 0 -> congr (fp F) (A i i * dinv F A i) 1.
Proof.
  intros HA Hn. unfold dinv.
  eapply congr_trans; [|apply zinv_ok; [exact Hp|apply reduced_nonzero; eauto]].
  apply congr_mul; [apply congr_refl|apply canon_congr, W].
Qed.

Lemma base_ok A b o n N : Aok A N -> (o + n <= N)%nat ->
  (forall j, (j < n)%nat -> Ub lo hi j <= 2 ^ prec /\ Lb lo hi j <= 2 ^ prec) ->
  post A o n b (base_solve F prec ord unit A b o n).
Proof.
  intros [HA HD] HN HB. unfold base_solve.
  set (b1 := fun i => if ((o <=? i) && (i <? o + n))%nat then base_rhs F unit A b i else b i).
  assert (Hin : forall i, (o <= i < o + n)%nat -> ((o <=? i) && (i <? o + n))%nat = true).
  { intros i Hi. apply andb_true_iff. split; [apply Nat.leb_le|apply Nat.ltb_lt]; lia. }
  assert (Hout : forall i, ~ (o <= i < o + n)%nat -> ((o <=? i) && (i <? o + n))%nat = false).
  { intros i Hi. destruct (Nat.leb_spec o i), (Nat.ltb_spec i (o + n)); cbn; auto; lia. }
  assert (X := trsm_blas_ok (base_mat F unit A) b1 o n).
  set (x := trsm_blas prec ord (base_mat F unit A) b1 o n) in *. cbn zeta in X.
  split.
  - intros i Hi. rewrite (Hin _ Hi). split; [apply canon_range, W|].
    destruct (X) with (i := (i - o)%nat) as [X1 _]; auto; try lia.
    { intros i0 j Hj Hi0. unfold base_mat. destruct unit; [apply HA; lia|apply canon_range, W]. }
    { intros i0 Hi0. unfold b1. rewrite (Hin _ Hi0). unfold base_rhs. destruct unit; apply canon_range, W. }
    replace (o + (i - o))%nat with i in X1 by lia.
    set (y := fun i => if ((o <=? i) && (i <? o + n))%nat then canon F (x i) else x i).
    assert (Hy : forall j, congr (fp F) (y j) (x j)).
    { intro j. unfold y. destruct (_ && _); [apply canon_congr, W|apply congr_refl]. }
    change (congr (fp F) (psum A y i o (i - o) + dg A i * canon F (x i)) (b i)).
    apply congr_trans with (psum A x i o (i - o) + dg A i * x i).
    { apply congr_add; [apply congr_psum; intros; apply Hy|].
      apply congr_mul; [apply congr_refl|apply canon_congr, W]. }
    rewrite X1. unfold b1. rewrite (Hin _ Hi). unfold base_rhs, dg.
    destruct unit eqn:Eu.
    + replace (psum (base_mat F true A) x i o (i - o)) with (psum A x i o (i - o)) by reflexivity.
      replace (psum A x i o (i - o) + 1 * (canon F (b i) - psum A x i o (i - o))) with (canon F (b i)) by lia.
      apply canon_congr, W.
    + assert (Hd : congr (fp F) (A i i * dinv F A i) 1).
      { apply dinv_ok; [apply HA; lia|apply HD; auto; lia]. }
      (* row divided by the diagonal *)
      assert (Hs : congr (fp F) (A i i * psum (base_mat F false A) x i o (i - o)) (psum A x i o (i - o))).
      { assert (G : forall k s, congr (fp F) (A i i * psum (base_mat F false A) x i s k) (psum A x i s k));
          [|apply G].
        clear X1. unfold psum. induction k as [|k IHk]; intro s; cbn [Zsumr]; [rewrite Z.mul_0_r; apply congr_refl|].
        rewrite Z.mul_add_distr_l. apply congr_add; [|apply IHk].
        unfold base_mat.
        apply congr_trans with (A i i * (dinv F A i * A i s) * x s).
        { rewrite Z.mul_assoc. apply congr_mul; [|apply congr_refl].
          apply congr_mul; [apply congr_refl|apply canon_congr, W]. }
        replace (A i i * (dinv F A i * A i s) * x s) with (A i i * dinv F A i * (A i s * x s)) by ring.
        rewrite <- (Z.mul_1_l (A i s * x s)) at 2. apply congr_mul; [exact Hd|apply congr_refl]. }
      set (P := psum A x i o (i - o)) in *. set (Q := psum (base_mat F false A) x i o (i - o)) in *.
      set (R := canon F (dinv F A i * canon F (b i))).
      assert (HR : congr (fp F) (A i i * R) (b i)).
      { apply congr_trans with (A i i * dinv F A i * canon F (b i)).
        { rewrite <- Z.mul_assoc. apply congr_mul; [apply congr_refl|apply canon_congr, W]. }
        apply congr_trans with (1 * b i); [|rewrite Z.mul_1_l; apply congr_refl].
        apply congr_mul; [exact Hd|apply canon_congr, W]. }
      destruct Hs as [q1 Hs]. destruct HR as [q2 HR]. exists (q2 - q1).
      rewrite Z.mul_sub_distr_l. lia.
  - intros i Hi. rewrite (Hout _ Hi). unfold x. rewrite trsm_blas_out by auto. unfold b1. now rewrite (Hout _ Hi).
Qed.

Let c := absmax F.

Lemma lohi_c a : lo <= a <= hi -> Z.abs a <= c.
Proof. apply absmax_ok. Qed.

(** ** The recursion with delayed updates *)
Lemma delayed_ok nblas tot A N : (0 < nblas)%nat -> Aok A N ->
  (forall j, (j < nblas)%nat -> Ub lo hi j <= 2 ^ prec /\ Lb lo hi j <= 2 ^ prec) ->
  ((1 < tot)%nat -> c + (Z.of_nat tot - 1) * (c * c) <= 2 ^ prec) ->
  forall fuel nb n o s b, (n < fuel)%nat -> (0 < n)%nat ->
  (nb * nblas <= n <= (nb + 1) * nblas)%nat -> (s <= o)%nat -> (o - s + n <= tot)%nat -> (o + n <= N)%nat ->
  (forall i, (o <= i < o + n)%nat -> Z.abs (b i) <= c + Z.of_nat (o - s) * (c * c)) ->
  exists x, delayed F prec ord unit fuel nblas nb n o A b = Some x /\ post A o n b x.
Proof.
  intros Hnb HA HB Ht. induction fuel as [|fuel IH]; intros nb n o s b Hfu Hn Hnn Hs Htot HoN Hb; [lia|].
  cbn [delayed]. destruct (Nat.leb_spec n nblas) as [Hle|Hgt].
  - eexists; split; [reflexivity|]. apply base_ok with N; auto. intros; apply HB; lia.
  - set (up := ((nb + 1) / 2)%nat). set (ns := (up * nblas)%nat).
    assert (Hup : (1 <= up /\ up <= nb /\ (2 <= nb -> up < nb))%nat).
    { unfold up. assert (1 <= nb)%nat by nia.
      pose proof (Nat.div_mod_eq (nb + 1) 2). pose proof (Nat.mod_upper_bound (nb + 1) 2). lia. }
    assert (Hns : (0 < ns < n)%nat).
    { unfold ns. destruct Hup as (U1 & U2 & U3). split; [nia|].
      destruct (Nat.eq_dec nb 1) as [->|Hnb1]; [replace up with 1%nat by lia; lia|].
      assert (up < nb)%nat by (apply U3; nia). nia. }
    destruct (Nat.ltb_spec n ns); [lia|].
    destruct (IH up ns o s b) as (b1 & E1 & P1 & P1'); try lia.
    { intros; apply Hb; lia. }
    rewrite E1.
    set (b2 := fun i => if ((o + ns <=? i) && (i <? o + n))%nat
              then blas_entry prec ord i (-1) (A i) b1 o ns 1 (b1 i) else b1 i).
    assert (H2 : forall i, (o + ns <= i < o + n)%nat -> b2 i = b i - psum A b1 i o ns).
    { intros i Hi. unfold b2.
      replace ((o + ns <=? i) && (i <? o + n))%nat with true
        by (symmetry; apply andb_true_iff; split; [apply Nat.leb_le|apply Nat.ltb_lt]; lia).
      rewrite (blas_entry_exact prec ord i (-1) (A i) b1 o ns 1 (b1 i) c (2 ^ prec)); auto; try lia.
      - rewrite P1' by lia. unfold psum. lia.
      - intros l Hl. split; apply lohi_c; [apply HA; lia|apply P1; lia].
      - rewrite P1' by lia. pose proof (Hb i ltac:(lia)) as Hbi.
        specialize (Ht ltac:(lia)).
        assert (0 <= c * c) by (pose proof (absmax_pos F W); unfold c; nia).
        assert (Z.of_nat ns * (c * c) + Z.of_nat (o - s) * (c * c) <= (Z.of_nat tot - 1) * (c * c)).
        { rewrite <- Z.mul_add_distr_r. apply Z.mul_le_mono_nonneg_r; lia. }
        lia. }
    assert (H2' : forall i, ~ (o + ns <= i < o + n)%nat -> b2 i = b1 i).
    { intros i Hi. unfold b2. destruct (Nat.leb_spec (o + ns) i), (Nat.ltb_spec i (o + n)); cbn; auto; lia. }
    destruct (IH (nb - up)%nat (n - ns)%nat (o + ns)%nat s b2) as (x & E2 & P2 & P2'); try lia.
    { unfold ns. split; nia. }
    { intros i Hi. rewrite H2 by lia. pose proof (Hb i ltac:(lia)) as Hbi.
      assert (Z.abs (psum A b1 i o ns) <= Z.of_nat ns * (c * c)).
      { unfold psum. rewrite <- lsum_map. eapply Z.le_trans; [apply lsum_le_labs|].
        apply labs_map_le. intros j Hj. apply abs_mul_le; apply lohi_c; [apply HA; lia|apply P1; lia]. }
      replace (Z.of_nat (o + ns - s)) with (Z.of_nat (o - s) + Z.of_nat ns) by lia.
      rewrite Z.mul_add_distr_r. lia. }
    fold b2. rewrite E2. eexists; split; [reflexivity|].
    assert (Hx1 : forall j, (o <= j < o + ns)%nat -> x j = b1 j).
    { intros j Hj. rewrite P2' by lia. apply H2'. lia. }
    split.
    + intros i Hi. destruct (Nat.ltb_spec i (o + ns)) as [H1|H1].
      * destruct (P1 i ltac:(lia)) as [R C]. rewrite Hx1 by lia. split; [exact R|].
        rewrite (psum_ext A x b1) by (intros; apply Hx1; lia). exact C.
      * destruct (P2 i ltac:(lia)) as [R C]. split; [exact R|]. rewrite H2 in C by lia.
        replace (i - o)%nat with (ns + (i - (o + ns)))%nat by lia. unfold psum at 1. rewrite Zsumr_app.
        fold (psum A x i o ns). fold (psum A x i (o + ns) (i - (o + ns))).
        rewrite (psum_ext A x b1 i o ns) by (intros; apply Hx1; lia).
        destruct C as [q C]. exists q. lia.
    + intros i Hi. rewrite P2', H2', P1' by lia. reflexivity.
Qed.

Lemma canon1_nz : canon F 1 <> 0.
Proof.
  intro E. destruct (canon_congr F 1 W) as [q Hq]. rewrite E in Hq.
  destruct W as [W1 _]. assert (q * fp F = -1) by lia.
  assert (q = 0 \/ 1 <= q \/ q <= -1) as [->|[?|?]] by lia; nia.
Qed.
Lemma canonm1_nz : canon F (-1) <> 0.
Proof.
  intro E. destruct (canon_congr F (-1) W) as [q Hq]. rewrite E in Hq.
  destruct W as [W1 _]. assert (q * fp F = 1) by lia.
  assert (q = 0 \/ 1 <= q \/ q <= -1) as [->|[?|?]] by lia; nia.
Qed.

(** ** The outer loop *)
Lemma split_loop_ok nblas ns A n b0 : (0 < nblas)%nat -> Aok A n -> (0 < ns)%nat ->
  (ns mod nblas = 0)%nat ->
  (forall j, (j < nblas)%nat -> Ub lo hi j <= 2 ^ prec /\ Lb lo hi j <= 2 ^ prec) ->
  ((1 < ns)%nat -> c + (Z.of_nat ns - 1) * (c * c) <= 2 ^ prec) ->
  forall steps i b, ((i + steps) * ns <= n)%nat ->
  (* rows before i*ns solved, the others hold the updated right-hand side *)
  (forall r, (r < i * ns)%nat -> lo <= b r <= hi /\
      congr (fp F) (psum A b r 0 r + dg A r * b r) (b0 r)) ->
  (forall r, (i * ns <= r < n)%nat -> lo <= b r <= hi /\
      congr (fp F) (psum A b r 0 (i * ns) + b r) (b0 r)) ->
  exists x, split_loop F prec ord unit steps i nblas ns n A b = Some x /\
    (forall r, (r < (i + steps) * ns)%nat -> lo <= x r <= hi /\
      congr (fp F) (psum A x r 0 r + dg A r * x r) (b0 r)) /\
    (forall r, ((i + steps) * ns <= r < n)%nat -> lo <= x r <= hi /\
      congr (fp F) (psum A x r 0 ((i + steps) * ns) + x r) (b0 r)).
Proof.
  intros Hnb HA Hns Hmod HB Ht. induction steps as [|steps IH]; intros i b Hin HL HR.
  { cbn. rewrite Nat.add_0_r in *. eexists; split; [reflexivity|]. split; auto. }
  cbn [split_loop]. set (o := (i * ns)%nat) in *.
  assert (HoN : (o + ns <= n)%nat) by (unfold o; nia).
  destruct (delayed_ok nblas ns A n Hnb HA HB Ht (S ns) (ns / nblas)%nat ns o o b) as (b1 & E1 & P1 & P1'); try lia.
  { pose proof (Nat.div_mod_eq ns nblas). nia. }
  { intros r Hr. replace (o - o)%nat with 0%nat by lia. destruct (HR r) as [R _]; [lia|].
    pose proof (lohi_c _ R). lia. }
  rewrite E1.
  set (b2 := fun r => if ((o + ns <=? r) && (r <? n))%nat then _ else _).
  assert (H2 : forall r, (o + ns <= r < n)%nat -> lo <= b2 r <= hi /\
            congr (fp F) (b2 r) (b r - psum A b1 r o ns)).
  { intros r Hr. unfold b2.
    replace ((o + ns <=? r) && (r <? n))%nat with true
        by (symmetry; apply andb_true_iff; split; [apply Nat.leb_le|apply Nat.ltb_lt]; lia).
    assert (Hb1 : b1 r = b r) by (apply P1'; lia).
    rewrite gemm_entry_ok; auto.
    - split; [apply canon_range, W|]. eapply congr_trans; [apply canon_congr, W|].
      apply congr_trans with (-1 * dotr (fun l => A r (o + l)%nat) (fun l => b1 (o + l)%nat) 0 ns + 1 * b1 r).
      { apply congr_add; (apply congr_mul; [apply canon_congr, W|apply congr_refl]). }
      rewrite Hb1.
      assert (dotr (fun l => A r (o + l)%nat) (fun l => b1 (o + l)%nat) 0 ns = psum A b1 r o ns) as ->.
      { unfold dotr, psum. rewrite (Zsumr_shift (fun j => A r j * b1 j)). f_equal. lia. }
      exists 0. lia.
    - intros l Hl. apply HA. lia.
    - intros l Hl. apply P1. lia.
    - rewrite Hb1. apply HR. lia.
    - apply canon_range, W.
    - apply canonm1_nz.
    - apply canon_range, W.
    - intro E. exfalso. apply canon1_nz, E. }
  assert (H2' : forall r, (r < o + ns)%nat -> b2 r = b1 r).
  { intros r Hr. unfold b2. destruct (Nat.leb_spec (o + ns) r); cbn; auto; lia. }
  assert (Hold : forall j, (j < o)%nat -> b2 j = b j).
  { intros j Hj. rewrite H2' by lia. apply P1'. lia. }
  replace (i + S steps)%nat with (S i + steps)%nat in * by lia.
  apply IH; [exact Hin| |].
  - intros r Hr. assert (Hr' : (r < o + ns)%nat) by (unfold o; nia).
    destruct (Nat.ltb_spec r o) as [Ho|Ho].
    + rewrite Hold by lia. rewrite (psum_ext A b2 b) by (intros; apply Hold; lia). apply HL. exact Ho.
    + destruct (P1 r ltac:(lia)) as [R C]. rewrite H2' by lia. split; [exact R|].
      destruct (HR r ltac:(lia)) as [_ C']. fold o in C'.
      replace r with (o + (r - o))%nat at 2 by lia. unfold psum at 1. rewrite Zsumr_app.
      fold (psum A b2 r 0 o). cbn [Nat.add]. fold (psum A b2 r o (r - o)).
      rewrite (psum_ext A b2 b r 0 o) by (intros; apply Hold; lia).
      rewrite (psum_ext A b2 b1 r o) by (intros; apply H2'; lia).
      destruct C as [q C]. destruct C' as [q' C']. exists (q + q'). lia.
  - intros r Hr. assert (Hr' : (o + ns <= r < n)%nat) by (unfold o; nia).
    destruct (H2 r Hr') as [R C]. split; [exact R|].
    destruct (HR r ltac:(lia)) as [_ C'].
    replace (S i * ns)%nat with (o + ns)%nat by (unfold o; lia). unfold psum. rewrite Zsumr_app.
    fold (psum A b2 r 0 o). cbn [Nat.add]. fold (psum A b2 r o ns).
    rewrite (psum_ext A b2 b r 0 o) by (intros; apply Hold; lia).
    rewrite (psum_ext A b2 b1 r o) by (intros; apply H2'; lia).
    destruct C as [q C]. destruct C' as [q' C']. exists (q + q'). lia.
Qed.
End Solve.

(** ** Closed forms of the bounds *)

Lemma PN_pos c k : 0 <= c ->
  2 * Ub 0 c k = c * ((c + 1) ^ Z.of_nat k + (1 - c) ^ Z.of_nat k) /\
  2 * Lb 0 c k = c * ((c + 1) ^ Z.of_nat k - (1 - c) ^ Z.of_nat k).
Proof.
  intro Hc. induction k as [|k [I1 I2]]; [unfold Ub, Lb; cbn [PN fst snd Z.of_nat]; rewrite !Z.pow_0_r; lia|].
  pose proof (UL_nonneg 0 c k ltac:(lia)) as [? ?].
  rewrite UbS, LbS, Nat2Z.inj_succ, !Z.pow_succ_r by lia.
  rewrite !Z.max_l by (cbn; nia).
  set (s := (c + 1) ^ Z.of_nat k) in *. set (d := (1 - c) ^ Z.of_nat k) in *.
  split; nia.
Qed.

Lemma PN_bal c k : 0 <= c -> Ub (- c) c k = c * (c + 1) ^ Z.of_nat k /\ Lb (- c) c k = c * (c + 1) ^ Z.of_nat k.
Proof.
  intro Hc. induction k as [|k [I1 I2]]; [unfold Ub, Lb; cbn [PN fst snd Z.of_nat]; rewrite !Z.pow_0_r; lia|].
  rewrite UbS, LbS, I1, I2, Nat2Z.inj_succ, Z.pow_succ_r by lia.
  rewrite Z.opp_involutive, Z.max_id. split; ring.
Qed.

Lemma pow_alt c k : 1 <= c -> - (c - 1) ^ Z.of_nat k <= (1 - c) ^ Z.of_nat k <= (c - 1) ^ Z.of_nat k.
Proof.
  intro Hc. replace (1 - c) with (- (c - 1)) by lia.
  assert (0 <= (c - 1) ^ Z.of_nat k) by (apply Z.pow_nonneg; lia).
  induction k as [|k IH]; [cbn [Z.of_nat]; rewrite !Z.pow_0_r; lia|].
  rewrite Nat2Z.inj_succ, !Z.pow_succ_r in * by lia.
  assert (0 <= (c - 1) ^ Z.of_nat k) by (apply Z.pow_nonneg; lia).
  specialize (IH ltac:(lia)). nia.
Qed.

Lemma pos_bound c k : 1 <= c ->
  2 * Ub 0 c k <= ((c + 1) ^ Z.of_nat k + (c - 1) ^ Z.of_nat k) * c /\
  2 * Lb 0 c k <= ((c + 1) ^ Z.of_nat k + (c - 1) ^ Z.of_nat k) * c.
Proof.
  intro Hc. destruct (PN_pos c k ltac:(lia)) as [-> ->]. pose proof (pow_alt c k Hc).
  set (s := (c + 1) ^ Z.of_nat k) in *. set (d := (1 - c) ^ Z.of_nat k) in *.
  set (e := (c - 1) ^ Z.of_nat k) in *. split; nia.
Qed.

(** ** The loops of TRSMBound *)

Definition testp (p M : Z) (j : nat) := (p ^ Z.of_nat j + (p - 2) ^ Z.of_nat j) * (p - 1) <= 2 * M.
Definition testb (c M : Z) (j : nat) := c * (c + 1) ^ Z.of_nat j <= M.

Lemma loop_pos_ok p M fuel i :
  let n := trsm_loop_pos fuel p M (p ^ Z.of_nat i) ((p - 2) ^ Z.of_nat i) i in
  (i <= n <= i + fuel)%nat /\ (forall j, (i <= j < n)%nat -> testp p M j) /\
  ((n < i + fuel)%nat -> ~ testp p M n).
Proof.
  revert i. induction fuel as [|fuel IH]; intro i; cbn [trsm_loop_pos].
  { split; [lia|]. split; intros; lia. }
  destruct (Z.leb_spec ((p ^ Z.of_nat i + (p - 2) ^ Z.of_nat i) * (p - 1)) (2 * M)) as [H|H].
  - specialize (IH (S i)). rewrite Nat2Z.inj_succ, !Z.pow_succ_r in IH by lia.
    rewrite (Z.mul_comm _ p), (Z.mul_comm _ (p - 2)). cbn zeta in *.
    destruct IH as (I1 & I2 & I3). split; [lia|]. split.
    + intros j Hj. destruct (Nat.eq_dec j i) as [->|]; [exact H|apply I2; lia].
    + intro Hn. apply I3. lia.
  - cbn zeta. split; [lia|]. split; [lia|]. intros _ H'. unfold testp in H'. lia.
Qed.

Lemma loop_bal_ok c M fuel i :
  let n := trsm_loop_bal fuel (c + 1) c M ((c + 1) ^ Z.of_nat i) i in
  (i <= n <= i + fuel)%nat /\ (forall j, (i <= j < n)%nat -> testb c M j) /\
  ((n < i + fuel)%nat -> ~ testb c M n).
Proof.
  revert i. induction fuel as [|fuel IH]; intro i; cbn [trsm_loop_bal].
  { split; [lia|]. split; intros; lia. }
  destruct (Z.leb_spec (c * (c + 1) ^ Z.of_nat i) M) as [H|H].
  - specialize (IH (S i)). rewrite Nat2Z.inj_succ, !Z.pow_succ_r in IH by lia.
    rewrite (Z.mul_comm _ (c + 1)). cbn zeta in *.
    destruct IH as (I1 & I2 & I3). split; [lia|]. split.
    + intros j Hj. destruct (Nat.eq_dec j i) as [->|]; [exact H|apply I2; lia].
    + intro Hn. apply I3. lia.
  - cbn zeta. split; [lia|]. split; [lia|]. intros _ H'. unfold testb in H'. lia.
Qed.

Lemma pow_ge2 x k : 2 <= x -> 2 ^ Z.of_nat k <= x ^ Z.of_nat k.
Proof. intro. apply Z.pow_le_mono_l. lia. Qed.

Lemma TRSMBound_pos p prec : 2 <= p -> 0 < prec ->
  let n := TRSMBound Pos p prec in let M := 2 ^ prec - 1 in
  (1 <= n)%nat /\ Z.of_nat n <= prec + 2 /\
  (forall j, (0 < j < n)%nat -> testp p M j) /\ (p <= 2 ^ prec -> testp p M 0) /\ ~ testp p M n.
Proof.
  intros Hp Hprec n M. unfold TRSMBound in n. fold (max_storable prec) in M.
  destruct (loop_pos_ok p M (S (S (Z.to_nat prec))) 0) as (L1 & L2 & L3).
  change (p ^ Z.of_nat 0) with 1 in *. change ((p - 2) ^ Z.of_nat 0) with 1 in *.
  set (n0 := trsm_loop_pos (S (S (Z.to_nat prec))) p M 1 1 0) in *.
  assert (En : n = Nat.max 1 n0) by reflexivity.
  assert (HM : M = 2 ^ prec - 1) by reflexivity.
  assert (big : forall j, prec + 1 <= Z.of_nat j -> ~ testp p M j).
  { intros j Hj H. unfold testp in H.
    assert (0 <= (p - 2) ^ Z.of_nat j) by (apply Z.pow_nonneg; lia).
    assert (2 * 2 ^ prec <= 2 ^ Z.of_nat j).
    { rewrite <- Z.pow_succ_r by lia. apply Z.pow_le_mono_r; lia. }
    pose proof (pow_ge2 p j Hp). nia. }
  assert (Hn : (n0 < 0 + S (S (Z.to_nat prec)))%nat).
  { destruct (Nat.eq_dec n0 (S (S (Z.to_nat prec)))) as [E|]; [|lia].
    exfalso. apply (big (S (Z.to_nat prec))); [lia|apply L2; lia]. }
  split; [lia|]. split; [lia|]. split; [intros j Hj; apply L2; lia|]. split.
  - intro H. unfold testp. cbn [Z.of_nat]. rewrite !Z.pow_0_r. lia.
  - destruct (Nat.eq_dec n0 0) as [E0|].
    + specialize (L3 Hn). rewrite E0 in L3. rewrite En, E0. cbn [Nat.max].
      intro H. apply L3. unfold testp in *. cbn [Z.of_nat Pos.of_succ_nat] in *. rewrite !Z.pow_0_r, !Z.pow_1_r in *. nia.
    + replace n with n0 by lia. apply L3. lia.
Qed.

Lemma TRSMBound_bal p c prec : p = 2 * c + 1 -> 1 <= c -> 0 < prec ->
  let n := TRSMBound Bal p prec in let M := 2 ^ prec - 1 in
  (1 <= n)%nat /\ Z.of_nat n <= prec + 2 /\
  (forall j, (0 < j < n)%nat -> testb c M j) /\ (p <= 2 ^ prec -> testb c M 0) /\ ~ testb c M n.
Proof.
  intros Hp Hc Hprec n M. unfold TRSMBound in n. fold (max_storable prec) in M.
  destruct (loop_bal_ok c M (S (S (Z.to_nat prec))) 0) as (L1 & L2 & L3).
  change ((c + 1) ^ Z.of_nat 0) with 1 in *.
  set (n0 := trsm_loop_bal (S (S (Z.to_nat prec))) (c + 1) c M 1 0) in *.
  assert (E1 : (p + 1) / 2 = c + 1) by (symmetry; apply Z.div_unique with 0; lia).
  assert (E2 : (p - 1) / 2 = c) by (symmetry; apply Z.div_unique with 0; lia).
  assert (En : n = Nat.max 1 n0) by (unfold n, n0; cbv zeta; now rewrite E1, E2).
  assert (HM : M = 2 ^ prec - 1) by reflexivity.
  assert (big : forall j, prec + 1 <= Z.of_nat j -> ~ testb c M j).
  { intros j Hj H. unfold testb in H.
    assert (2 * 2 ^ prec <= 2 ^ Z.of_nat j).
    { rewrite <- Z.pow_succ_r by lia. apply Z.pow_le_mono_r; lia. }
    pose proof (pow_ge2 (c + 1) j ltac:(lia)). assert (0 < 2 ^ prec) by (apply Z.pow_pos_nonneg; lia). nia. }
  assert (Hn : (n0 < 0 + S (S (Z.to_nat prec)))%nat).
  { destruct (Nat.eq_dec n0 (S (S (Z.to_nat prec)))) as [E|]; [|lia].
    exfalso. apply (big (S (Z.to_nat prec))); [lia|apply L2; lia]. }
  split; [lia|]. split; [lia|]. split; [intros j Hj; apply L2; lia|]. split.
  - intro H. unfold testb. cbn [Z.of_nat]. rewrite !Z.pow_0_r. lia.
  - destruct (Nat.eq_dec n0 0) as [E0|].
    + specialize (L3 Hn). rewrite E0 in L3. rewrite En, E0. cbn [Nat.max].
      intro H. apply L3. unfold testb in *. cbn [Z.of_nat Pos.of_succ_nat] in *. rewrite !Z.pow_0_r, !Z.pow_1_r in *. nia.
    + replace n with n0 by lia. apply L3. lia.
Qed.

(** ** DotProdBoundClassic *)
Lemma DotProd_ge r p prec k : 1 <= computeFactorClassic r p -> 2 <= k <= 2 ^ 31 ->
  let c := computeFactorClassic r p in
  k <= Z.of_nat (DotProdBoundClassic r p prec) <-> k * (c * c) + c <= 2 ^ prec.
Proof.
  intros Hc Hk c. unfold DotProdBoundClassic, max_storable. fold c. fold c in Hc.
  replace (2 ^ prec - 1 + 1 - c) with (2 ^ prec - c) by lia.
  set (q := (2 ^ prec - c) / (c * c)).
  assert (Hq : k <= q <-> k * (c * c) + c <= 2 ^ prec).
  { unfold q. assert (0 < c * c) by nia. split; intro H0.
    - pose proof (Z.mul_div_le (2 ^ prec - c) (c * c) ltac:(lia)). nia.
    - apply Z.div_le_lower_bound; [lia|]. lia. }
  rewrite <- Hq. destruct (Z.leb_spec q 1); [cbn [Z.of_nat Pos.of_succ_nat]; lia|].
  rewrite Z2Nat.id by lia. lia.
Qed.

Lemma DotProd_pos r p prec : (1 <= DotProdBoundClassic r p prec)%nat.
Proof.
  unfold DotProdBoundClassic. destruct (Z.leb_spec ((max_storable prec + 1 - computeFactorClassic r p) /
    (computeFactorClassic r p * computeFactorClassic r p)) 1); [lia|].
  apply Nat2Z.inj_le. rewrite Z2Nat.id by lia. cbn [Z.of_nat Pos.of_succ_nat]. lia.
Qed.

Lemma nsplit_pos_iff r p prec : (0 < nsplit r p prec <-> TRSMBound r p prec <= DotProdBoundClassic r p prec)%nat.
Proof.
  unfold nsplit. set (n := TRSMBound r p prec). set (d := DotProdBoundClassic r p prec).
  assert (1 <= n)%nat by (unfold n, TRSMBound; lia).
  split; intro H0.
  - destruct (Nat.le_gt_cases n d); auto. rewrite Nat.div_small in H0 by lia. cbn in H0. lia.
  - pose proof (Nat.div_le_lower_bound d n 1 ltac:(lia) ltac:(lia)). nia.
Qed.

(** ** When is the split size positive? *)
Lemma grow3 c m : 3 <= c -> (2 <= m)%nat ->
  2 * (Z.of_nat m + 1) * (c * c) + 2 * c <= ((c + 1) ^ Z.of_nat m + (c - 1) ^ Z.of_nat m) * c + 2.
Proof.
  intros Hc. induction m as [|m IH]; intro Hm; [lia|].
  destruct (Nat.eq_dec m 1) as [->|Hm1].
  { change (Z.of_nat 2) with 2. rewrite !Z.pow_2_r.
    replace (((c + 1) * (c + 1) + (c - 1) * (c - 1)) * c) with (2 * (c * (c * c)) + 2 * c) by ring.
    assert (3 * (c * c) <= c * (c * c)) by (apply Z.mul_le_mono_nonneg_r; nia). lia. }
  specialize (IH ltac:(lia)). rewrite Nat2Z.inj_succ, !Z.pow_succ_r by lia.
  assert (0 <= (c + 1) ^ Z.of_nat m) by (apply Z.pow_nonneg; lia).
  assert (0 <= (c - 1) ^ Z.of_nat m) by (apply Z.pow_nonneg; lia).
  set (s := (c + 1) ^ Z.of_nat m) in *. set (d := (c - 1) ^ Z.of_nat m) in *.
  assert (2 * ((s + d) * c) <= ((c + 1) * s + (c - 1) * d) * c).
  { rewrite Z.mul_assoc. apply Z.mul_le_mono_nonneg_r; [lia|]. nia. }
  assert (9 <= c * c) by nia.
  set (cc := c * c) in *. nia.
Qed.

Lemma grow_bal c m : 1 <= c -> (1 <= m)%nat ->
  (Z.of_nat m + 1) * (c * c) + c <= c * (c + 1) ^ Z.of_nat m + (if (m =? 1)%nat then c * c else 0).
Proof.
  intros Hc. induction m as [|m IH]; intro Hm; [lia|].
  destruct (Nat.eq_dec m 0) as [->|Hm0].
  { cbn [Nat.eqb]. change (Z.of_nat 1) with 1. rewrite Z.pow_1_r. lia. }
  destruct (Nat.eq_dec m 1) as [->|Hm1].
  { cbn [Nat.eqb]. change (Z.of_nat 2) with 2. rewrite Z.pow_2_r. nia. }
  specialize (IH ltac:(lia)). destruct (Nat.eqb_spec m 1); [lia|]. destruct (Nat.eqb_spec (S m) 1); [lia|].
  rewrite Nat2Z.inj_succ, Z.pow_succ_r by lia.
  set (e := (c + 1) ^ Z.of_nat m) in *. set (cc := c * c) in *.
  assert (1 <= cc) by (unfold cc; nia).
  assert (c * ((c + 1) * e) = c * e + c * (c * e)) by ring.
  assert (cc + 0 <= c * (c * e)). { unfold cc. nia. }
  lia.
Qed.

Lemma pow2_ge m : (3 <= m)%nat -> 2 * (Z.of_nat m + 1) <= 2 ^ Z.of_nat m.
Proof.
  induction m as [|m IH]; intro Hm; [lia|]. destruct (Nat.eq_dec m 2) as [->|]; [vm_compute; discriminate|].
  rewrite Nat2Z.inj_succ, Z.pow_succ_r by lia. specialize (IH ltac:(lia)). lia.
Qed.
Lemma pow3_ge m : (3 <= m)%nat -> 4 * Z.of_nat m + 5 <= 3 ^ Z.of_nat m.
Proof.
  induction m as [|m IH]; intro Hm; [lia|]. destruct (Nat.eq_dec m 2) as [->|]; [vm_compute; discriminate|].
  rewrite Nat2Z.inj_succ, Z.pow_succ_r by lia. specialize (IH ltac:(lia)). lia.
Qed.

Lemma nsplit_pos p prec : 2 <= p -> 4 <= prec <= 2 ^ 30 ->
  (0 < nsplit Pos p prec)%nat <-> ~ band_pos (p - 1) (2 ^ prec - 1).
Proof.
  intros Hp Hprec. rewrite nsplit_pos_iff. unfold band_pos.
  destruct (TRSMBound_pos p prec Hp ltac:(lia)) as (N1 & N2 & N3 & N4 & N5).
  set (n := TRSMBound Pos p prec) in *. set (d := DotProdBoundClassic Pos p prec).
  set (c := p - 1) in *. assert (1 <= c) by lia.
  pose proof (DotProd_ge Pos p prec) as DP. cbn [computeFactorClassic] in DP. fold c in DP. fold d in DP.
  assert (16 <= 2 ^ prec) by (change 16 with (2 ^ 4); apply Z.pow_le_mono_r; lia).
  assert (T1 : forall j, testp p (2 ^ prec - 1) j <-> ((c + 1) ^ Z.of_nat j + (c - 1) ^ Z.of_nat j) * c <= 2 * (2 ^ prec - 1)).
  { intro j. unfold testp, c. replace (p - 1 + 1) with p by lia. replace (p - 1 - 1) with (p - 2) by lia. reflexivity. }
  split.
  - intros Hle [B1 B2].
    assert (2 <= n)%nat.
    { destruct (Nat.eq_dec n 1) as [E|]; [|lia]. rewrite E in N5. exfalso. apply N5, T1.
      change (Z.of_nat 1) with 1. rewrite !Z.pow_1_r. lia. }
    assert (2 <= Z.of_nat d) as D2 by lia. apply DP in D2; try lia.
  - intro NB. pose proof (DotProd_pos Pos p prec). fold d in H1.
    destruct (Nat.le_gt_cases n 1) as [|Hn2]; [lia|].
    assert (c * c <= 2 ^ prec - 1).
    { pose proof (proj1 (T1 1%nat) (N3 1%nat ltac:(lia))) as T. change (Z.of_nat 1) with 1 in T.
      rewrite !Z.pow_1_r in T. lia. }
    apply Nat2Z.inj_le. apply DP; [lia|lia|].
    destruct (Nat.eq_dec n 2) as [->|Hn3]; [change (Z.of_nat 2) with 2; lia|].
    assert (Hm : exists m, n = S m /\ (2 <= m)%nat) by (exists (n - 1)%nat; lia). destruct Hm as (m & Em & Hm).
    pose proof (proj1 (T1 m) (N3 m ltac:(lia))) as T.
    rewrite Em, Nat2Z.inj_succ.
    destruct (Z.le_gt_cases 3 c) as [C3|C3].
    + pose proof (grow3 c m C3 Hm). lia.
    + assert (c = 1 \/ c = 2) as [C|C] by lia; rewrite C in T |- *.
      * change (1 + 1) with 2 in T. change (1 - 1) with 0 in T. rewrite Z.pow_0_l in T by lia.
        destruct (Nat.eq_dec m 2) as [->|]; [change (Z.of_nat 2) with 2; lia|].
        pose proof (pow2_ge m ltac:(lia)). lia.
      * change (2 + 1) with 3 in T. change (2 - 1) with 1 in T. rewrite Z.pow_1_l in T by lia.
        destruct (Nat.eq_dec m 2) as [->|]; [change (Z.of_nat 2) with 2; lia|].
        pose proof (pow3_ge m ltac:(lia)). lia.
Qed.

Lemma nsplit_bal p c prec : p = 2 * c + 1 -> 1 <= c -> 0 < prec <= 2 ^ 30 ->
  (0 < nsplit Bal p prec)%nat <-> ~ band_bal c (2 ^ prec - 1).
Proof.
  intros Hp Hc Hprec. rewrite nsplit_pos_iff. unfold band_bal.
  destruct (TRSMBound_bal p c prec Hp Hc ltac:(lia)) as (N1 & N2 & N3 & N4 & N5).
  set (n := TRSMBound Bal p prec) in *. set (d := DotProdBoundClassic Bal p prec).
  assert (E2 : (p - 1) / 2 = c) by (symmetry; apply Z.div_unique with 0; lia).
  pose proof (DotProd_ge Bal p prec) as DP. cbn [computeFactorClassic] in DP. rewrite E2 in DP. fold d in DP.
  unfold testb in *.
  split.
  - intros Hle [B1 B2].
    assert (2 <= n)%nat.
    { destruct (Nat.eq_dec n 1) as [E|]; [|lia]. rewrite E in N5. exfalso. apply N5.
      change (Z.of_nat 1) with 1. rewrite !Z.pow_1_r. lia. }
    assert (2 <= Z.of_nat d) as D2 by lia. apply DP in D2; try lia.
  - intro NB. pose proof (DotProd_pos Bal p prec) as D1. fold d in D1.
    destruct (Nat.le_gt_cases n 1) as [|Hn2]; [lia|].
    assert (c * c + c <= 2 ^ prec - 1).
    { pose proof (N3 1%nat ltac:(lia)) as T. change (Z.of_nat 1) with 1 in T.
      rewrite !Z.pow_1_r in T. lia. }
    apply Nat2Z.inj_le. apply DP; [lia|lia|].
    destruct (Nat.eq_dec n 2) as [->|Hn3]; [change (Z.of_nat 2) with 2; lia|].
    assert (Hm : exists m, n = S m /\ (2 <= m)%nat) by (exists (n - 1)%nat; lia). destruct Hm as (m & Em & Hm).
    pose proof (N3 m ltac:(lia)) as T.
    rewrite Em, Nat2Z.inj_succ. pose proof (grow_bal c m Hc ltac:(lia)) as G.
    destruct (Nat.eqb_spec m 1); lia.
Qed.

(** ** Assembly *)

Lemma rfld_wf r p prec : okmod r p prec -> wf (rfld r p).
Proof.
  intros (H1 & H2 & H3). destruct r; unfold wf, rfld, modular, balanced, fhi; cbn [fp flo]; [lia|].
  assert (p / 2 <= p - 1) by (apply Z.div_le_upper_bound; lia).
  assert (0 <= p / 2) by (apply Z.div_pos; lia). lia.
Qed.

Lemma odd_half p : Z.odd p = true -> p = 2 * ((p - 1) / 2) + 1.
Proof. intro H. rewrite (Zdiv2_odd_eqn p), H. set (k := Z.div2 p). replace (2 * k + 1 - 1) with (k * 2) by lia. rewrite Z.div_mul; lia. Qed.

Lemma rfld_c r p prec : okmod r p prec -> absmax (rfld r p) = computeFactorClassic r p.
Proof.
  intros (H1 & H2 & H3). unfold absmax, fhi. destruct r; cbn [rfld computeFactorClassic modular balanced fp flo]; [lia|].
  pose proof (odd_half p (H3 eq_refl)) as E. set (c := (p - 1) / 2) in *.
  replace (p / 2) with c by (apply Z.div_unique with 1; lia). lia.
Qed.

Lemma TRSM_growth r p prec : okmod r p prec -> 0 < prec ->
  forall j, (j < TRSMBound r p prec)%nat ->
  Ub (flo (rfld r p)) (fhi (rfld r p)) j <= 2 ^ prec /\ Lb (flo (rfld r p)) (fhi (rfld r p)) j <= 2 ^ prec.
Proof.
  intros (H1 & H2 & H3) Hprec j Hj. destruct r; unfold rfld, modular, balanced, fhi; cbn [fp flo].
  - destruct (TRSMBound_pos p prec H1 Hprec) as (N1 & N2 & N3 & N4 & N5).
    assert (T : testp p (2 ^ prec - 1) j) by (destruct j; [apply N4; lia|apply N3; lia]).
    replace (0 + p - 1) with (p - 1) by lia.
    destruct (pos_bound (p - 1) j ltac:(lia)) as [B1 B2]. unfold testp in T.
    replace (p - 1 + 1) with p in * by lia. replace (p - 1 - 1) with (p - 2) in * by lia. lia.
  - pose proof (odd_half p (H3 eq_refl)) as E. set (c := (p - 1) / 2) in *.
    assert (1 <= c) by lia.
    destruct (TRSMBound_bal p c prec E ltac:(lia) Hprec) as (N1 & N2 & N3 & N4 & N5).
    assert (T : testb c (2 ^ prec - 1) j) by (destruct j; [apply N4; lia|apply N3; lia]).
    assert (E2 : p / 2 = c) by (symmetry; apply Z.div_unique with 1; lia).
    rewrite E2. replace (c - p + 1) with (- c) by lia. replace (- c + p - 1) with c by lia.
    destruct (PN_bal c j ltac:(lia)) as [-> ->]. unfold testb in T. lia.
Qed.

Lemma nsplit_room r p prec : okmod r p prec -> (1 < nsplit r p prec)%nat ->
  let c := absmax (rfld r p) in
  c + (Z.of_nat (nsplit r p prec) - 1) * (c * c) <= 2 ^ prec.
Proof.
  intros Hok Hn c. unfold c. rewrite (rfld_c r p prec Hok).
  assert (1 <= computeFactorClassic r p).
  { rewrite <- (rfld_c r p prec Hok). apply absmax_pos, (rfld_wf r p prec Hok). }
  set (d := Z.of_nat (DotProdBoundClassic r p prec)).
  assert (Hd : Z.of_nat (nsplit r p prec) <= d).
  { unfold d, nsplit. apply Nat2Z.inj_le. rewrite Nat.mul_comm. apply Nat.mul_div_le. unfold TRSMBound. lia. }
  assert (d <= 2 ^ 31).
  { unfold d, DotProdBoundClassic. destruct (Z.leb_spec ((max_storable prec + 1 - computeFactorClassic r p) /
    (computeFactorClassic r p * computeFactorClassic r p)) 1); [cbn; lia|]. rewrite Z2Nat.id by lia. lia. }
  pose proof (proj1 (DotProd_ge r p prec d H ltac:(lia)) ltac:(lia)) as G.
  set (q := computeFactorClassic r p) in *. nia.
Qed.

Lemma ftrsm_col_ok r p prec ord unit n A b :
  prime p -> okmod r p prec -> 0 < prec -> fair ord -> (0 < nsplit r p prec)%nat ->
  (forall i j, (j <= i < n)%nat -> reduced p (flo (rfld r p)) (A i j)) ->
  (unit = false -> forall i, (i < n)%nat -> A i i <> 0) ->
  (forall i, (i < n)%nat -> reduced p (flo (rfld r p)) (b i)) ->
  exists x, ftrsm_col r p prec ord unit n A b = Some x /\
    solves p (flo (rfld r p)) unit n A b x.
Proof.
  intros Hp Hok Hprec Hf Hns HA HD Hb. unfold ftrsm_col.
  destruct (Nat.eqb_spec n 0) as [->|Hn0]; [exists b; split; [reflexivity|]; intros i Hi; lia|].
  set (F := rfld r p) in *. set (nblas := TRSMBound r p prec). set (ns := nsplit r p prec) in *.
  destruct (Nat.eqb_spec ns 0) as [|_]; [lia|].
  assert (W : wf F) by apply (rfld_wf r p prec Hok).
  assert (EF : fp F = p) by (unfold F; destruct r; reflexivity).
  assert (Hp' : prime (fp F)) by now rewrite EF.
  assert (Hlohi : forall z, reduced p (flo F) z -> flo F <= z <= fhi F) by (intro z; unfold reduced, fhi; rewrite EF; lia).
  assert (HA' : Aok F unit A n) by (split; [intros; apply Hlohi, HA; lia|exact HD]).
  assert (Hnb : (0 < nblas)%nat) by (unfold nblas, TRSMBound; lia).
  assert (G := TRSM_growth r p prec Hok Hprec). fold F nblas in G.
  assert (R := nsplit_room r p prec Hok). fold F ns in R. cbn zeta in R.
  assert (Hmod : (ns mod nblas = 0)%nat) by (unfold ns, nsplit; apply Nat.mod_mul; lia).
  set (q := ((n - 1) / ns)%nat). set (rem := ((n - 1) mod ns)%nat).
  assert (Eq : (n - 1 = ns * q + rem)%nat) by apply Nat.div_mod_eq.
  assert (Hrem : (rem < ns)%nat) by (apply Nat.mod_upper_bound; lia).
  destruct (split_loop_ok F prec ord unit W Hp' Hprec Hf nblas ns A n b Hnb HA' ltac:(lia) Hmod G R q 0 b) as (b1 & E1 & S1 & S2).
  { nia. }
  { intros; lia. }
  { intros i Hi. split; [apply Hlohi, Hb; lia|]. cbn. apply congr_refl. }
  rewrite E1. cbn [Nat.add] in S1, S2.
  destruct (delayed_ok F prec ord unit W Hp' Hprec Hf nblas ns A n Hnb HA' G R (S (rem + 1)) ((rem + 1) / nblas)%nat
     (rem + 1)%nat (q * ns)%nat (q * ns)%nat b1) as (x & E2 & P & P'); try lia.
  { pose proof (Nat.div_mod_eq (rem + 1) nblas). pose proof (Nat.mod_upper_bound (rem + 1) nblas). nia. }
  { intros i Hi. destruct (S2 i ltac:(lia)) as [B _]. pose proof (absmax_ok F (b1 i) B).
    replace (q * ns - q * ns)%nat with 0%nat by lia. lia. }
  rewrite E2. eexists; split; [reflexivity|]. intros i Hi.
  assert (Hr : flo F <= x i <= fhi F /\ congr (fp F) (psum A x i 0 i + dg unit A i * x i) (b i)).
  { destruct (Nat.ltb_spec i (q * ns)) as [Hl|Hl].
    - destruct (S1 i Hl) as [B C]. rewrite P' by lia. split; [exact B|].
      rewrite (psum_ext F A x b1) by (intros; apply P'; lia). exact C.
    - destruct (P i ltac:(lia)) as [B C]. split; [exact B|]. destruct (S2 i ltac:(lia)) as [_ C'].
      replace i with (q * ns + (i - q * ns))%nat at 2 by lia. unfold psum at 1. rewrite Zsumr_app.
      fold (psum A x i 0 (q * ns)). cbn [Nat.add]. fold (psum A x i (q * ns) (i - q * ns)).
      rewrite (psum_ext F A x b1 i 0) by (intros; apply P'; lia).
      destruct C as [u C]. destruct C' as [v C']. exists (u + v). lia. }
  destruct Hr as [B [u C]]. rewrite EF in C. split; [unfold reduced, fhi in *; rewrite EF in B; lia|].
  exists u. rewrite Zsum_Zsumr. exact C.
Qed.

(** ** Primality by trial division *)
Fixpoint no_div (fuel : nat) (d p : Z) : bool :=
  match fuel with
  | O => true
  | S fuel => negb (p mod d =? 0) && no_div fuel (d + 1) p
  end.

Lemma no_div_ok fuel d p : no_div fuel d p = true -> forall n, d <= n < d + Z.of_nat fuel -> p mod n <> 0.
Proof.
  revert d. induction fuel as [|fuel IH]; intros d H n Hn; [lia|].
  cbn [no_div] in H. apply andb_true_iff in H as [H1 H2].
  destruct (Z.eq_dec n d) as [->|]; [|apply (IH (d + 1)); auto; lia].
  intro E. rewrite E in H1. discriminate.
Qed.

Lemma prime_trial p (s : nat) : 1 < p -> p < (Z.of_nat s + 2) * (Z.of_nat s + 2) ->
  no_div s 2 p = true -> prime p.
Proof.
  intros H1 H2 H. apply prime_alt. split; [exact H1|]. intros n Hn [m Hm].
  assert (Hd := no_div_ok s 2 p H).
  assert (forall u v, p = u * v -> 2 <= u -> 2 <= v -> u < 2 + Z.of_nat s -> False) as G.
  { intros u v E Hu Hv Hs. apply (Hd u); [lia|]. rewrite E, Z.mul_comm. apply Z_mod_mult. }
  assert (2 <= m) by nia.
  destruct (Z.lt_ge_cases n (2 + Z.of_nat s)); [apply (G n m); lia|].
  destruct (Z.lt_ge_cases m (2 + Z.of_nat s)); [apply (G m n); lia|]. nia.
Qed.

Lemma ftrsm_div0 r p prec ord unit n A b : nsplit r p prec = 0%nat -> (0 < n)%nat ->
  ftrsm_col r p prec ord unit n A b = None.
Proof.
  intros H Hn. unfold ftrsm_col. destruct (Nat.eqb_spec n 0); [lia|]. now rewrite H.
Qed.

Lemma ftrsm_div0_witness :
  (exists p, prime p /\ okmod Pos p 53 /\ forall ord unit n A b, (0 < n)%nat ->
     ftrsm_col Pos p 53 ord unit n A b = None) /\
  (exists p, prime p /\ okmod Bal p 53 /\ forall ord unit n A b, (0 < n)%nat ->
     ftrsm_col Bal p 53 ord unit n A b = None) /\
  (exists p, prime p /\ okmod Pos p 24 /\ forall ord unit n A b, (0 < n)%nat ->
     ftrsm_col Pos p 24 ord unit n A b = None) /\
  (exists p, prime p /\ okmod Bal p 24 /\ forall ord unit n A b, (0 < n)%nat ->
     ftrsm_col Bal p 24 ord unit n A b = None).
Proof.
  assert (Hm : forall (r : repr) p prec, (2 <=? p) && (p <=? 2 ^ prec) && (if r then true else Z.odd p) = true -> okmod r p prec).
  { intros r p prec H. apply andb_true_iff in H as [H H3]. apply andb_true_iff in H as [H1 H2].
    split; [lia|]. split; [lia|]. intros ->. exact H3. }
  split; [exists 67108879|split; [exists 134217757|split; [exists 2903|exists 5801]]];
  (split; [|split; [apply Hm; vm_compute; reflexivity|
    intros; apply ftrsm_div0; [vm_compute; reflexivity|assumption]]]).
  - apply (prime_trial _ (Z.to_nat 8192)); [lia|vm_compute; reflexivity|vm_compute; reflexivity].
  - apply (prime_trial _ (Z.to_nat 11586)); [lia|vm_compute; reflexivity|vm_compute; reflexivity].
  - apply (prime_trial _ (Z.to_nat 54)); [lia|vm_compute; reflexivity|vm_compute; reflexivity].
  - apply (prime_trial _ (Z.to_nat 77)); [lia|vm_compute; reflexivity|vm_compute; reflexivity].
Qed.
