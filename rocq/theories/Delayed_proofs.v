From Coq Require Import ZArith List Lia Bool Permutation Znumtheory.
From Verif Require Import Delayed_model Delayed_spec.
Import ListNotations.
Open Scope Z_scope.

(** ** Rounding *)
Lemma rnd_exact prec z : Z.abs z <= 2 ^ prec -> rnd prec z = z.
Proof.
  intro H. unfold rnd, rnd_pos. destruct (Z.ltb_spec z 0).
  - rewrite (proj2 (Z.leb_le _ _)) by lia. lia.
  - rewrite (proj2 (Z.leb_le _ _)) by lia. reflexivity.
Qed.

Definition lsum (l : list Z) := fold_right Z.add 0 l.
Definition labs (l : list Z) := fold_right (fun z s => Z.abs z + s) 0 l.

Lemma lsum_cons z l : lsum (z :: l) = z + lsum l. Proof. reflexivity. Qed.
Lemma labs_cons z l : labs (z :: l) = Z.abs z + labs l. Proof. reflexivity. Qed.
Lemma lsum_app l l' : lsum (l ++ l') = lsum l + lsum l'.
Proof. unfold lsum, labs. induction l; cbn; lia. Qed.
Lemma labs_app l l' : labs (l ++ l') = labs l + labs l'.
Proof. unfold lsum, labs. induction l; cbn; lia. Qed.
Lemma labs_nonneg l : 0 <= labs l.
Proof. unfold lsum, labs. induction l; cbn; lia. Qed.
Lemma lsum_le_labs l : Z.abs (lsum l) <= labs l.
Proof. unfold lsum, labs. induction l; cbn; lia. Qed.
Lemma lsum_perm l l' : Permutation l l' -> lsum l = lsum l'.
Proof. unfold lsum, labs. induction 1; cbn; lia. Qed.
Lemma labs_perm l l' : Permutation l l' -> labs l = labs l'.
Proof. unfold lsum, labs. induction 1; cbn; lia. Qed.

Lemma eval_exact prec t : labs (leaves t) <= 2 ^ prec -> eval prec t = lsum (leaves t).
Proof.
  induction t as [|z|l IHl r IHr|z t IH]; cbn [leaves eval]; intro H.
  - reflexivity.
  - cbn in *. rewrite rnd_exact; lia.
  - rewrite labs_app in H. rewrite lsum_app.
    pose proof (labs_nonneg (leaves l)). pose proof (labs_nonneg (leaves r)).
    rewrite IHl, IHr by lia.
    pose proof (lsum_le_labs (leaves l)). pose proof (lsum_le_labs (leaves r)).
    apply rnd_exact. lia.
  - rewrite labs_cons in H. rewrite lsum_cons. pose proof (labs_nonneg (leaves t)). rewrite IH by lia.
    pose proof (lsum_le_labs (leaves t)). apply rnd_exact. lia.
Qed.


Lemma blas_sum prec ord c l : fair ord -> labs l <= 2 ^ prec -> eval prec (ord c l) = lsum l.
Proof.
  intros Hf H. rewrite eval_exact.
  - apply lsum_perm, Hf.
  - now rewrite (labs_perm _ _ (Hf c l)).
Qed.

Lemma ltr_fair : fair ltr.
Proof.
  intros c l. unfold ltr.
  assert (forall t, Permutation (leaves (fold_left (fun t z => Node t (Leaf z)) l t)) (leaves t ++ l)) as H.
  { induction l as [|z l IH]; intro t; cbn [fold_left].
    - now rewrite app_nil_r.
    - rewrite IH. cbn [leaves]. rewrite <- app_assoc. reflexivity. }
  apply H.
Qed.

(** ** Field representation *)

Definition congr (p a b : Z) := exists q, a - b = q * p.
Lemma congr_refl p a : congr p a a. Proof. exists 0; lia. Qed.
Lemma congr_sym p a b : congr p a b -> congr p b a.
Proof. intros [q H]; exists (-q); lia. Qed.
Lemma congr_trans p a b c : congr p a b -> congr p b c -> congr p a c.
Proof. intros [q H] [q' H']; exists (q + q'); lia. Qed.
Lemma congr_add p a b a' b' : congr p a a' -> congr p b b' -> congr p (a + b) (a' + b').
Proof. intros [q H] [q' H']; exists (q + q'); lia. Qed.
Lemma congr_mul p a b a' b' : congr p a a' -> congr p b b' -> congr p (a * b) (a' * b').
Proof. intros [q H] [q' H']. exists (q * b + a' * q'). nia. Qed.
Lemma congr_opp p a a' : congr p a a' -> congr p (- a) (- a').
Proof. intros [q H]; exists (-q); lia. Qed.

Lemma canon_congr F z : wf F -> congr (fp F) (canon F z) z.
Proof.
  intros [Hp _]. unfold canon. pose proof (Z.div_mod (z - flo F) (fp F) ltac:(lia)).
  exists (- ((z - flo F) / fp F)). lia.
Qed.

Lemma canon_range F z : wf F -> flo F <= canon F z <= fhi F.
Proof.
  intros [Hp _]. unfold canon, fhi.
  pose proof (Z.mod_pos_bound (z - flo F) (fp F) ltac:(lia)). lia.
Qed.

Lemma congr_range_eq F x y : wf F -> flo F <= x <= fhi F -> flo F <= y <= fhi F ->
  congr (fp F) x y -> x = y.
Proof.
  intros [Hp _] Hx Hy [q H]. unfold fhi in *. assert (q = 0) by nia. lia.
Qed.

Lemma canon_id F x : wf F -> flo F <= x <= fhi F -> canon F x = x.
Proof.
  intros W H. apply (congr_range_eq F); auto using canon_range, canon_congr.
Qed.

Lemma is_repr_canon F z r : wf F -> (is_repr (fp F) (flo F) z r <-> r = canon F z).
Proof.
  intro W. unfold is_repr. split.
  - intros [H1 H2]. apply (congr_range_eq F); auto using canon_range.
    + eapply congr_trans; [exact H2|]. apply congr_sym, canon_congr, W.
  - intros ->. split; [apply canon_range, W | apply canon_congr, W].
Qed.

Lemma canon_eq F a b : wf F -> congr (fp F) a b -> canon F a = canon F b.
Proof.
  intros W H. apply (congr_range_eq F); auto using canon_range.
  eapply congr_trans; [apply canon_congr, W|]. eapply congr_trans; [exact H|].
  apply congr_sym, canon_congr, W.
Qed.

Lemma absmax_pos F : wf F -> 1 <= absmax F.
Proof. intros [Hp H]. unfold absmax, fhi in *. lia. Qed.

Lemma absmax_ok F x : flo F <= x <= fhi F -> Z.abs x <= absmax F.
Proof. unfold absmax. lia. Qed.

(** ** Sums *)
Fixpoint Zsumr (f : nat -> Z) (off len : nat) : Z :=
  match len with O => 0 | S len => f off + Zsumr f (S off) len end.

Lemma Zsumr_app f off l l' : Zsumr f off (l + l') = Zsumr f off l + Zsumr f (off + l) l'.
Proof.
  revert off; induction l as [|l IH]; intro off; cbn [Zsumr Nat.add].
  - now rewrite Nat.add_0_r.
  - rewrite IH. replace (S off + l)%nat with (off + S l)%nat by lia. lia.
Qed.

Lemma Zsum_Zsumr f n : Zsum f n = Zsumr f 0 n.
Proof.
  induction n as [|n IH]; cbn [Zsum]; [reflexivity|].
  rewrite IH. replace (S n) with (n + 1)%nat by lia. rewrite Zsumr_app. cbn. lia.
Qed.

Lemma lsum_map f off len : lsum (map f (seq off len)) = Zsumr f off len.
Proof. revert off; induction len; intro; cbn; [auto|]. now rewrite IHlen. Qed.

Lemma labs_map_le f off len B :
  (forall i, (off <= i < off + len)%nat -> Z.abs (f i) <= B) ->
  labs (map f (seq off len)) <= Z.of_nat len * B.
Proof.
  revert off; induction len as [|len IH]; intros off H; cbn [seq map]; [cbn; lia|]. rewrite labs_cons.
  specialize (IH (S off)). pose proof (H off ltac:(lia)).
  assert (labs (map f (seq (S off) len)) <= Z.of_nat len * B).
  { apply IH. intros; apply H; lia. }
  replace (Z.of_nat (S len) * B) with (B + Z.of_nat len * B) by lia.
  lia.
Qed.

Lemma abs_mul_le a b c : Z.abs a <= c -> Z.abs b <= c -> Z.abs (a * b) <= c * c.
Proof. intros. rewrite Z.abs_mul. apply Z.mul_le_mono_nonneg; lia. Qed.

(** ** fdot *)

Lemma chunk_exact F prec ord c x y N off len :
  fair ord -> vin F N x -> vin F N y -> (off + len <= N)%nat ->
  Z.of_nat len * (absmax F * absmax F) <= 2 ^ prec ->
  eval prec (ord c (prods x y off len)) = Zsumr (fun i => x i * y i) off len.
Proof.
  intros Hf Hx Hy Hl Hb. rewrite blas_sum; auto.
  - apply lsum_map.
  - eapply Z.le_trans; [|exact Hb]. apply labs_map_le.
    intros i Hi. apply abs_mul_le; apply absmax_ok; [apply Hx|apply Hy]; lia.
Qed.

Lemma fold_axpy F x y N d : wf F ->
  congr (fp F) (fold_left (fun d i => canon F (x i * y i + d)) (seq 0 N) d)
               (d + Zsum (fun i => x i * y i) N).
Proof.
  intro W. induction N as [|N IH].
  - cbn. rewrite Z.add_0_r. apply congr_refl.
  - replace (S N) with (N + 1)%nat at 1 by lia. rewrite seq_app, fold_left_app. cbn [seq fold_left Zsum Nat.add].
    eapply congr_trans; [apply canon_congr, W|].
    replace (d + (Zsum (fun i => x i * y i) N + x N * y N))
      with (x N * y N + (d + Zsum (fun i => x i * y i) N)) by lia.
    apply congr_add; [apply congr_refl | exact IH].
Qed.

Lemma fold_axpy_range F x y N d : wf F -> flo F <= d <= fhi F ->
  flo F <= fold_left (fun d i => canon F (x i * y i + d)) (seq 0 N) d <= fhi F.
Proof.
  intros W. generalize 0%nat as s. intro s. revert s d.
  induction N as [|N IH]; intros s d H; cbn [seq fold_left]; auto.
  apply IH, canon_range, W.
Qed.

Lemma fdot_default_ok F N x y : wf F ->
  fdot_default F N x y = canon F (Zsum (fun i => x i * y i) N).
Proof.
  intro W. apply (congr_range_eq F); auto using canon_range.
  - apply fold_axpy_range; auto using canon_range.
  - eapply congr_trans; [apply fold_axpy, W|].
    eapply congr_trans; [|apply congr_sym, canon_congr, W].
    replace (Zsum (fun i => x i * y i) N) with (0 + Zsum (fun i => x i * y i) N) at 2 by lia.
    apply congr_add; [apply canon_congr, W | apply congr_refl].
Qed.

Lemma fdot_loop_ok F prec ord N dd x y : wf F -> fair ord -> vin F N x -> vin F N y ->
  (0 < dd)%nat -> Z.of_nat dd * (absmax F * absmax F) <= 2 ^ prec ->
  forall fuel i d, (i <= N)%nat -> (N - i < fuel)%nat ->
  exists r, fdot_loop fuel F prec ord N dd i x y d = Some r /\
    r = canon F (d + Zsumr (fun i => x i * y i) i (N - i)).
Proof.
  intros W Hf Hx Hy Hdd Hb. induction fuel as [|fuel IH]; intros i d Hi Hfu; [lia|].
  cbn [fdot_loop]. destruct (Nat.ltb_spec (i + dd) N) as [H|H].
  - destruct (IH (i + dd)%nat (canon F (d + canon F (eval prec (ord i (prods x y i dd))))) ltac:(lia) ltac:(lia)) as (r & -> & Hr).
    exists r; split; auto. rewrite Hr. apply canon_eq; auto.
    rewrite (chunk_exact F prec ord i x y N i dd) by (auto; lia).
    replace (N - i)%nat with (dd + (N - (i + dd)))%nat by lia. rewrite Zsumr_app.
    rewrite Z.add_assoc. apply congr_add; [|apply congr_refl].
    eapply congr_trans; [apply canon_congr, W|].
    apply congr_add; [apply congr_refl|apply canon_congr, W].
  - eexists; split; [reflexivity|]. apply canon_eq; auto.
    assert (Z.of_nat (N - i) * (absmax F * absmax F) <= 2 ^ prec) as Hb'.
    { eapply Z.le_trans; [|exact Hb]. apply Z.mul_le_mono_nonneg_r; [|lia].
      pose proof (absmax_pos F W). apply Z.mul_nonneg_nonneg; lia. }
    rewrite (chunk_exact F prec ord i x y N i (N - i)) by (auto; lia).
    apply congr_add; [apply congr_refl|apply canon_congr, W].
Qed.

Lemma fdot_delayed_ok F prec ord N x y : wf F -> 0 < prec -> fair ord -> vin F N x -> vin F N y ->
  exists d, fdot_delayed F prec ord N x y = Some d /\
    is_repr (fp F) (flo F) (Zsum (fun i => x i * y i) N) d.
Proof.
  intros W Hprec Hf Hx Hy. unfold fdot_delayed.
  set (r := max_storable prec / (absmax F * absmax F)).
  pose proof (absmax_pos F W) as Ha. set (c2 := absmax F * absmax F) in *.
  assert (1 <= c2) by (unfold c2; nia).
  assert (0 <= max_storable prec) by (unfold max_storable; pose proof (Z.pow_pos_nonneg 2 prec); lia).
  assert (0 <= r) by (apply Z.div_pos; lia).
  destruct (Nat.eqb_spec (Z.to_nat r) 0) as [E|E].
  - eexists; split; [reflexivity|]. apply is_repr_canon; auto. apply fdot_default_ok, W.
  - destruct (fdot_loop_ok F prec ord N (Z.to_nat r) x y W Hf Hx Hy ltac:(lia)) with (fuel := S N) (i := 0%nat) (d := canon F 0) as (d & -> & Hd); try lia.
    + rewrite Z2Nat.id by lia. fold c2. pose proof (Z.mul_div_le (max_storable prec) c2 ltac:(lia)).
      unfold max_storable in *. fold r in H2. lia.
    + exists d; split; auto. apply is_repr_canon; auto. rewrite Hd, Nat.sub_0_r, <- Zsum_Zsumr.
      apply canon_eq; auto.
      replace (Zsum (fun i => x i * y i) N) with (0 + Zsum (fun i => x i * y i) N) at 2 by lia.
      apply congr_add; [apply canon_congr, W | apply congr_refl].
Qed.

(** ** Lazy product *)
Lemma labs_scaled a b alpha off len c : Z.abs alpha = 1 ->
  (forall l, (off <= l < off + len)%nat -> Z.abs (a l) <= c /\ Z.abs (b l) <= c) ->
  labs (map (fun l => alpha * (a l * b l)) (seq off len)) <= Z.of_nat len * (c * c).
Proof.
  intros Hal H. apply labs_map_le. intros i Hi. destruct (H i Hi).
  rewrite Z.abs_mul, Hal, Z.mul_1_l. now apply abs_mul_le.
Qed.

Lemma Zsumr_scale alpha f off len : Zsumr (fun l => alpha * f l) off len = alpha * Zsumr f off len.
Proof. revert off; induction len; intro; cbn; [lia|]. rewrite IHlen. lia. Qed.

Lemma blas_entry_exact prec ord call alpha a b off len beta c m M :
  fair ord -> Z.abs alpha = 1 -> M <= 2 ^ prec ->
  (forall l, (off <= l < off + len)%nat -> Z.abs (a l) <= m /\ Z.abs (b l) <= m) ->
  Z.of_nat len * (m * m) + Z.abs beta * Z.abs c <= M ->
  blas_entry prec ord call alpha a b off len beta c =
    alpha * Zsumr (fun l => a l * b l) off len + beta * c.
Proof.
  intros Hf Hal HM Hab Hb. unfold blas_entry.
  pose proof (labs_scaled a b alpha off len m Hal Hab) as HL.
  destruct (Z.eqb_spec beta 0) as [->|Hbeta].
  - rewrite blas_sum by (auto; lia). rewrite lsum_map, Zsumr_scale. lia.
  - rewrite blas_sum; auto.
    + rewrite lsum_app, lsum_map, Zsumr_scale. cbn. lia.
    + rewrite labs_app. cbn [labs fold_right]. rewrite Z.abs_mul. lia.
Qed.

Definition dotr (a b : nat -> Z) off len := Zsumr (fun l => a l * b l) off len.

Lemma lazy_loop_ok F prec ord alpha a b k k2 M : wf F -> fair ord -> Z.abs alpha = 1 ->
  vin F k a -> vin F k b -> M <= 2 ^ prec ->
  forall n i c, (i * k2 + n * k2 <= k)%nat ->
  ((0 < n)%nat -> Z.of_nat k2 * (absmax F * absmax F) + absmax F <= M) ->
  Z.abs c <= M ->
  Z.abs (lazy_loop n i F prec ord alpha a b k2 c) <= M /\
  congr (fp F) (lazy_loop n i F prec ord alpha a b k2 c)
               (c + alpha * dotr a b (i * k2) (n * k2)).
Proof.
  intros W Hf Hal Ha Hb HM. induction n as [|n IH]; intros i c Hk Hg Hc.
  - cbn. split; [auto|]. exists 0. lia.
  - cbn [lazy_loop].
    assert (blas_entry prec ord (S i) alpha a b (i * k2) k2 1 (canon F c) =
            alpha * Zsumr (fun l => a l * b l) (i * k2) k2 + 1 * canon F c) as E.
    { apply blas_entry_exact with (m := absmax F) (M := M); auto.
      - intros l Hl. split; apply absmax_ok; [apply Ha|apply Hb]; lia.
      - pose proof (absmax_ok F _ (canon_range F c W)). specialize (Hg ltac:(lia)). lia. }
    destruct (IH (S i) (blas_entry prec ord (S i) alpha a b (i * k2) k2 1 (canon F c))) as [H1 H2].
    + lia.
    + intros; apply Hg; lia.
    + rewrite E.
      pose proof (labs_scaled a b alpha (i * k2) k2 (absmax F) Hal) as HL.
      assert (labs (map (fun l => alpha * (a l * b l)) (seq (i * k2) k2)) <= Z.of_nat k2 * (absmax F * absmax F)) as HL'.
      { apply HL. intros l Hl. split; apply absmax_ok; [apply Ha|apply Hb]; lia. }
      pose proof (lsum_le_labs (map (fun l => alpha * (a l * b l)) (seq (i * k2) k2))) as HS.
      rewrite lsum_map, Zsumr_scale in HS.
      pose proof (absmax_ok F _ (canon_range F c W)). specialize (Hg ltac:(lia)). lia.
    + split; auto. eapply congr_trans; [exact H2|]. rewrite E.
      replace (S n * k2)%nat with (k2 + n * k2)%nat by lia. unfold dotr. rewrite Zsumr_app.
      replace (i * k2 + k2)%nat with (S i * k2)%nat by lia.
      replace (c + alpha * (Zsumr (fun l => a l * b l) (i * k2) k2 + Zsumr (fun l => a l * b l) (S i * k2) (n * k2)))
        with ((alpha * Zsumr (fun l => a l * b l) (i * k2) k2 + 1 * c) + alpha * Zsumr (fun l => a l * b l) (S i * k2) (n * k2)) by lia.
      apply congr_add; [|apply congr_refl]. apply congr_add; [apply congr_refl|].
      apply congr_mul; [apply congr_refl | apply canon_congr, W].
Qed.

(** Guard: either one block suffices, or a full block plus a reduced entry fits. *)
Definition lazy_guard (F : fld) (M : Z) (kmax k : nat) :=
  (k <= kmax)%nat \/ Z.of_nat kmax * (absmax F * absmax F) + absmax F <= M.

Lemma lazy_entry_ok F prec ord kmax alphadf a b k betadf c M :
  wf F -> fair ord -> Z.abs alphadf = 1 -> M <= 2 ^ prec ->
  vin F k a -> vin F k b -> flo F <= c <= fhi F -> (0 < k)%nat -> (0 < kmax)%nat ->
  Z.of_nat kmax * (absmax F * absmax F) + Z.abs betadf * absmax F <= M ->
  lazy_guard F M kmax k ->
  Z.abs (lazy_entry F prec ord kmax alphadf a b k betadf c) <= M /\
  congr (fp F) (lazy_entry F prec ord kmax alphadf a b k betadf c)
     (alphadf * dotr a b 0 k + betadf * c).
Proof.
  intros W Hf Hal HM Ha Hb Hc Hk Hkm Hfit Hg. unfold lazy_entry.
  set (k2 := Nat.min k kmax).
  assert (exists rem nblock, (if (k mod kmax =? 0)%nat then (kmax, (k / kmax - 1)%nat) else ((k mod kmax)%nat, (k / kmax)%nat)) = (rem, nblock)
     /\ (k = nblock * kmax + rem)%nat /\ (0 < rem <= kmax)%nat) as (rem & nblock & -> & Ek & Hrem).
  { pose proof (Nat.div_mod k kmax ltac:(lia)) as E. pose proof (Nat.mod_upper_bound k kmax ltac:(lia)).
    destruct (Nat.eqb_spec (k mod kmax) 0) as [E0|E0]; do 2 eexists; (split; [reflexivity|]).
    - assert (k / kmax <> 0)%nat by (intro Z0; rewrite Z0, E0 in E; lia).
      destruct (k / kmax)%nat as [|q] eqn:Eq; [lia|]. nia.
    - nia. }
  assert ((nblock = 0)%nat \/ k2 = kmax) as Hk2.
  { destruct nblock; [left; auto|right]. unfold k2. nia. }
  assert (nblock * k2 = nblock * kmax)%nat as Enk by (destruct Hk2 as [->| ->]; lia).
  pose proof (absmax_pos F W) as Hm.
  assert (forall l, (nblock * k2 <= l < nblock * k2 + rem)%nat -> Z.abs (a l) <= absmax F /\ Z.abs (b l) <= absmax F) as Hab.
  { intros l Hl. split; apply absmax_ok; [apply Ha|apply Hb]; lia. }
  assert (Z.of_nat rem * (absmax F * absmax F) <= Z.of_nat kmax * (absmax F * absmax F)) as Hr1.
  { apply Z.mul_le_mono_nonneg_r; [nia|lia]. }
  assert (Z.abs betadf * Z.abs c <= Z.abs betadf * absmax F) as Hbc.
  { apply Z.mul_le_mono_nonneg_l; [lia|]. now apply absmax_ok. }
  assert (blas_entry prec ord 0 alphadf a b (nblock * k2) rem betadf c =
     alphadf * Zsumr (fun l => a l * b l) (nblock * k2) rem + betadf * c) as E0.
  { apply blas_entry_exact with (m := absmax F) (M := M); auto. lia. }
  assert (Z.abs (blas_entry prec ord 0 alphadf a b (nblock * k2) rem betadf c) <= M) as HA0.
  { rewrite E0.
    pose proof (labs_scaled a b alphadf (nblock * k2) rem (absmax F) Hal Hab) as HL.
    pose proof (lsum_le_labs (map (fun l => alphadf * (a l * b l)) (seq (nblock * k2) rem))) as HS.
    rewrite lsum_map, Zsumr_scale in HS.
    pose proof (Z.abs_mul betadf c). lia. }
  destruct (lazy_loop_ok F prec ord alphadf a b k k2 M W Hf Hal Ha Hb HM nblock 0
     (blas_entry prec ord 0 alphadf a b (nblock * k2) rem betadf c)) as [H1 H2]; auto.
  - lia.
  - intro Hn. destruct Hk2 as [->| ->]; [lia|]. destruct Hg as [Hg|Hg]; [nia|auto].
  - split; auto. eapply congr_trans; [exact H2|]. rewrite E0. unfold dotr.
    replace (Zsumr (fun l => a l * b l) 0 k) with (Zsumr (fun l => a l * b l) 0 (nblock * k2 + rem)) by (f_equal; lia). rewrite Zsumr_app. cbn [Nat.mul Nat.add].
    exists 0. lia.
Qed.

(** ** Output bounds *)
Lemma prod_bounds a b Amin Amax Bmin Bmax :
  Amin <= 0 <= Amax -> Bmin <= 0 <= Bmax -> Amin <= a <= Amax -> Bmin <= b <= Bmax ->
  Z.min (Amin * Bmax) (Amax * Bmin) <= a * b <= Z.max (Amin * Bmin) (Amax * Bmax).
Proof.
  intros HA HB Ha Hb.
  assert (Amin * Bmax <= 0) by nia. assert (Amax * Bmin <= 0) by nia.
  assert (0 <= Amin * Bmin) by nia. assert (0 <= Amax * Bmax) by nia.
  destruct (Z.le_ge_cases 0 a), (Z.le_ge_cases 0 b).
  - assert (0 <= a * b <= Amax * Bmax) by nia. lia.
  - assert (Amax * Bmin <= a * b <= 0) by nia. lia.
  - assert (Amin * Bmax <= a * b <= 0) by nia. lia.
  - assert (0 <= a * b <= Amin * Bmin) by nia. lia.
Qed.

Lemma Zsumr_bounds f off len lo hi :
  (forall i, (off <= i < off + len)%nat -> lo <= f i <= hi) ->
  Z.of_nat len * lo <= Zsumr f off len <= Z.of_nat len * hi.
Proof.
  revert off; induction len as [|len IH]; intros off H; cbn [Zsumr]; [lia|].
  pose proof (H off ltac:(lia)). specialize (IH (S off) ltac:(intros; apply H; lia)). lia.
Qed.

Lemma set_out_bounds_ok k alpha beta Amin Amax Bmin Bmax Cmin Cmax a b off c omin omax :
  Amin <= 0 <= Amax -> Bmin <= 0 <= Bmax ->
  (forall l, (off <= l < off + k)%nat -> Amin <= a l <= Amax) ->
  (forall l, (off <= l < off + k)%nat -> Bmin <= b l <= Bmax) ->
  Cmin <= c <= Cmax ->
  set_out_bounds (Z.of_nat k) alpha beta Amin Amax Bmin Bmax Cmin Cmax = (omin, omax) ->
  omin <= alpha * Zsumr (fun l => a l * b l) off k + beta * c <= omax.
Proof.
  intros HA HB Ha Hb Hc. unfold set_out_bounds.
  set (mn := Z.min (Amin * Bmax) (Amax * Bmin)). set (mx := Z.max (Amin * Bmin) (Amax * Bmax)).
  assert (Z.of_nat k * mn <= Zsumr (fun l => a l * b l) off k <= Z.of_nat k * mx) as HS.
  { apply Zsumr_bounds. intros i Hi. apply prod_bounds; auto. }
  set (S := Zsumr (fun l => a l * b l) off k) in *. clearbody S mn mx.
  assert (forall o1 o2, (if beta <? 0 then (beta * Cmax, beta * Cmin) else (beta * Cmin, beta * Cmax)) = (o1, o2)
     -> o1 <= beta * c <= o2) as HC.
  { intros o1 o2. destruct (Z.ltb_spec beta 0); intros [= <- <-]; nia. }
  destruct (if beta <? 0 then _ else _) as [o1 o2] eqn:E. specialize (HC _ _ eq_refl).
  set (k' := Z.of_nat k) in *.
  destruct (Z.ltb_spec 0 alpha); intros [= <- <-].
  - replace (k' * alpha * mn) with (alpha * (k' * mn)) by ring.
    replace (k' * alpha * mx) with (alpha * (k' * mx)) by ring. nia.
  - replace (k' * alpha * mn) with (alpha * (k' * mn)) by ring.
    replace (k' * alpha * mx) with (alpha * (k' * mx)) by ring. nia.
Qed.

Lemma set_out_bounds_zero k alpha beta Amin Amax Bmin Bmax Cmin Cmax omin omax :
  0 <= k ->
  Amin <= 0 <= Amax -> Bmin <= 0 <= Bmax -> Cmin <= 0 <= Cmax ->
  set_out_bounds k alpha beta Amin Amax Bmin Bmax Cmin Cmax = (omin, omax) ->
  omin <= 0 <= omax.
Proof.
  intros Hk HA HB HC E.
  pose proof (set_out_bounds_ok (Z.to_nat k) alpha beta Amin Amax Bmin Bmax Cmin Cmax (fun _ => 0) (fun _ => 0) 0 0 omin omax) as H.
  rewrite Z2Nat.id in H by auto. specialize (H HA HB ltac:(auto) ltac:(auto) HC E).
  assert (forall off len, Zsumr (fun _ => 0 * 0) off len = 0) as Hz.
  { intros off len; revert off; induction len; intro; cbn; auto. }
  rewrite Hz in H. lia.
Qed.

Lemma lazy_loop_last F prec ord alpha a b k k2 M : wf F -> fair ord -> Z.abs alpha = 1 ->
  vin F k a -> vin F k b -> M <= 2 ^ prec ->
  forall n i c, (i * k2 + n * k2 <= k)%nat -> (0 < n)%nat ->
  Z.of_nat k2 * (absmax F * absmax F) + absmax F <= M ->
  exists off c', (off + k2 <= k)%nat /\ flo F <= c' <= fhi F /\
  lazy_loop n i F prec ord alpha a b k2 c = alpha * dotr a b off k2 + 1 * c'.
Proof.
  intros W Hf Hal Ha Hb HM. induction n as [|n IH]; intros i c Hk Hn Hg; [lia|].
  cbn [lazy_loop]. destruct n as [|n].
  - cbn [lazy_loop]. exists (i * k2)%nat, (canon F c). split; [lia|]. split; [apply canon_range, W|].
    apply blas_entry_exact with (m := absmax F) (M := M); auto.
    + intros l Hl. split; apply absmax_ok; [apply Ha|apply Hb]; lia.
    + pose proof (absmax_ok F _ (canon_range F c W)). lia.
  - apply IH; auto; lia.
Qed.

Lemma lazy_entry_bounds F prec ord kmax alphadf a b k betadf c M omin omax :
  wf F -> fair ord -> Z.abs alphadf = 1 -> M <= 2 ^ prec ->
  vin F k a -> vin F k b -> flo F <= c <= fhi F -> (0 < k)%nat -> (0 < kmax)%nat ->
  Z.of_nat kmax * (absmax F * absmax F) + Z.abs betadf * absmax F <= M ->
  lazy_guard F M kmax k ->
  lazy_out_bounds F kmax k alphadf betadf = (omin, omax) ->
  omin <= lazy_entry F prec ord kmax alphadf a b k betadf c <= omax.
Proof.
  intros W Hf Hal HM Ha Hb Hc Hk Hkm Hfit Hg. unfold lazy_entry, lazy_out_bounds.
  pose proof (Nat.div_mod k kmax ltac:(lia)) as E. pose proof (Nat.mod_upper_bound k kmax ltac:(lia)) as HR.
  set (k2 := Nat.min k kmax).
  replace (if (k mod kmax =? 0)%nat then (kmax, (k / kmax - 1)%nat) else ((k mod kmax)%nat, (k / kmax)%nat))
   with ((if (k mod kmax =? 0)%nat then kmax else (k mod kmax)%nat),
         (if (k mod kmax =? 0)%nat then (k / kmax - 1)%nat else (k / kmax)%nat))
   by (destruct (k mod kmax =? 0)%nat; reflexivity).
  set (rem := if (k mod kmax =? 0)%nat then kmax else (k mod kmax)%nat).
  set (nblock := if (k mod kmax =? 0)%nat then (k / kmax - 1)%nat else (k / kmax)%nat).
  assert ((k = nblock * kmax + rem)%nat /\ (0 < rem <= kmax)%nat) as [Ek Hrem].
  { unfold rem, nblock. destruct (Nat.eqb_spec (k mod kmax) 0) as [E0|E0].
    - assert (k / kmax <> 0)%nat by (intro Z0; rewrite Z0, E0 in E; lia).
      destruct (k / kmax)%nat as [|q] eqn:Eq; [lia|]. nia.
    - nia. }
  clearbody rem nblock.
  pose proof (absmax_pos F W) as Hm. destruct W as [Wp Wz]. pose proof (conj Wp Wz : wf F) as W.
  destruct (Nat.eqb_spec nblock 0) as [->|Hn].
  - intro Eb. cbn [lazy_loop].
    rewrite (blas_entry_exact prec ord 0 alphadf a b _ rem betadf c (absmax F) M); auto.
    + eapply set_out_bounds_ok; [exact Wz|exact Wz| | |exact Hc|exact Eb]; intros l Hl; [apply Ha|apply Hb]; lia.
    + intros l Hl. split; apply absmax_ok; [apply Ha|apply Hb]; lia.
    + assert (Z.of_nat rem * (absmax F * absmax F) <= Z.of_nat kmax * (absmax F * absmax F)) as Hr1.
      { apply Z.mul_le_mono_nonneg_r; [nia|lia]. }
      assert (Z.abs betadf * Z.abs c <= Z.abs betadf * absmax F) as Hbc.
      { apply Z.mul_le_mono_nonneg_l; [lia|]. now apply absmax_ok. }
      lia.
  - assert (k2 = kmax) as Hk2 by (unfold k2; nia). 
    assert (Z.of_nat kmax * (absmax F * absmax F) + absmax F <= M) as Hg'.
    { destruct Hg as [Hg|Hg]; [nia|auto]. }
    intro Eb.
    destruct (lazy_loop_last F prec ord alphadf a b k k2 M W Hf Hal Ha Hb HM nblock 0
     (blas_entry prec ord 0 alphadf a b (nblock * k2) rem betadf c)) as (off & c' & Ho & Hc' & ->).
    + rewrite Hk2. lia.
    + lia.
    + now rewrite Hk2.
    + fold k2 in Eb. eapply set_out_bounds_ok; [exact Wz|exact Wz| | |exact Hc'|exact Eb]; intros l Hl; [apply Ha|apply Hb]; lia.
Qed.

(** ** Modular inverse *)
Lemma zinv_ok p a : prime p -> ~ (p | a) -> congr p (a * zinv p a) 1.
Proof.
  intros Hp Ha. pose proof (prime_ge_2 p Hp) as H2. unfold zinv.
  assert (rel_prime a p) as Hr. { apply rel_prime_sym, prime_rel_prime; auto. }
  apply rel_prime_bezout in Hr. destruct Hr as [u v Huv].
  set (f := fun x : nat => (a * Z.of_nat x) mod p =? 1).
  assert (exists x, In x (seq 0 (Z.to_nat p)) /\ f x = true) as (x & Hx & Hfx).
  { exists (Z.to_nat (u mod p)). pose proof (Z.mod_pos_bound u p ltac:(lia)). split.
    - apply in_seq. lia.
    - unfold f. rewrite Z2Nat.id by lia. apply Z.eqb_eq.
      rewrite Z.mul_mod_idemp_r by lia. replace (a * u) with (1 + (- v) * p) by lia.
      rewrite Z.mod_add by lia. apply Z.mod_1_l. lia. }
  destruct (find f (seq 0 (Z.to_nat p))) as [y|] eqn:E.
  - apply find_some in E. destruct E as [_ E]. unfold f in E. apply Z.eqb_eq in E.
    exists (a * Z.of_nat y / p). pose proof (Z.div_mod (a * Z.of_nat y) p ltac:(lia)). lia.
  - pose proof (find_none _ _ E x Hx). congruence.
Qed.

Lemma reduced_nonzero F a : wf F -> flo F <= a <= fhi F -> a <> 0 -> ~ (fp F | a).
Proof.
  intros W Ha Hn [q Hq]. apply Hn. apply (congr_range_eq F); auto; [destruct W; auto|].
  exists q. lia.
Qed.

Lemma fdiv_ok F b a : wf F -> prime (fp F) -> flo F <= a <= fhi F -> a <> 0 ->
  congr (fp F) (a * fdiv F b a) b.
Proof.
  intros W Hp Ha Hn. unfold fdiv.
  eapply congr_trans; [apply congr_mul; [apply congr_refl|apply canon_congr, W]|].
  pose proof (zinv_ok (fp F) a Hp (reduced_nonzero F a W Ha Hn)) as [q Hq].
  exists (q * b). replace (a * (b * zinv (fp F) a) - b) with (b * (a * zinv (fp F) a - 1)) by ring.
  rewrite Hq. ring.
Qed.

Lemma fdiv_nonzero F b a : wf F -> prime (fp F) -> flo F <= a <= fhi F -> a <> 0 ->
  flo F <= b <= fhi F -> b <> 0 -> fdiv F b a <> 0.
Proof.
  intros W Hp Ha Hn Hb Hbn E. pose proof (fdiv_ok F b a W Hp Ha Hn) as [q H].
  rewrite E in H. apply (reduced_nonzero F b W Hb Hbn). exists (-q). lia.
Qed.

(** ** The Delayed driver *)
Lemma default_entry_ok F alpha a b k beta c :
  wf F -> prime (fp F) -> flo F <= alpha <= fhi F -> alpha <> 0 ->
  congr (fp F) (default_entry F alpha a b k beta c) (alpha * dotr a b 0 k + beta * c).
Proof.
  intros W Hp Hal Hn. unfold default_entry.
  eapply congr_trans; [apply canon_congr, W|].
  eapply congr_trans; [apply congr_mul; [apply congr_refl|apply fold_axpy, W]|].
  rewrite Zsum_Zsumr. fold (dotr a b 0 k). rewrite Z.mul_add_distr_l, Z.add_comm.
  apply congr_add; [apply congr_refl|].
  destruct (Z.eqb_spec beta 0) as [->|_].
  - exists 0. lia.
  - eapply congr_trans; [apply congr_mul; [apply congr_refl|apply canon_congr, W]|].
    rewrite Z.mul_assoc. apply congr_mul; [|apply congr_refl]. now apply fdiv_ok.
Qed.

Lemma gemv_default_entry_ok F alpha a b k beta c :
  wf F -> prime (fp F) -> flo F <= alpha <= fhi F -> alpha <> 0 ->
  congr (fp F) (gemv_default_entry F alpha a b k beta c) (alpha * dotr a b 0 k + beta * c).
Proof.
  intros W Hp Hal Hn. unfold gemv_default_entry. rewrite fdot_default_ok by auto.
  eapply congr_trans; [apply canon_congr, W|].
  eapply congr_trans; [apply congr_mul; [apply congr_refl|apply canon_congr, W]|].
  rewrite Zsum_Zsumr. fold (dotr a b 0 k). rewrite Z.mul_add_distr_l, Z.add_comm.
  apply congr_add; [apply congr_mul; [apply congr_refl|apply canon_congr, W]|].
  destruct (Z.eqb_spec beta 0) as [->|_].
  - exists 0. lia.
  - eapply congr_trans; [apply congr_mul; [apply congr_refl|apply canon_congr, W]|].
    rewrite Z.mul_assoc. apply congr_mul; [|apply congr_refl]. now apply fdiv_ok.
Qed.

Lemma scal_and_reduce_ok F prec alpha omin omax c s :
  wf F -> 0 < prec -> alpha <> 0 -> omin <= c <= omax ->
  (if (canon F 1 =? alpha) || (canon F (-1) =? alpha) then congr (fp F) c s
   else congr (fp F) (alpha * c) s) ->
  scal_and_reduce F prec alpha omin omax c = canon F s.
Proof.
  intros W Hprec Hn Hc. unfold scal_and_reduce.
  destruct (orb _ _); intro H; [now apply canon_eq|].
  destruct (Z.ltb_spec (max_storable prec / Z.abs alpha) (Z.max (- omin) omax)) as [Hb|Hb].
  - apply canon_eq; auto. eapply congr_trans; [|exact H].
    apply congr_mul; [apply congr_refl|apply canon_congr, W].
  - rewrite rnd_exact; [now apply canon_eq|].
    pose proof (Z.mul_div_le (max_storable prec) (Z.abs alpha) ltac:(lia)).
    assert (Z.abs c <= max_storable prec / Z.abs alpha) by lia.
    rewrite Z.abs_mul. unfold max_storable in *. nia.
Qed.


Lemma kmax_fits M m beta kmax : 1 <= m -> kmax = max_delayed_dim M m m m beta -> (0 < kmax)%nat ->
  Z.of_nat kmax * (m * m) + Z.abs beta * m <= M /\ (beta = 0 -> Z.of_nat kmax = M / (m * m)).
Proof.
  intros Hm -> Hk. unfold max_delayed_dim in *.
  destruct (Z.ltb_spec (M - Z.abs beta * m) 0); cbn [orb] in *; [lia|].
  destruct (Z.ltb_spec (m * m) 0); [lia|].
  assert (1 <= m * m) by nia.
  assert (0 <= (M - Z.abs beta * m) / (m * m)) by (apply Z.div_pos; lia).
  rewrite Z2Nat.id by auto. split.
  - pose proof (Z.mul_div_le (M - Z.abs beta * m) (m * m) ltac:(lia)). lia.
  - intros ->. f_equal. lia.
Qed.

Section Entry.
Variables (F : fld) (prec : Z) (ord : order).
Hypotheses (W : wf F) (Hp : prime (fp F)) (Hprec : 0 < prec) (Hf : fair ord).
Variable default : Z -> (nat -> Z) -> (nat -> Z) -> nat -> Z -> Z -> Z.
Hypothesis default_ok : forall alpha a b k beta c, vin F k a -> vin F k b ->
  flo F <= alpha <= fhi F -> alpha <> 0 ->
  flo F <= default alpha a b k beta c <= fhi F /\
  congr (fp F) (default alpha a b k beta c) (alpha * dotr a b 0 k + beta * c).

Definition entry (alpha : Z) (a b : nat -> Z) (k : nat) (beta c : Z) : Z :=
  let one := canon F 1 in let mone := canon F (-1) in
  let general := negb (alpha =? one) && negb (alpha =? mone) in
  let alpha_ := if general then one else alpha in
  let beta_ := if general then fdiv F beta alpha else beta in
  let m := absmax F in
  let alphadf := if alpha_ =? mone then -1 else 1 in
  let betadf := if beta_ =? mone then -1 else beta_ in
  let kmax := max_delayed_dim (max_storable prec) m m m betadf in
  if (kmax =? 0)%nat then
    scal_and_reduce F prec alpha (flo F) (fhi F) (default alpha_ a b k beta_ c)
  else
    let '(omin, omax) := lazy_out_bounds F kmax k alphadf betadf in
    scal_and_reduce F prec alpha omin omax (lazy_entry F prec ord kmax alphadf a b k betadf c).

Lemma entry_ok alpha a b k beta c :
  vin F k a -> vin F k b -> flo F <= c <= fhi F -> flo F <= alpha <= fhi F -> alpha <> 0 ->
  flo F <= beta <= fhi F -> (0 < k)%nat -> headroom F prec k beta ->
  entry alpha a b k beta c = canon F (alpha * dotr a b 0 k + beta * c).
Proof.
  intros Ha Hb Hc Hal Hn Hbe Hk Hh. unfold entry.
  set (one := canon F 1). set (mone := canon F (-1)).
  set (general := negb (alpha =? one) && negb (alpha =? mone)).
  set (alpha_ := if general then one else alpha).
  set (beta_ := if general then fdiv F beta alpha else beta).
  pose proof (canon_range F 1 W) as H1. pose proof (canon_congr F 1 W) as C1. fold one in H1, C1.
  pose proof (canon_range F (-1) W) as HM1. pose proof (canon_congr F (-1) W) as CM1. fold mone in HM1, CM1.
  assert (one <> 0) as Hone.
  { intro E. rewrite E in C1. destruct C1 as [q Hq]. destruct W as [W1 _].
    clear - Hq W1. assert (q <= -1 \/ 0 <= q) as [|] by lia; nia. }
  assert (flo F <= alpha_ <= fhi F) as Hal_ by (unfold alpha_; destruct general; auto).
  assert (alpha_ <> 0) as Hn_ by (unfold alpha_; destruct general; auto).
  assert (congr (fp F) (if general then alpha * (alpha_ * dotr a b 0 k + beta_ * c) else alpha_ * dotr a b 0 k + beta_ * c)
     (alpha * dotr a b 0 k + beta * c)) as Hfin.
  { unfold alpha_, beta_. destruct general.
    - rewrite Z.mul_add_distr_l. apply congr_add.
      + apply congr_mul; [apply congr_refl|]. replace (dotr a b 0 k) with (1 * dotr a b 0 k) at 2 by lia.
        apply congr_mul; [exact C1|apply congr_refl].
      + rewrite Z.mul_assoc. apply congr_mul; [|apply congr_refl]. now apply fdiv_ok.
    - apply congr_refl. }
  assert (((canon F 1 =? alpha) || (canon F (-1) =? alpha)) = negb general) as Egen.
  { unfold general. fold one mone. rewrite negb_andb, !negb_involutive, (Z.eqb_sym one), (Z.eqb_sym mone). reflexivity. }
  assert (beta_ = 0 -> beta = 0) as Hb0.
  { unfold beta_. destruct general; auto. intro E. destruct (Z.eq_dec beta 0); auto.
    exfalso. exact (fdiv_nonzero F beta alpha W Hp Hal Hn Hbe n E). }
  assert (flo F <= beta_ <= fhi F) as Hbe_.
  { unfold beta_. destruct general; auto. apply canon_range, W. }
  set (alphadf := if alpha_ =? mone then -1 else 1).
  set (betadf := if beta_ =? mone then -1 else beta_).
  assert (Z.abs alphadf = 1) as Habs by (unfold alphadf; destruct (alpha_ =? mone); reflexivity).
  assert (congr (fp F) alphadf alpha_) as Hadf.
  { unfold alphadf. destruct (Z.eqb_spec alpha_ mone) as [->|Hne]; [apply congr_sym; auto|].
    unfold alpha_ in *. destruct general eqn:Eg.
    - apply congr_sym; auto.
    - unfold general in Eg. destruct (Z.eqb_spec alpha one) as [->|]; [apply congr_sym; auto|].
      destruct (Z.eqb_spec alpha mone); [congruence|]. discriminate. }
  assert (congr (fp F) betadf beta_) as Hbdf.
  { unfold betadf. destruct (Z.eqb_spec beta_ mone) as [->|Hne]; [apply congr_sym; auto|apply congr_refl]. }
  assert (betadf = 0 -> beta = 0) as Hbd0.
  { unfold betadf. destruct (Z.eqb_spec beta_ mone); [discriminate|auto]. }
  set (m := absmax F). set (M := max_storable prec).
  set (kmax := max_delayed_dim M m m m betadf).
  destruct (Nat.eqb_spec kmax 0) as [Ek|Ek].
  - destruct (default_ok alpha_ a b k beta_ c Ha Hb Hal_ Hn_) as [Dr Dc].
    apply scal_and_reduce_ok; auto. rewrite Egen.
    destruct general; cbn [negb].
    + eapply congr_trans; [|exact Hfin]. apply congr_mul; [apply congr_refl|exact Dc].
    + eapply congr_trans; [exact Dc|exact Hfin].
  - pose proof (absmax_pos F W) as Hm. fold m in Hm.
    destruct (kmax_fits M m betadf kmax Hm eq_refl ltac:(lia)) as [Hfit Hk0].
    assert (lazy_guard F M kmax k) as Hg.
    { unfold lazy_guard. fold m. destruct (Z.eq_dec betadf 0) as [E|E].
      - specialize (Hk0 E). specialize (Hh (Hbd0 E)). fold m M in Hh. destruct Hh as [Hh|Hh].
        + left. apply Nat2Z.inj_le. rewrite Hk0. apply Z.div_le_lower_bound; [apply Z.mul_pos_pos; lia|]. rewrite Z.mul_comm. exact Hh.
        + right. rewrite Hk0. exact Hh.
      - right. assert (m <= Z.abs betadf * m) by (clear - Hm E; clearbody m betadf; assert (1 <= Z.abs betadf) by lia; nia). lia. }
    assert (M <= 2 ^ prec) as HM2 by (unfold M, max_storable; lia).
    destruct (lazy_out_bounds F kmax k alphadf betadf) as [omin omax] eqn:Eo.
    destruct (lazy_entry_ok F prec ord kmax alphadf a b k betadf c M) as [_ Hcg]; auto; try lia.
    pose proof (lazy_entry_bounds F prec ord kmax alphadf a b k betadf c M omin omax) as Hbd.
    apply scal_and_reduce_ok; auto.
    + apply Hbd; auto; lia.
    + rewrite Egen.
      assert (congr (fp F) (lazy_entry F prec ord kmax alphadf a b k betadf c) (alpha_ * dotr a b 0 k + beta_ * c)) as Hcg'.
      { eapply congr_trans; [exact Hcg|]. apply congr_add; apply congr_mul; auto using congr_refl. }
      destruct general; cbn [negb].
      * eapply congr_trans; [|exact Hfin]. apply congr_mul; [apply congr_refl|exact Hcg'].
      * eapply congr_trans; [exact Hcg'|exact Hfin].
Qed.
End Entry.

Lemma gemm_entry_ok F prec ord alpha a b k beta c :
  wf F -> prime (fp F) -> 0 < prec -> fair ord ->
  vin F k a -> vin F k b -> flo F <= c <= fhi F -> flo F <= alpha <= fhi F -> alpha <> 0 ->
  flo F <= beta <= fhi F -> (0 < k)%nat -> headroom F prec k beta ->
  gemm_entry F prec ord alpha a b k beta c = canon F (alpha * dotr a b 0 k + beta * c).
Proof.
  intros W Hp Hprec Hf. intros. apply (entry_ok F prec ord W Hp Hprec Hf (default_entry F)); auto.
  intros. split; [apply canon_range, W|apply default_entry_ok; auto].
Qed.

Lemma gemv_entry_ok F prec ord alpha a b k beta c :
  wf F -> prime (fp F) -> 0 < prec -> fair ord ->
  vin F k a -> vin F k b -> flo F <= c <= fhi F -> flo F <= alpha <= fhi F -> alpha <> 0 ->
  flo F <= beta <= fhi F -> (0 < k)%nat -> headroom F prec k beta ->
  gemv_entry F prec ord alpha a b k beta c = canon F (alpha * dotr a b 0 k + beta * c).
Proof.
  intros W Hp Hprec Hf. intros. apply (entry_ok F prec ord W Hp Hprec Hf (gemv_default_entry F)); auto.
  intros. split; [apply canon_range, W|apply gemv_default_entry_ok; auto].
Qed.

Lemma fgemm_delayed_ok F prec ord m n k alpha A B beta C :
  wf F -> prime (fp F) -> 0 < prec -> (forall i j, fair (ord i j)) ->
  (forall i l, (i < m)%nat -> (l < k)%nat -> reduced (fp F) (flo F) (A i l)) ->
  (forall l j, (l < k)%nat -> (j < n)%nat -> reduced (fp F) (flo F) (B l j)) ->
  (forall i j, (i < m)%nat -> (j < n)%nat -> reduced (fp F) (flo F) (C i j)) ->
  reduced (fp F) (flo F) alpha -> reduced (fp F) (flo F) beta ->
  headroom F prec k beta ->
  forall i j, 
   ((i < m)%nat -> (j < n)%nat ->
     is_repr (fp F) (flo F) (alpha * Zsum (fun l => A i l * B l j) k + beta * C i j)
       (fgemm_delayed F prec ord m n k alpha A B beta C i j)) /\
   (~ ((i < m)%nat /\ (j < n)%nat) -> fgemm_delayed F prec ord m n k alpha A B beta C i j = C i j).
Proof.
  intros W Hp Hprec Hf HA HB HC Hal Hbe Hh i j. unfold fgemm_delayed. split.
  - intros Hi Hj. apply Nat.ltb_lt in Hi as Hi'. apply Nat.ltb_lt in Hj as Hj'. rewrite Hi', Hj'. cbn [andb].
    apply is_repr_canon; auto.
    destruct (Nat.eqb_spec k 0) as [->|Hk]; cbn [orb].
    + cbn [Zsum]. f_equal. lia.
    + destruct (Z.eqb_spec alpha 0) as [->|Hn]; [f_equal; lia|].
      rewrite Zsum_Zsumr. apply gemm_entry_ok; auto; try lia.
      * intros l Hl. apply (HA i l); auto.
      * intros l Hl. apply (HB l j); auto.
      * apply (HC i j); auto.
  - intro H. destruct (Nat.ltb_spec i m), (Nat.ltb_spec j n); cbn; auto. exfalso; auto.
Qed.

Lemma fgemv_ok F prec ord trans M N alpha A X beta Y :
  let ydim := if trans : bool then N else M in
  let xdim := if trans then M else N in
  let a := fun i l => if trans then A l i else A i l in
  wf F -> prime (fp F) -> 0 < prec -> (forall i, fair (ord i)) ->
  (forall i l, (i < ydim)%nat -> (l < xdim)%nat -> reduced (fp F) (flo F) (a i l)) ->
  (forall l, (l < xdim)%nat -> reduced (fp F) (flo F) (X l)) ->
  (forall i, (i < ydim)%nat -> reduced (fp F) (flo F) (Y i)) ->
  reduced (fp F) (flo F) alpha -> reduced (fp F) (flo F) beta ->
  headroom F prec xdim beta ->
  (M <> 0)%nat ->
  forall i, 
   ((i < ydim)%nat ->
     is_repr (fp F) (flo F) (alpha * Zsum (fun l => a i l * X l) xdim + beta * Y i)
       (fgemv F prec ord trans M N alpha A X beta Y i)) /\
   (~ (i < ydim)%nat -> fgemv F prec ord trans M N alpha A X beta Y i = Y i).
Proof.
  intros ydim xdim a W Hp Hprec Hf HA HX HY Hal Hbe Hh HM i. unfold fgemv.
  destruct (Nat.eqb_spec M 0); [congruence|]. fold ydim xdim.
  destruct (Nat.eqb_spec xdim 0) as [Hx|Hx]; cbn [orb].
  - destruct (Nat.ltb_spec i ydim); split; intro; try lia; auto.
    apply is_repr_canon; auto. rewrite Hx. cbn [Zsum]. f_equal.
    destruct (Z.eqb_spec beta 0); lia.
  - destruct (Z.eqb_spec alpha 0) as [->|Hn].
    + destruct (Nat.ltb_spec i ydim); split; intro; try lia; auto.
      apply is_repr_canon; auto. f_equal. destruct (Z.eqb_spec beta 0); lia.
    + destruct (Nat.ltb_spec i ydim); split; intro; try lia; auto.
      apply is_repr_canon; auto. rewrite Zsum_Zsumr. apply gemv_entry_ok; auto; try lia.
      * intros l Hl. apply HA; auto.
      * apply HY; auto.
Qed.

(** ** Pre-addition bookkeeping *)
Lemma need_pre_add_ok F M l1 h1 l2 h2 x y fl o1 o2 :
  wf F -> l1 <= x <= h1 -> l2 <= y <= h2 -> need_pre_add F M l1 h1 l2 h2 = (fl, (o1, o2)) ->
  let x' := if fl : bool then canon F x else x in let y' := if fl then canon F y else y in
  o1 <= x' + y' <= o2 /\ (2 * absmax F <= M -> Z.abs (x' + y') <= M).
Proof.
  intros W Hx Hy. unfold need_pre_add.
  pose proof (canon_range F x W). pose proof (canon_range F y W).
  pose proof (absmax_ok F _ (canon_range F x W)). pose proof (absmax_ok F _ (canon_range F y W)).
  destruct (Z.ltb_spec (M - h1) h2), (Z.ltb_spec (M + l1) (- l2)); cbn [orb]; intro E; apply pair_equal_spec in E; destruct E as [<- E]; apply pair_equal_spec in E; destruct E as [<- <-]; cbn beta iota zeta; lia.
Qed.

Lemma need_pre_sub_ok F M l1 h1 l2 h2 x y fl o1 o2 :
  wf F -> l1 <= x <= h1 -> l2 <= y <= h2 -> need_pre_sub F M l1 h1 l2 h2 = (fl, (o1, o2)) ->
  let x' := if fl : bool then canon F x else x in let y' := if fl then canon F y else y in
  o1 <= x' - y' <= o2 /\ (2 * absmax F <= M -> Z.abs (x' - y') <= M).
Proof.
  intros W Hx Hy. unfold need_pre_sub.
  pose proof (canon_range F x W). pose proof (canon_range F y W).
  pose proof (absmax_ok F _ (canon_range F x W)). pose proof (absmax_ok F _ (canon_range F y W)).
  destruct (Z.ltb_spec (M - h1) (- l2)), (Z.ltb_spec (M - h2) (- l1)); cbn [orb]; intro E; apply pair_equal_spec in E; destruct E as [<- E]; apply pair_equal_spec in E; destruct E as [<- <-]; cbn beta iota zeta; lia.
Qed.

Lemma need_double_pre_add_ok F M l1 h1 l2 h2 beta x y fl o1 o2 :
  wf F -> l1 <= x <= h1 -> l2 <= y <= h2 -> need_double_pre_add F M l1 h1 l2 h2 beta = (fl, (o1, o2)) ->
  let x' := if fl : bool then canon F x else x in
  o1 <= x' + beta * y <= o2 /\
  (Z.max (Z.abs (beta * l2)) (Z.abs (beta * h2)) + absmax F <= M -> Z.abs (x' + beta * y) <= M).
Proof.
  intros W Hx Hy. unfold need_double_pre_add.
  pose proof (canon_range F x W). pose proof (absmax_ok F _ (canon_range F x W)).
  assert (Z.min (beta * l2) (beta * h2) <= beta * y <= Z.max (beta * l2) (beta * h2)).
  { destruct (Z.le_ge_cases 0 beta).
    - assert (beta * l2 <= beta * y <= beta * h2) by nia. lia.
    - assert (beta * h2 <= beta * y <= beta * l2) by nia. lia. }
  set (omin := Z.min _ _) in *. set (omax := Z.max (beta * l2) (beta * h2)) in *.
  destruct (Z.ltb_spec (M - omax) h1), (Z.ltb_spec (M + omin) (- l1)); cbn [orb]; intro E; apply pair_equal_spec in E; destruct E as [<- E]; apply pair_equal_spec in E; destruct E as [<- <-]; cbn beta iota zeta; unfold omin, omax in *; lia.
Qed.

Lemma set_out_bounds_sound k alpha beta Amin Amax Bmin Bmax Cmin Cmax (a b : nat -> Z) c omin omax :
  Amin <= 0 <= Amax -> Bmin <= 0 <= Bmax ->
  (forall l, (l < k)%nat -> Amin <= a l <= Amax) ->
  (forall l, (l < k)%nat -> Bmin <= b l <= Bmax) ->
  Cmin <= c <= Cmax ->
  set_out_bounds (Z.of_nat k) alpha beta Amin Amax Bmin Bmax Cmin Cmax = (omin, omax) ->
  omin <= alpha * Zsum (fun l => a l * b l) k + beta * c <= omax.
Proof.
  intros HA HB Ha Hb Hc E. rewrite Zsum_Zsumr.
  eapply set_out_bounds_ok; [exact HA|exact HB| | |exact Hc|exact E]; intros; [apply Ha|apply Hb]; lia.
Qed.

(** ** Counter-examples *)
Lemma prime_by_gcd p : 2 <= p ->
  forallb (fun n => Z.gcd (Z.of_nat n) p =? 1) (seq 1 (Z.to_nat p - 1)) = true -> prime p.
Proof.
  intros H2 H. rewrite forallb_forall in H. constructor; [lia|]. intros n Hn.
  apply Zgcd_1_rel_prime. specialize (H (Z.to_nat n)).
  rewrite Z2Nat.id in H by lia. apply Z.eqb_eq, H, in_seq. lia.
Qed.

Lemma prime_2273 : prime 2273.
Proof. apply prime_by_gcd; [lia|vm_compute; reflexivity]. Qed.

Definition cexA : nat -> nat -> Z := fun _ l => if (l =? 13)%nat then 1 else 1136.
Definition cexB : nat -> Z := fun l => if (l =? 13)%nat then 1135 else 1136.

Lemma not_repr_by_canon F z r : wf F -> (r =? canon F z) = false -> ~ is_repr (fp F) (flo F) z r.
Proof. intros W H E. apply is_repr_canon in E; auto. subst. rewrite Z.eqb_refl in H. discriminate. Qed.

Lemma fgemm_beta0_counterexample : exists p prec k (A B C : nat -> nat -> Z),
  prime p /\ prec = 24 /\
  (forall i j, reduced p (flo (balanced p)) (A i j)) /\
  (forall i j, reduced p (flo (balanced p)) (B i j)) /\
  (forall i j, reduced p (flo (balanced p)) (C i j)) /\
  ~ is_repr p (flo (balanced p)) (1 * Zsum (fun l => A O l * B l O) k + 0 * C O O)
      (fgemm_delayed (balanced p) prec (fun _ _ => ltr) 1 1 k 1 A B 0 C O O).
Proof.
  exists 2273, 24, 14%nat, cexA, (fun l _ => cexB l), (fun _ _ => 0).
  split; [exact prime_2273|]. split; [reflexivity|].
  assert (flo (balanced 2273) = -1136) as E by reflexivity.
  repeat split; rewrite ?E; try (unfold cexA, cexB; match goal with |- context [if ?c then _ else _] => destruct c end; lia); try lia.
  rewrite <- E. apply (not_repr_by_canon (balanced 2273)).
  - split; vm_compute; try split; discriminate.
  - vm_compute. reflexivity.
Qed.

Lemma fgemv_beta0_counterexample : exists p prec k (A : nat -> nat -> Z) (X Y : nat -> Z),
  prime p /\ prec = 24 /\
  (forall i j, reduced p (flo (balanced p)) (A i j)) /\
  (forall j, reduced p (flo (balanced p)) (X j)) /\
  (forall i, reduced p (flo (balanced p)) (Y i)) /\
  ~ is_repr p (flo (balanced p)) (1 * Zsum (fun l => A O l * X l) k + 0 * Y O)
      (fgemv (balanced p) prec (fun _ => ltr) false 1 k 1 A X 0 Y O).
Proof.
  exists 2273, 24, 14%nat, cexA, cexB, (fun _ => 0).
  split; [exact prime_2273|]. split; [reflexivity|].
  assert (flo (balanced 2273) = -1136) as E by reflexivity.
  repeat split; rewrite ?E; try (unfold cexA, cexB; match goal with |- context [if ?c then _ else _] => destruct c end; lia); try lia.
  rewrite <- E. apply (not_repr_by_canon (balanced 2273)).
  - split; vm_compute; try split; discriminate.
  - vm_compute. reflexivity.
Qed.

Lemma fgemv_M0_counterexample : exists F prec N alpha A X beta Y,
  wf F /\ prime (fp F) /\ reduced (fp F) (flo F) alpha /\ reduced (fp F) (flo F) beta /\
  reduced (fp F) (flo F) (Y O) /\ (0 < N)%nat /\
  ~ is_repr (fp F) (flo F) (alpha * Zsum (fun l => A l O * X l) 0 + beta * Y O)
      (fgemv F prec (fun _ => ltr) true 0 N alpha A X beta Y O).
Proof.
  exists (modular 7), 53, 1%nat, 1, (fun _ _ => 0), (fun _ => 0), 0, (fun _ => 5).
  assert (wf (modular 7)) as W by (split; vm_compute; try split; discriminate).
  split; [exact W|]. split; [apply (prime_by_gcd 7); [lia|reflexivity]|].
  repeat split; try (cbn; lia).
  apply (not_repr_by_canon (modular 7)); auto.
Qed.
