(** * Proofs for the sparse products *)
From Coq Require Import ZArith List Lia Bool Psatz Sorting.Sorted.
From Verif Require Import Delayed_model Delayed_spec Delayed_proofs Sparse_model Sparse_spec.
Import ListNotations.
Open Scope Z_scope.

(** ** Loops *)

Definition asum (t : nat -> Z) := Zsumr (fun j => Z.abs (t j)).

Lemma zshift f o s k : Zsumr (fun l => f (o + l)%nat) s k = Zsumr f (o + s) k.
Proof. revert s. induction k; intro s; cbn; [reflexivity|]. rewrite IHk. f_equal. f_equal. lia. Qed.
Lemma zext f g o k : (forall j, (o <= j < o + k)%nat -> f j = g j) -> Zsumr f o k = Zsumr g o k.
Proof. revert o. induction k; intros o H; cbn; [lia|]. rewrite H by lia. f_equal. apply IHk. intros; apply H; lia. Qed.

Lemma asum_nonneg t o k : 0 <= asum t o k.
Proof. unfold asum. revert o. induction k; intro; cbn [Zsumr]; [lia|]. specialize (IHk (S o)). lia. Qed.

Lemma asum_app t o l l' : asum t o (l + l') = asum t o l + asum t (o + l) l'.
Proof. apply Zsumr_app. Qed.

Lemma asum_sum t o k : Z.abs (Zsumr t o k) <= asum t o k.
Proof. unfold asum. revert o. induction k; intro; cbn [Zsumr]; [lia|]. specialize (IHk (S o)). lia. Qed.

Lemma asum_le t o k B : (forall j, (o <= j < o + k)%nat -> Z.abs (t j) <= B) -> asum t o k <= Z.of_nat k * B.
Proof.
  unfold asum. revert o. induction k as [|k IH]; intros o H; cbn [Zsumr]; [lia|].
  specialize (IH (S o) ltac:(intros; apply H; lia)). specialize (H o ltac:(lia)).
  replace (Z.of_nat (S k) * B) with (B + Z.of_nat k * B) by lia. lia.
Qed.

(** [f j] adds [t j] exactly as long as magnitudes stay below B *)
Definition adds (B : Z) (t : nat -> Z) (f : nat -> Z -> Z) : Prop :=
  forall j y, Z.abs y + Z.abs (t j) <= B -> f j y = y + t j.

Lemma from_exact B t f n : adds B t f -> forall j y, Z.abs y + asum t j n <= B ->
  from n j f y = y + Zsumr t j n.
Proof.
  intro A. induction n as [|n IH]; intros j y H; cbn [from Zsumr]; [lia|].
  unfold asum in *. cbn [Zsumr] in H. pose proof (asum_nonneg t (S j) n) as P. unfold asum in P.
  rewrite A by lia. rewrite IH; lia.
Qed.

Lemma quad_step a b c d t1 t2 t3 t4 (S B : Z) :
  Z.abs a + Z.abs b + Z.abs c + Z.abs d + (Z.abs t1 + Z.abs t2 + Z.abs t3 + Z.abs t4 + S) <= B -> 0 <= S ->
  Z.abs a + Z.abs t1 <= B /\ Z.abs b + Z.abs t2 <= B /\ Z.abs c + Z.abs t3 <= B /\ Z.abs d + Z.abs t4 <= B /\
  Z.abs (a + t1) + Z.abs (b + t2) + Z.abs (c + t3) + Z.abs (d + t4) + S <= B /\
  Z.abs (a + t1) + Z.abs (b + t2) + Z.abs (c + t3) + Z.abs (d + t4) <=
  Z.abs a + Z.abs b + Z.abs c + Z.abs d + (Z.abs t1 + Z.abs t2 + Z.abs t3 + Z.abs t4).
Proof.
  pose proof (Z.abs_triangle a t1). pose proof (Z.abs_triangle b t2).
  pose proof (Z.abs_triangle c t3). pose proof (Z.abs_triangle d t4).
  pose proof (Z.abs_nonneg a). pose proof (Z.abs_nonneg b). pose proof (Z.abs_nonneg c). pose proof (Z.abs_nonneg d).
  pose proof (Z.abs_nonneg t1). pose proof (Z.abs_nonneg t2). pose proof (Z.abs_nonneg t3). pose proof (Z.abs_nonneg t4).
  generalize dependent (Z.abs (a + t1)). generalize dependent (Z.abs (b + t2)).
  generalize dependent (Z.abs (c + t3)). generalize dependent (Z.abs (d + t4)).
  generalize dependent (Z.abs a). generalize dependent (Z.abs b). generalize dependent (Z.abs c). generalize dependent (Z.abs d).
  generalize dependent (Z.abs t1). generalize dependent (Z.abs t2). generalize dependent (Z.abs t3). generalize dependent (Z.abs t4).
  intros. repeat split; lia.
Qed.

Lemma quad_sums (t : nat -> Z) j : Zsumr t j 4 = t j + t (j + 1)%nat + t (j + 2)%nat + t (j + 3)%nat.
Proof.
  cbn [Zsumr]. replace (S j) with (j + 1)%nat by lia.
  replace (S (j + 1)) with (j + 2)%nat by lia. replace (S (j + 2)) with (j + 3)%nat by lia. lia.
Qed.

Lemma quad_exact B t f n : adds B t f -> forall j a b c d,
  Z.abs a + Z.abs b + Z.abs c + Z.abs d + asum t j (4 * n) <= B ->
  let '(a', b', c', d') := quad n j f a b c d in
  a' + b' + c' + d' = a + b + c + d + Zsumr t j (4 * n) /\
  Z.abs a' + Z.abs b' + Z.abs c' + Z.abs d' <= Z.abs a + Z.abs b + Z.abs c + Z.abs d + asum t j (4 * n).
Proof.
  intro A. induction n as [|n IH]; intros j a b c d H.
  { cbn. unfold asum. cbn. split; [ring|]. rewrite Z.add_0_r. apply Z.le_refl. }
  cbn [quad]. replace (4 * S n)%nat with (4 + 4 * n)%nat in * by lia.
  rewrite asum_app in H. rewrite asum_app, Zsumr_app, quad_sums.
  assert (E : asum t j 4 = Z.abs (t j) + Z.abs (t (j + 1)%nat) + Z.abs (t (j + 2)%nat) + Z.abs (t (j + 3)%nat))
    by apply quad_sums.
  rewrite E in *.
  destruct (quad_step _ _ _ _ _ _ _ _ _ _ H (asum_nonneg _ _ _)) as (H1 & H2 & H3 & H4 & H5 & H6).
  rewrite (A j), (A (j + 1)%nat), (A (j + 2)%nat), (A (j + 3)%nat) by assumption.
  specialize (IH (j + 4)%nat _ _ _ _ H5).
  destruct (quad n (j + 4) f _ _ _ _) as [[[a' b'] c'] d'].
  destruct IH as [I1 I2]. split; [rewrite I1; ring|].
  rewrite Z.add_assoc. eapply Z.le_trans; [exact I2|]. now apply Z.add_le_mono_r.
Qed.

Lemma div4 d : (d = 4 * (d / 4) + (d - d / 4 * 4))%nat.
Proof. pose proof (Nat.div_mod d 4 ltac:(lia)). pose proof (Nat.mod_upper_bound d 4 ltac:(lia)). lia. Qed.

Lemma five a b c d z (T S B : Z) : Z.abs a + Z.abs b + Z.abs c + Z.abs d <= T -> Z.abs z <= S -> T + S <= B ->
  Z.abs a + S <= B /\ Z.abs (a + z) + Z.abs b + Z.abs c + Z.abs d <= T + S.
Proof.
  pose proof (Z.abs_triangle a z). pose proof (Z.abs_nonneg b). pose proof (Z.abs_nonneg c). pose proof (Z.abs_nonneg d).
  generalize dependent (Z.abs (a + z)). generalize dependent (Z.abs z).
  generalize dependent (Z.abs a). generalize dependent (Z.abs b). generalize dependent (Z.abs c). generalize dependent (Z.abs d).
  intros. lia.
Qed.

Lemma row4_exact B t f fin diff start : adds B t f -> asum t start diff <= B ->
  exists a b c d, row4 diff start f fin = fin a b c d /\ a + b + c + d = Zsumr t start diff /\
    Z.abs a + Z.abs b + Z.abs c + Z.abs d <= asum t start diff.
Proof.
  intros A H. unfold row4. pose proof (div4 diff) as D. set (q := (diff / 4)%nat) in *.
  assert (S1 : asum t start diff = asum t start (4 * q) + asum t (start + 4 * q) (diff - q * 4)).
  { rewrite D at 1. apply asum_app. }
  assert (S2 : Zsumr t start diff = Zsumr t start (4 * q) + Zsumr t (start + 4 * q) (diff - q * 4)).
  { rewrite D at 1. apply Zsumr_app. }
  pose proof (asum_nonneg t (start + 4 * q) (diff - q * 4)).
  pose proof (quad_exact B t f q A start 0 0 0 0 ltac:(lia)) as Q.
  destruct (quad q start f 0 0 0 0) as [[[a b] c] d]. destruct Q as [Q1 Q2].
  replace (q * 4)%nat with (4 * q)%nat in * by lia.
  pose proof (asum_sum t (start + 4 * q) (diff - 4 * q)) as P. rewrite S1 in H.
  destruct (five a b c d _ (asum t start (4 * q)) _ B Q2 P H) as [F1 F2].
  rewrite (from_exact B t f _ A) by exact F1.
  do 4 eexists. split; [reflexivity|]. split; [lia|]. rewrite S1. exact F2.
Qed.

(** congruence version *)
Definition addsm (p : Z) (t : nat -> Z) (f : nat -> Z -> Z) : Prop :=
  forall j y, congr p (f j y) (y + t j).

Lemma from_congr p t f n : addsm p t f -> forall j y, congr p (from n j f y) (y + Zsumr t j n).
Proof.
  intro A. induction n as [|n IH]; intros j y; cbn [from Zsumr].
  - exists 0; lia.
  - eapply congr_trans; [apply IH|]. destruct (A j y) as [q E]. exists q; lia.
Qed.

Lemma quad_congr p t f n : addsm p t f -> forall j a b c d,
  let '(a', b', c', d') := quad n j f a b c d in
  congr p (a' + b' + c' + d') (a + b + c + d + Zsumr t j (4 * n)).
Proof.
  intro A. induction n as [|n IH]; intros j a b c d.
  { cbn. exists 0; lia. }
  cbn [quad]. replace (4 * S n)%nat with (4 + 4 * n)%nat by lia. rewrite Zsumr_app.
  specialize (IH (j + 4)%nat (f j a) (f (j + 1)%nat b) (f (j + 2)%nat c) (f (j + 3)%nat d)).
  destruct (quad n (j + 4) f _ _ _ _) as [[[a' b'] c'] d'].
  destruct IH as [q I]. rewrite quad_sums.
  destruct (A j a) as [q1 E1], (A (j + 1)%nat b) as [q2 E2], (A (j + 2)%nat c) as [q3 E3], (A (j + 3)%nat d) as [q4 E4].
  exists (q + q1 + q2 + q3 + q4). lia.
Qed.

Lemma row4_congr p t f fin diff start : addsm p t f ->
  exists a b c d, row4 diff start f fin = fin a b c d /\ congr p (a + b + c + d) (Zsumr t start diff).
Proof.
  intros A. unfold row4. pose proof (div4 diff) as D. set (q := (diff / 4)%nat) in *.
  assert (S2 : Zsumr t start diff = Zsumr t start (4 * q) + Zsumr t (start + 4 * q) (diff - q * 4)).
  { rewrite D at 1. apply Zsumr_app. }
  pose proof (quad_congr p t f q A start 0 0 0 0) as Q.
  destruct (quad q start f 0 0 0 0) as [[[a b] c] d]. destruct Q as [k1 Q1].
  replace (q * 4)%nat with (4 * q)%nat in * by lia.
  destruct (from_congr p t f (diff - 4 * q) A (start + 4 * q) a) as [k2 Q2].
  do 4 eexists. split; [reflexivity|]. exists (k1 + k2). lia.
Qed.

(** blocks of kmax terms *)
Section Kmax.
Variables (F : fld) (B : Z) (t : nat -> Z) (f : nat -> Z -> Z) (kmax : nat).
Hypothesis W : wf F.
Hypothesis A : adds B t f.
Hypothesis Hk : (0 < kmax)%nat.
Variables (c T : Z).
Hypothesis Hc : absmax F <= c.
Hypothesis HT : 0 <= T.
Hypothesis HB : Z.of_nat kmax * T + c <= B.

Lemma block_exact n j y : (n <= kmax)%nat -> (forall l, (j <= l < j + n)%nat -> Z.abs (t l) <= T) ->
  flo F <= y <= fhi F -> from n j f y = y + Zsumr t j n.
Proof.
  intros Hn Ht Hy. apply (from_exact B t f n A).
  pose proof (asum_le t j n T Ht). pose proof (absmax_ok F y Hy).
  assert (Z.of_nat n * T <= Z.of_nat kmax * T) by (apply Z.mul_le_mono_nonneg_r; lia). lia.
Qed.

Lemma blocks_ok n : forall j y, (forall l, (j <= l < j + n * kmax)%nat -> Z.abs (t l) <= T) ->
  flo F <= y <= fhi F ->
  flo F <= blocks n j kmax f (canon F) y <= fhi F /\
  congr (fp F) (blocks n j kmax f (canon F) y) (y + Zsumr t j (n * kmax)).
Proof.
  induction n as [|n IH]; intros j y Ht Hy; cbn [blocks].
  { split; auto. exists 0. cbn. lia. }
  rewrite block_exact by (auto; intros; apply Ht; cbn; lia).
  destruct (IH (j + kmax)%nat (canon F (y + Zsumr t j kmax))) as [I1 [q I2]].
  { intros; apply Ht; cbn; lia. } { apply canon_range, W. }
  split; auto. cbn [Nat.mul]. rewrite Zsumr_app.
  destruct (canon_congr F (y + Zsumr t j kmax) W) as [q' E]. exists (q + q'). lia.
Qed.

Lemma row_kmax_ok diff start y : (forall l, (start <= l < start + diff)%nat -> Z.abs (t l) <= T) ->
  flo F <= y <= fhi F ->
  is_repr (fp F) (flo F) (y + Zsumr t start diff) (row_kmax diff start kmax f (canon F) y).
Proof.
  intros Ht Hy. unfold row_kmax. set (b := (diff / kmax)%nat).
  pose proof (Nat.div_mod diff kmax ltac:(lia)) as D. pose proof (Nat.mod_upper_bound diff kmax ltac:(lia)) as M.
  fold b in D.
  assert (D' : diff = (b * kmax + (diff - b * kmax))%nat) by lia.
  destruct (blocks_ok b start y) as [B1 [q B2]]; auto.
  { intros; apply Ht; lia. }
  rewrite block_exact; auto; [|lia|intros; apply Ht; lia].
  apply is_repr_canon; auto. apply canon_eq; auto.
  replace (Zsumr t start diff) with (Zsumr t start (b * kmax + (diff - b * kmax))) by (f_equal; lia).
  rewrite Zsumr_app. exists q. lia.
Qed.
End Kmax.

(** ** Loops over the rows *)

Lemma rows_do_at m g y i : rows_do m g y i = if (i <? m)%nat then g i (y i) else y i.
Proof.
  unfold rows_do.
  assert (G : forall n j y, from n j (fun i y => upd y i (g i (y i))) y i
     = if ((j <=? i) && (i <? j + n))%nat then g i (y i) else y i).
  { induction n as [|n IH]; intros j z; cbn [from].
    - destruct (Nat.leb_spec j i), (Nat.ltb_spec i (j + 0)); cbn; auto; lia.
    - rewrite IH. unfold upd.
      destruct (Nat.eqb_spec i j); subst.
      + destruct (Nat.leb_spec (S j) j), (Nat.leb_spec j j), (Nat.ltb_spec j (j + S n)); cbn; auto; lia.
      + destruct (Nat.leb_spec (S j) i), (Nat.leb_spec j i), (Nat.ltb_spec i (S j + n)), (Nat.ltb_spec i (j + S n)); cbn; auto; lia. }
  rewrite G. reflexivity.
Qed.

(** ** Exactness of the elementary steps *)

Lemma madd_exact prec fma y d x : Z.abs y + Z.abs (d * x) <= 2 ^ prec -> madd prec fma y d x = y + d * x.
Proof.
  intro H. unfold madd. destruct fma.
  - apply rnd_exact; lia.
  - rewrite (rnd_exact prec (d * x)) by lia. apply rnd_exact; lia.
Qed.
Lemma mplus_exact prec y x : Z.abs y + Z.abs x <= 2 ^ prec -> mplus prec y x = y + x.
Proof. intro H. apply rnd_exact; lia. Qed.
Lemma msub_exact prec y x : Z.abs y + Z.abs x <= 2 ^ prec -> msub prec y x = y - x.
Proof. intro H. apply rnd_exact; lia. Qed.

Lemma four a b c d y (S B : Z) : Z.abs a + Z.abs b + Z.abs c + Z.abs d <= S -> Z.abs y + S <= B ->
  Z.abs a + Z.abs b <= B /\ Z.abs (a + b) + Z.abs c <= B /\ Z.abs (a + b + c) + Z.abs d <= B /\
  Z.abs y + Z.abs (a + b + c + d) <= B.
Proof.
  pose proof (Z.abs_triangle a b). pose proof (Z.abs_triangle (a + b) c). pose proof (Z.abs_triangle (a + b + c) d).
  pose proof (Z.abs_nonneg a). pose proof (Z.abs_nonneg b). pose proof (Z.abs_nonneg c). pose proof (Z.abs_nonneg d).
  pose proof (Z.abs_nonneg y).
  generalize dependent (Z.abs (a + b + c + d)). generalize dependent (Z.abs (a + b + c)). generalize dependent (Z.abs (a + b)).
  generalize dependent (Z.abs a). generalize dependent (Z.abs b). generalize dependent (Z.abs c). generalize dependent (Z.abs d).
  generalize dependent (Z.abs y).
  intros. repeat split; lia.
Qed.

Lemma row4_unparam prec t f diff start y : adds (2 ^ prec) t f -> Z.abs y + asum t start diff <= 2 ^ prec ->
  row4 diff start f (fun y1 y2 y3 y4 => mplus prec y (mplus prec (mplus prec (mplus prec y1 y2) y3) y4))
   = y + Zsumr t start diff.
Proof.
  intros A H. pose proof (Z.abs_nonneg y).
  destruct (row4_exact (2 ^ prec) t f (fun y1 y2 y3 y4 => mplus prec y (mplus prec (mplus prec (mplus prec y1 y2) y3) y4))
     diff start A ltac:(lia)) as (a & b & c & d & E & S & M).
  destruct (four a b c d y _ _ M H) as (H1 & H2 & H3 & H4).
  rewrite E, (mplus_exact prec a b), (mplus_exact prec (a + b) c), (mplus_exact prec (a + b + c) d), (mplus_exact prec y)
    by assumption. rewrite S. reflexivity.
Qed.
Lemma row4_unparam_neg prec t f diff start y : adds (2 ^ prec) t f -> Z.abs y + asum t start diff <= 2 ^ prec ->
  row4 diff start f (fun y1 y2 y3 y4 => msub prec y (mplus prec (mplus prec (mplus prec y1 y2) y3) y4))
   = y - Zsumr t start diff.
Proof.
  intros A H. pose proof (Z.abs_nonneg y).
  destruct (row4_exact (2 ^ prec) t f (fun y1 y2 y3 y4 => msub prec y (mplus prec (mplus prec (mplus prec y1 y2) y3) y4))
     diff start A ltac:(lia)) as (a & b & c & d & E & S & M).
  destruct (four a b c d y _ _ M H) as (H1 & H2 & H3 & H4).
  rewrite E, (mplus_exact prec a b), (mplus_exact prec (a + b) c), (mplus_exact prec (a + b + c) d), (msub_exact prec y)
    by assumption. rewrite S. reflexivity.
Qed.

(** ** Rows of the triplets *)

Lemma count_rows_ok ts i : count_rows ts i = rowlen ts i.
Proof.
  unfold count_rows.
  assert (G : forall f, fold_left (fun rows t => upd rows (ro t) (S (rows (ro t)))) ts f i = (f i + rowlen ts i)%nat).
  { induction ts as [|[r c v] ts IH]; intro f; cbn [fold_left rowlen ro]; [lia|].
    rewrite IH. unfold upd. rewrite (Nat.eqb_sym r i). destruct (Nat.eqb_spec i r); subst; lia. }
  rewrite G. reflexivity.
Qed.

Lemma max_row_ge m rows M : max_row m rows = Some M -> forall i, (i < m)%nat -> (rows i <= M)%nat.
Proof.
  unfold max_row, max_element. destruct m as [|m]; [discriminate|]. cbn [seq map].
  intros [= <-].
  assert (G : forall l a, (a <= fold_left (fun largest b => if (largest <? b)%nat then b else largest) l a)%nat /\
     forall b, In b l -> (b <= fold_left (fun largest b => if (largest <? b)%nat then b else largest) l a)%nat).
  { induction l as [|c l IH]; intro a; cbn [fold_left]; [split; [lia|intros ? []]|].
    destruct (IH (if (a <? c)%nat then c else a)) as [I1 I2].
    assert ((a <= if (a <? c)%nat then c else a) /\ (c <= if (a <? c)%nat then c else a))%nat as [J1 J2]
      by (destruct (Nat.ltb_spec a c); lia).
    split; [lia|]. intros b [<-|Hb]; [lia|]. now apply I2. }
  intros i Hi. destruct (G (map rows (seq 1 m)) (rows 0%nat)) as [G1 G2].
  destruct i as [|i]; [exact G1|]. apply G2, in_map, in_seq. lia.
Qed.

Lemma max_row_some m rows : (0 < m)%nat -> exists M, max_row m rows = Some M.
Proof. destruct m as [|m]; [lia|]. intros _. unfold max_row, max_element. cbn [seq map]. eauto. Qed.

Lemma starts_ext f g i : (forall j, (j < i)%nat -> f j = g j) -> starts f i = starts g i.
Proof. induction i as [|i IH]; intro H; cbn; [auto|]. rewrite IH, H by (intros; auto; lia). reflexivity. Qed.

(** starts of a list with one more triplet in front *)
Lemma starts_cons r c v ts i :
  starts (rowlen (T3 r c v :: ts)) i = ((if (r <? i)%nat then 1 else 0) + starts (rowlen ts) i)%nat.
Proof.
  induction i as [|i IH].
  - reflexivity.
  - cbn [starts]. rewrite IH. cbn [rowlen].
    destruct (Nat.ltb_spec r i), (Nat.ltb_spec r (S i)), (Nat.eqb_spec r i); lia.
Qed.

Lemma starts_none ts i : (forall t, In t ts -> (i <= ro t)%nat) -> starts (rowlen ts) i = 0%nat.
Proof.
  induction ts as [|[r c v] ts IH]; intro H.
  - clear H. induction i as [|i IH]; [reflexivity|]. cbn [starts]. rewrite IH. reflexivity.
  - rewrite starts_cons, IH by (intros; apply H; now right).
    specialize (H _ (or_introl eq_refl)). cbn in H. destruct (Nat.ltb_spec r i); lia.
Qed.

Lemma rowlen_none ts i : (forall t, In t ts -> (i < ro t)%nat) -> rowlen ts i = 0%nat.
Proof.
  induction ts as [|[r c v] ts IH]; intro H; cbn; auto.
  rewrite IH by (intros; apply H; now right).
  specialize (H _ (or_introl eq_refl)). cbn in H. destruct (Nat.eqb_spec r i); lia.
Qed.
Lemma dotrow_none ts i x : (forall t, In t ts -> (i < ro t)%nat) -> dotrow ts i x = 0.
Proof.
  induction ts as [|[r c v] ts IH]; intro H; cbn; auto.
  rewrite IH by (intros; apply H; now right).
  specialize (H _ (or_introl eq_refl)). cbn in H. destruct (Nat.eqb_spec r i); lia.
Qed.

Lemma sorted_head t ts : row_sorted (t :: ts) -> row_sorted ts /\ forall u, In u ts -> (ro t <= ro u)%nat.
Proof. intro H. inversion H; subst. split; auto. intros u Hu. rewrite Forall_forall in H3. now apply H3. Qed.

(** the segment of row i *)
Lemma segment ts : row_sorted ts -> forall i x,
  Zsumr (fun j => va (nth j ts t0) * x (co (nth j ts t0))) (starts (rowlen ts) i) (rowlen ts i) = dotrow ts i x /\
  forall j, (starts (rowlen ts) i <= j < starts (rowlen ts) i + rowlen ts i)%nat -> In (nth j ts t0) ts.
Proof.
  induction ts as [|[r c v] ts IH]; intros S i x.
  { cbn. split; [reflexivity|intros; lia]. }
  destruct (sorted_head _ _ S) as [S' Hh]. cbn [ro] in Hh.
  destruct (IH S' i x) as [I1 I2].
  rewrite starts_cons. cbn [rowlen dotrow].
  destruct (Nat.ltb_spec r i) as [L|L].
  - destruct (Nat.eqb_spec r i) as [->|_]; [lia|].
    split.
    + rewrite <- zshift. cbn [Nat.add nth]. exact I1.
    + intros j Hj. destruct j as [|j]; [left; reflexivity|]. right. apply I2. lia.
  - destruct (Nat.eqb_spec r i) as [->|Hne].
    + rewrite (starts_none ts i) in * by auto. cbn [Nat.add].
      cbn [Zsumr nth va co]. split.
      * rewrite <- (zshift _ 1 0). cbn [Nat.add nth]. rewrite I1. reflexivity.
      * intros j Hj. destruct j as [|j]; [left; reflexivity|]. right. apply I2. lia.
    + assert (forall t, In t ts -> (i < ro t)%nat) by (intros t Ht; specialize (Hh t Ht); lia).
      rewrite rowlen_none, dotrow_none by auto. cbn. split; [reflexivity|intros; lia].
Qed.
