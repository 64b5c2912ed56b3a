(** * Proofs for the sparse products: fspmv *)
From Coq Require Import ZArith List Lia Bool Psatz Sorting.Sorted.
From Verif Require Import Delayed_model Delayed_spec Delayed_proofs Sparse_model Sparse_spec Sparse_proofs Sparse2_proofs.
Import ListNotations.
Open Scope Z_scope.

(** ** y := beta y *)
Lemma init_y_ok F m beta y : wf F -> flo F <= beta <= fhi F -> (beta = 0 \/ vin F m y) ->
  (forall i, (i < m)%nat -> flo F <= init_y F m beta y i <= fhi F /\ congr (fp F) (init_y F m beta y i) (beta * y i)) /\
  (forall i, (m <= i)%nat -> init_y F m beta y i = y i).
Proof.
  intros W B V. assert (Z0 : flo F <= 0 <= fhi F) by (destruct W; unfold fhi in *; lia).
  unfold init_y. split; intros i Hi.
  - unfold is_one, is_mone. destruct (Z.eqb_spec beta (canon F 1)) as [E1|E1].
    + assert (K : congr (fp F) beta 1) by (rewrite E1; apply canon_congr, W).
      destruct V as [->|V].
      * exfalso. destruct K as [q K]. destruct W as [W1 W2]. assert (q = -1 \/ q <= -2 \/ 0 <= q) by lia. nia.
      * split; [now apply V|]. destruct K as [q K]. exists (- q * y i). nia.
    + destruct (Z.eqb_spec beta 0) as [E0|E0]; [|destruct V as [|V]; [lia|]; destruct (Z.eqb_spec beta (canon F (-1))) as [E2|E2]];
        rewrite rows_do_at; destruct (Nat.ltb_spec i m); try lia.
      * split; auto. subst. exists 0. lia.
      * split; [apply canon_range, W|].
        assert (K : congr (fp F) beta (-1)) by (rewrite E2; apply canon_congr, W).
        destruct (canon_congr F (- y i) W) as [q Q]. destruct K as [q' Q']. exists (q - q' * y i). nia.
      * split; [apply canon_range, W|]. apply canon_congr, W.
  - destruct (is_one F beta), (beta =? 0), (is_mone F beta); rewrite ?rows_do_at;
      destruct (Nat.ltb_spec i m); auto; lia.
Qed.

(** From a product y + A x to the specification. *)
Lemma assemble F m ts k x beta y r : wf F -> flo F <= beta <= fhi F -> (beta = 0 \/ vin F m y) ->
  (forall i, (i < m)%nat -> is_repr (fp F) (flo F) (init_y F m beta y i + k * dotrow ts i x) (r i)) ->
  (forall i, (m <= i)%nat -> r i = init_y F m beta y i) ->
  spmv_ok F m ts k x beta y r.
Proof.
  intros W B V H1 H2. destruct (init_y_ok F m beta y W B V) as [I1 I2].
  split; intros i Hi.
  - eapply repr_shift; [|apply H1, Hi]. destruct (I1 i Hi) as [_ [q Q]]. exists q. lia.
  - rewrite H2 by auto. now apply I2.
Qed.

(** ** Sums after one write *)
Lemma zupd (f g : nat -> Z) k v : (forall j, j <> k -> g j = f j) -> g k = f k + v -> forall n o,
  Zsumr g o n = Zsumr f o n + (if ((o <=? k) && (k <? o + n))%nat then v else 0).
Proof.
  intros H1 H2. induction n as [|n IH]; intro o.
  - destruct (Nat.leb_spec o k), (Nat.ltb_spec k (o + 0)); cbn; lia.
  - change (Zsumr g o (S n)) with (Zsumr g o (1 + n)). change (Zsumr f o (S n)) with (Zsumr f o (1 + n)).
    rewrite !Zsumr_app, IH.
    assert (E : forall h, Zsumr h o 1 = h o) by (intro h; unfold Zsumr; cbn; lia).
    rewrite !E. destruct (Nat.eq_dec o k) as [->|D].
    + rewrite H2. destruct (Nat.leb_spec (k + 1) k), (Nat.leb_spec k k), (Nat.ltb_spec k (k + S n)); cbn; lia.
    + rewrite H1 by auto.
      destruct (Nat.leb_spec (o + 1) k), (Nat.leb_spec o k), (Nat.ltb_spec k (o + S n)), (Nat.ltb_spec k (o + 1 + n)); cbn; lia.
Qed.

(** ** ELL *)
Lemma same_row i r ld a : (a < ld)%nat -> (i * ld <= r * ld + a < i * ld + ld)%nat -> i = r.
Proof. intros H1 H2. destruct (Nat.lt_trichotomy i r) as [L|[L|L]]; auto; nia. Qed.

Lemma ell_fill_ok ld x ts : forall cur it col dat, row_sorted ts ->
  (forall t, In t ts -> (cur <= ro t)%nat) ->
  (forall r k, (cur < r)%nat -> (k < ld)%nat -> dat (r * ld + k)%nat = 0) ->
  (forall k, (it <= k < ld)%nat -> dat (cur * ld + k)%nat = 0) ->
  (it + rowlen ts cur <= ld)%nat -> (forall r, (rowlen ts r <= ld)%nat) ->
  let R := ell_fill ld ts cur it col dat in
  (forall i, Zsumr (fun j => snd R j * x (fst R j)) (i * ld) ld =
             Zsumr (fun j => dat j * x (col j)) (i * ld) ld + dotrow ts i x) /\
  (forall j, (snd R j = dat j /\ fst R j = col j) \/ exists t, In t ts /\ snd R j = va t /\ fst R j = co t).
Proof.
  induction ts as [|[r c v] ts IH]; intros cur it col dat SO GE Z1 Z2 L1 L2.
  - cbn. split; [intro; lia|auto].
  - cbn [ell_fill ro co va]. destruct (sorted_head _ _ SO) as [SO' GE']. cbn in GE'.
    set (it' := if (r =? cur)%nat then it else 0%nat).
    assert (CG : (cur <= r)%nat) by (apply (GE (T3 r c v)); left; auto).
    assert (LR : (it' + rowlen (T3 r c v :: ts) r <= ld)%nat).
    { unfold it'. destruct (Nat.eqb_spec r cur) as [->|]; auto. apply (L2 r). }
    cbn [rowlen] in LR. rewrite Nat.eqb_refl in LR.
    assert (DZ : forall k, (it' <= k < ld)%nat -> dat (r * ld + k)%nat = 0).
    { intros k Hk. unfold it' in Hk. destruct (Nat.eqb_spec r cur) as [->|]; [now apply Z2|]. apply Z1; lia. }
    set (col1 := upd col (r * ld + it') c). set (dat1 := upd dat (r * ld + it') v).
    destruct (IH r (S it') col1 dat1 SO' GE') as [S1 S2].
    + intros r' k Hr Hk. unfold dat1, upd. destruct (Nat.eqb_spec (r' * ld + k) (r * ld + it')) as [E|E]; [nia|].
      apply Z1; lia.
    + intros k Hk. unfold dat1, upd. destruct (Nat.eqb_spec (r * ld + k) (r * ld + it')) as [E|E]; [lia|]. apply DZ. lia.
    + lia.
    + intro r'. specialize (L2 r'). cbn [rowlen] in L2. lia.
    + split.
      * intro i. rewrite S1.
        rewrite (zupd (fun j => dat j * x (col j)) (fun j => dat1 j * x (col1 j)) (r * ld + it') (v * x c)).
        -- cbn [dotrow]. destruct (Nat.eqb_spec r i) as [->|D].
           ++ destruct (Nat.leb_spec (i * ld) (i * ld + it')), (Nat.ltb_spec (i * ld + it') (i * ld + ld)); cbn [andb]; lia.
           ++ destruct (Nat.leb_spec (i * ld) (r * ld + it')), (Nat.ltb_spec (r * ld + it') (i * ld + ld)); cbn [andb]; try lia.
              exfalso. apply D. symmetry. apply (same_row i r ld it'); lia.
        -- intros j Hj. unfold dat1, col1, upd. destruct (Nat.eqb_spec j (r * ld + it')); [lia|]. reflexivity.
        -- unfold dat1, col1, upd. rewrite Nat.eqb_refl. rewrite (DZ it') by lia. lia.
      * intro j. destruct (S2 j) as [[A1 A2]|[t (I & A1 & A2)]].
        -- unfold dat1, col1, upd in A1, A2. destruct (Nat.eqb_spec j (r * ld + it')).
           ++ right. exists (T3 r c v). split; [now left|]. auto.
           ++ left. auto.
        -- right. exists t. split; [now right|]. auto.
Qed.

Section Formats.
Variables (half : bool) (F : fld) (prec : Z) (fma : bool).
Hypothesis FT : fits half F prec.
Let c := factor half F.
Let W : wf F := ft_wf half F prec FT.
Variables (m n : nat) (ts : list trip) (x : nat -> Z).
Hypothesis IM : in_matrix F m n ts.
Hypothesis VX : vin F n x.

Lemma c_pos : 1 <= c. Proof. destruct (ft_c half F prec FT) as (_ & H & _). exact H. Qed.

Lemma rowlen_out i : (m <= i)%nat -> rowlen ts i = 0%nat /\ forall z, dotrow ts i z = 0.
Proof using IM.
  clear - IM. unfold in_matrix in IM. rewrite Forall_forall in IM. induction ts as [|[r k v] l IH]; intro H; [cbn; auto|].
  destruct IH as [H1 H2]; auto. { intros t Ht. apply IM. now right. }
  destruct (IM (T3 r k v) (or_introl eq_refl)) as [Hr _]. cbn in Hr.
  split; [|intro z]; cbn; destruct (Nat.eqb_spec r i); try lia. specialize (H2 z). lia.
Qed.

(** The two branches of the modular dispatch. *)
Lemma delayed_bound M : (M <? dotbound half F prec)%nat = true -> Z.of_nat M * (c * c) + c <= 2 ^ prec.
Proof.
  intro H. apply Nat.ltb_lt in H. destruct (dotbound_ok half F prec FT) as [_ D]. fold c in D.
  pose proof c_pos. assert (Z.of_nat M * (c * c) <= Z.of_nat (dotbound half F prec) * (c * c)).
  { apply Z.mul_le_mono_nonneg_r; [nia|lia]. }
  lia.
Qed.

Lemma len_mono a b : (a <= b)%nat -> Z.of_nat a * (c * c) <= Z.of_nat b * (c * c).
Proof. intro H. pose proof c_pos. apply Z.mul_le_mono_nonneg_r; [nia|lia]. Qed.

Section CSR.
Hypothesis SO : row_sorted ts.
Lemma csr_modular_ok A y : csr_init half F prec m ts = Some A -> vin F m y ->
  (forall i, (i < m)%nat -> is_repr (fp F) (flo F) (y i + dotrow ts i x) (csr_modular F prec fma A x y i)) /\
  (forall i, (m <= i)%nat -> csr_modular F prec fma A x y i = y i).
Proof.
  intros HA VY. destruct (csr_init_rep _ _ _ _ _ _ HA) as (CR & CD & CK & M & CM & ML).
  pose proof CR as (Em & _ & _).
  unfold csr_modular. destruct (cdelayed A) eqn:ED.
  - pose proof (delayed_bound M (eq_sym CM)) as DB.
    split; intros i Hi; unfold freduce_vec; rewrite rows_do_at, Em; destruct (Nat.ltb_spec i m); try lia;
    destruct (csr_unparam_ok half F prec fma FT m n ts x SO IM VX A CR CD y i) as [U1 U2].
    + rewrite U1; [apply is_repr_canon; auto|lia|].
      pose proof (len_mono _ _ (ML i Hi)). pose proof (ft_reduced half F prec FT (y i) (VY i Hi)). fold c in H1 |- *. lia.
    + now apply U2.
  - rewrite CK. destruct (dotbound_ok half F prec FT) as [K1 K2].
    split; intros i Hi; destruct (csr_kmax_ok half F prec fma FT m n ts x SO IM VX A CR CD y i _ K1 K2) as [U1 U2].
    + apply U1; auto.
    + now apply U2.
Qed.

Lemma csr_zo_unparam_ok A k y : csr_zo_init m ts = Some A -> k = 1 \/ k = -1 ->
  forall i, ((i < m)%nat -> Z.abs (y i) + Z.of_nat (rowlen ts i) * c <= 2 ^ prec ->
     csr_zo_unparam prec k A x y i = y i + k * dotrow (pattern ts) i x) /\
   ((m <= i)%nat -> csr_zo_unparam prec k A x y i = y i).
Proof.
  intros HA HK i. pose proof (csr_zo_init_rep _ _ _ HA) as CR. unfold csr_zo_unparam.
  destruct HK as [->| ->]; cbn [Z.eqb Pos.eqb].
  - destruct (csr_one_unparam_ok half F prec FT m n ts x SO IM VX A CR y i) as [U1 U2].
    split; intros; [rewrite U1; auto; lia|auto].
  - destruct (csr_mone_unparam_ok half F prec FT m n ts x SO IM VX A CR y i) as [U1 U2].
    split; intros; [rewrite U1; auto; lia|auto].
Qed.

Lemma csr_zo_modular_ok A k y : csr_zo_init m ts = Some A -> k = 1 \/ k = -1 -> vin F m y ->
  (forall i, (i < m)%nat -> Z.of_nat (rowlen ts i) * c + c <= 2 ^ prec) ->
  (forall i, (i < m)%nat -> is_repr (fp F) (flo F) (y i + k * dotrow (pattern ts) i x) (csr_zo_modular F prec k A x y i)) /\
  (forall i, (m <= i)%nat -> csr_zo_modular F prec k A x y i = y i).
Proof.
  intros HA HK VY HB. pose proof (csr_zo_init_rep _ _ _ HA) as (Em & _ & _).
  unfold csr_zo_modular, freduce_vec. split; intros i Hi; rewrite rows_do_at, Em; destruct (Nat.ltb_spec i m); try lia;
    destruct (csr_zo_unparam_ok A k y HA HK i) as [U1 U2].
  - rewrite U1; [apply is_repr_canon; auto|lia|].
    specialize (HB i Hi). pose proof (ft_reduced half F prec FT (y i) (VY i Hi)). fold c in H0. lia.
  - now apply U2.
Qed.

Lemma csr_zo_generic_ok A k y : csr_zo_init m ts = Some A -> k = 1 \/ k = -1 ->
  (forall i, (i < m)%nat -> is_repr (fp F) (flo F) (y i + k * dotrow (pattern ts) i x) (csr_zo_generic F k A x y i)) /\
  (forall i, (m <= i)%nat -> csr_zo_generic F k A x y i = y i).
Proof.
  intros HA HK. pose proof (csr_zo_init_rep _ _ _ HA) as CR. unfold csr_zo_generic.
  destruct HK as [->| ->]; cbn [Z.eqb Pos.eqb]; split; intros i Hi.
  - destruct (csr_one_generic_ok half F prec FT m n ts x SO IM VX A CR y i) as [U1 U2].
    replace (1 * dotrow (pattern ts) i x) with (dotrow (pattern ts) i x) by lia. auto.
  - destruct (csr_one_generic_ok half F prec FT m n ts x SO IM VX A CR y i) as [U1 U2]. auto.
  - destruct (csr_mone_generic_ok half F prec FT m n ts x SO IM VX A CR y i) as [U1 U2].
    replace (y i + -1 * dotrow (pattern ts) i x) with (y i - dotrow (pattern ts) i x) by lia. auto.
  - destruct (csr_mone_generic_ok half F prec FT m n ts x SO IM VX A CR y i) as [U1 U2]. auto.
Qed.

(** *** ELL *)
Lemma ell_init_some : (0 < m)%nat -> ts <> [] -> exists A, ell_init half F prec m ts = Some A.
Proof.
  intros H1 H2. unfold ell_init. destruct (max_row_some m (count_rows ts) H1) as [M ->].
  destruct ts as [|t l]; [congruence|]. destruct (ell_fill _ _ _ _ _ _) as [col dat]. eauto.
Qed.

Lemma ell_init_rep A : ell_init half F prec m ts = Some A ->
  em A = m /\ ekmax A = dotbound half F prec /\ edelayed A = (eld A <? dotbound half F prec)%nat /\
  (forall i, Zsumr (fun j => edat A j * ex A x j) (i * eld A) (eld A) = dotrow ts i x) /\
  (forall j, Z.abs (edat A j * ex A x j) <= c * c).
Proof.
  unfold ell_init. destruct (max_row m (count_rows ts)) as [M|] eqn:EM; [|discriminate].
  assert (ML : forall r, (rowlen ts r <= M)%nat).
  { intro r. destruct (le_lt_dec m r) as [H|H].
    - destruct (rowlen_out r H) as [-> _]. lia.
    - rewrite <- count_rows_ok. eapply max_row_ge; eauto. }
  destruct ts as [|t l] eqn:ET; [discriminate|].
  destruct (ell_fill_ok M x (t :: l) (ro t) 0 (fun _ => 0%nat) (fun _ => 0) SO) as [S1 S2]; auto.
  { intros u [<-|Hu]; auto. apply (proj2 (sorted_head _ _ SO) u Hu). }
  { apply (ML (ro t)). }
  destruct (ell_fill M (t :: l) (ro t) 0 (fun _ => 0%nat) (fun _ => 0)) as [col dat].
  intros [= <-]. cbn [em ekmax edelayed eld edat ecol fst snd] in *. unfold ex. cbn [ecol].
  split; [|split; [|split; [|split]]]; auto.
  - intro i. rewrite S1. rewrite (zext _ (fun _ => 0)) by (intros; lia).
    assert (Z : forall k o, Zsumr (fun _ => 0) o k = 0).
    { induction k as [|k IH]; intro o; [reflexivity|]. change (S k) with (1 + k)%nat. rewrite Zsumr_app, IH. reflexivity. }
    rewrite Z. lia.
  - intro j. pose proof c_pos. destruct (S2 j) as [[-> _]|[u (I & -> & ->)]]; [nia|].
    destruct (in_bounds half F prec FT m n _ x IM VX u I) as (_ & B1 & B2). now apply abs_mul_le.
Qed.

Lemma ell_generic_ok A y : ell_init half F prec m ts = Some A ->
  (forall i, (i < m)%nat -> is_repr (fp F) (flo F) (y i + dotrow ts i x) (ell_generic F A x y i)) /\
  (forall i, (m <= i)%nat -> ell_generic F A x y i = y i).
Proof.
  intro HA. destruct (ell_init_rep A HA) as (E1 & E2 & E3 & S & B).
  unfold ell_generic. split; intros i Hi; rewrite rows_do_at, E1; destruct (Nat.ltb_spec i m); auto; try lia.
  destruct (row4_congr (fp F) (fun j => edat A j * ex A x j) (fun j acc => axpyin F acc (edat A j) (ex A x j))
    (fun y1 y2 y3 y4 => addin F (addin F (addin F (addin F (y i) y1) y2) y3) y4) (eld A) (i * eld A)
    (axpyin_m F _ _ W)) as (a & b & c' & d & E & [q K]).
  rewrite E. eapply repr_shift; [|apply addin4, W]. rewrite S in K. exists q. lia.
Qed.

Lemma ell_modular_ok A y : ell_init half F prec m ts = Some A -> vin F m y ->
  (forall i, (i < m)%nat -> is_repr (fp F) (flo F) (y i + dotrow ts i x) (ell_modular F prec fma A x y i)) /\
  (forall i, (m <= i)%nat -> ell_modular F prec fma A x y i = y i).
Proof.
  intros HA VY. destruct (ell_init_rep A HA) as (E1 & E2 & E3 & S & B).
  unfold ell_modular. destruct (edelayed A) eqn:ED.
  - pose proof (delayed_bound _ (eq_sym E3)) as DB.
    split; intros i Hi; unfold freduce_vec, ell_unparam; rewrite rows_do_at, E1; destruct (Nat.ltb_spec i m); try lia;
      rewrite rows_do_at; destruct (Nat.ltb_spec i m); try lia.
    rewrite (row4_unparam prec (fun j => edat A j * ex A x j)).
    + rewrite S. apply is_repr_canon; auto.
    + apply madd_a.
    + pose proof (ft_reduced half F prec FT (y i) (VY i Hi)) as R. fold c in R.
      pose proof (asum_le (fun j => edat A j * ex A x j) (i * eld A) (eld A) (c * c) (fun j _ => B j)). lia.
  - rewrite E2. destruct (dotbound_ok half F prec FT) as [K1 K2]. unfold ell_kmax.
    split; intros i Hi; rewrite rows_do_at, E1; destruct (Nat.ltb_spec i m); auto; try lia.
    rewrite <- S. destruct (ft_c half F prec FT) as (C1 & C2 & _). fold c in C1, C2.
    apply (row_kmax_ok F (2 ^ prec) (fun j => edat A j * ex A x j) _ _ W (madd_a prec fma _ _) K1 c (c * c)); auto; [nia].
Qed.
End CSR.

(** *** COO *)
Lemma coo_generic_fold l : forall y, 
  (forall i, congr (fp F) (coo_generic F (Coo l 0 false 0) x y i) (y i + dotrow l i x)) /\
  (forall i, flo F <= y i <= fhi F -> flo F <= coo_generic F (Coo l 0 false 0) x y i <= fhi F) /\
  (forall i, rowlen l i = 0%nat -> coo_generic F (Coo l 0 false 0) x y i = y i).
Proof using FT.
  unfold coo_generic. cbn [oo_ts]. induction l as [|[r k v] l IH]; intro y.
  - cbn. split; [|split]; auto. intro i. exists 0. lia.
  - cbn [fold_left ro co va].
    set (y1 := upd y r _). destruct (IH y1) as (I1 & I2 & I3).
    split; [|split]; intros i.
    + destruct (I1 i) as [q Q]. cbn [dotrow]. rewrite (Nat.eqb_sym r i).
      destruct (Nat.eqb_spec i r) as [->|D].
      * destruct (canon_congr F (y r + v * x k) W) as [q' Q'].
        assert (Y : y1 r = canon F (y r + v * x k)) by (unfold y1, upd; now rewrite Nat.eqb_refl).
        exists (q + q'). lia.
      * assert (Y : y1 i = y i) by (unfold y1, upd; destruct (Nat.eqb_spec i r); congruence).
        exists q. lia.
    + intro H. apply I2. unfold y1, upd. destruct (Nat.eqb_spec i r); auto. apply canon_range, W.
    + cbn [rowlen]. intro H. rewrite I3 by lia. unfold y1, upd. rewrite Nat.eqb_sym. destruct (Nat.eqb_spec r i); [lia|auto].
Qed.

Lemma coo_unparam_fold l : Forall (fun t => In t ts) l -> forall y i,
  Z.abs (y i) + Z.of_nat (rowlen l i) * (c * c) <= 2 ^ prec ->
  coo_unparam prec fma (Coo l 0 false 0) x y i = y i + dotrow l i x.
Proof.
  unfold coo_unparam. cbn [oo_ts]. induction l as [|[r k v] l IH]; intros HL y i H.
  - cbn. lia.
  - inversion HL; subst. destruct (in_bounds half F prec FT m n ts x IM VX _ H2) as (_ & B1 & B2). cbn in B1, B2.
    assert (BB : Z.abs (v * x k) <= c * c) by (apply abs_mul_le; assumption).
    cbn [fold_left ro co va]. cbn [rowlen] in H.
    set (y1 := upd y r _).
    assert (P : 0 <= Z.of_nat (rowlen l i) * (c * c)) by (pose proof c_pos; nia).
    rewrite Nat2Z.inj_add, Z.mul_add_distr_r in H.
    destruct (Nat.eqb_spec r i) as [E|D]; [change (Z.of_nat 1) with 1 in H|change (Z.of_nat 0) with 0 in H].
    + assert (Y : y1 i = y i + v * x k).
      { unfold y1, upd. rewrite E, Nat.eqb_refl. apply madd_exact. rewrite <- E in H. rewrite E in *. lia. }
      rewrite IH; [|assumption|rewrite Y; lia]. cbn [dotrow]. rewrite Y, E, Nat.eqb_refl. lia.
    + assert (Y : y1 i = y i) by (unfold y1, upd; destruct (Nat.eqb_spec i r); congruence).
      rewrite IH; [|assumption|rewrite Y; lia]. cbn [dotrow]. rewrite Y. destruct (Nat.eqb_spec r i); [congruence|]. lia.
Qed.

Lemma coo_unparam_out y i : (m <= i)%nat -> coo_unparam prec fma (Coo ts 0 false 0) x y i = y i.
Proof using IM.
  clear - IM. unfold in_matrix in IM. rewrite Forall_forall in IM. unfold coo_unparam. cbn [oo_ts].
  intro H. revert y. induction ts as [|[r k v] l IH]; intro y; [reflexivity|]. cbn [fold_left ro co va].
  rewrite IH by (intros t Ht; apply IM; now right).
  destruct (IM (T3 r k v) (or_introl eq_refl)) as [Hr _]. cbn in Hr. unfold upd. destruct (Nat.eqb_spec i r); [lia|auto].
Qed.

(** *** HYB *)
Section HYB.
Hypothesis SO : row_sorted ts.
Lemma filter_sorted f l : row_sorted l -> row_sorted (filter f l).
Proof using.
  clear. induction l as [|t l IH]; intro H; [constructor|]. inversion H; subst. cbn. destruct (f t); auto.
  constructor; [now apply IH|]. rewrite Forall_forall in *. intros u Hu. apply filter_In in Hu. now apply H3.
Qed.
Lemma filter_in_matrix f : in_matrix F m n (filter f ts).
Proof. unfold in_matrix in *. rewrite Forall_forall in *. intros u Hu. apply filter_In in Hu. now apply IM. Qed.

Let f1 := fun t => is_one F (va t).
Let f2 := fun t => negb (is_one F (va t)) && is_mone F (va t).
Let f3 := fun t => negb (is_one F (va t)) && negb (is_mone F (va t)).
Lemma split_row l i :
  rowlen l i = (rowlen (filter f1 l) i + rowlen (filter f2 l) i + rowlen (filter f3 l) i)%nat /\
  congr (fp F) (dotrow (pattern (filter f1 l)) i x - dotrow (pattern (filter f2 l)) i x + dotrow (filter f3 l) i x)
        (dotrow l i x).
Proof using FT.
  induction l as [|[r k v] l [IH1 [q IH2]]]; [split; [reflexivity|exists 0; reflexivity]|].
  cbn [filter]. unfold f1 at 1 4, f2 at 1 4, f3 at 1 4. cbn [va].
  destruct (is_one F v) eqn:E1; cbn [andb negb]; [|destruct (is_mone F v) eqn:E2; cbn [andb negb]];
    cbn [pattern map rowlen dotrow ro co va]; fold (pattern (filter f1 l)); fold (pattern (filter f2 l)).
  - split; [lia|]. unfold is_one in E1. apply Z.eqb_eq in E1. destruct (canon_congr F 1 W) as [q' Q].
    rewrite <- E1 in Q. destruct (Nat.eqb r i); [|exists q; lia]. exists (q - q' * x k). nia.
  - split; [lia|]. unfold is_mone in E2. apply Z.eqb_eq in E2. destruct (canon_congr F (-1) W) as [q' Q].
    rewrite <- E2 in Q. destruct (Nat.eqb r i); [|exists q; lia]. exists (q - q' * x k). nia.
  - split; [lia|]. exists q. lia.
Qed.

Lemma hyb_init_rep A : hyb_init half F prec m ts = Some A ->
  hm A = m /\
  (hone A = None /\ filter f1 ts = [] \/ exists a, hone A = Some a /\ csr_zo_init m (filter f1 ts) = Some a) /\
  (hmone A = None /\ filter f2 ts = [] \/ exists a, hmone A = Some a /\ csr_zo_init m (filter f2 ts) = Some a) /\
  (hdat A = None /\ filter f3 ts = [] \/ exists a, hdat A = Some a /\ csr_init half F prec m (filter f3 ts) = Some a).
Proof using.
  unfold hyb_init. fold f1 f2 f3.
  destruct (filter f1 ts) as [|t1 l1] eqn:E1; [|destruct (csr_zo_init m (t1 :: l1)) eqn:I1; [|discriminate]];
  (destruct (filter f2 ts) as [|t2 l2] eqn:E2; [|destruct (csr_zo_init m (t2 :: l2)) eqn:I2; [|discriminate]]);
  (destruct (filter f3 ts) as [|t3 l3] eqn:E3; [|destruct (csr_init half F prec m (t3 :: l3)) eqn:I3; [|discriminate]]);
  intros [= <-]; cbn [hone hmone hdat hm]; (split; [auto|]); (split; [eauto|]); (split; eauto).
Qed.

Lemma hyb_init_some : (0 < m)%nat -> exists A, hyb_init half F prec m ts = Some A.
Proof using.
  intro H. unfold hyb_init. fold f1 f2 f3.
  destruct (csr_zo_init_some m (filter f1 ts) H) as [a1 ->].
  destruct (csr_zo_init_some m (filter f2 ts) H) as [a2 ->].
  destruct (csr_init_some half F prec m (filter f3 ts) H) as [a3 ->].
  destruct (filter f1 ts), (filter f2 ts), (filter f3 ts); eauto.
Qed.

Lemma opt_one g a y l i : (a = None /\ l = [] \/ exists A, a = Some A /\ csr_zo_init m l = Some A) ->
  (forall A, csr_zo_init m l = Some A -> congr (fp F) (g A y i) (y i + dotrow (pattern l) i x)) ->
  congr (fp F) (opt g a y i) (y i + dotrow (pattern l) i x).
Proof using. clear. intros [[-> ->]|[A [-> H]]] K; cbn; [exists 0; lia|now apply K]. Qed.

Lemma hyb_generic_ok A y : hyb_init half F prec m ts = Some A -> vin F m y ->
  (forall i, (i < m)%nat -> is_repr (fp F) (flo F) (y i + dotrow ts i x) (hyb_generic F A x y i)) /\
  (forall i, (m <= i)%nat -> hyb_generic F A x y i = y i).
Proof.
  intros HA VY. destruct (hyb_init_rep A HA) as (_ & H1 & H2 & H3).
  unfold hyb_generic. set (y1 := opt _ (hone A) y). set (y2 := opt _ (hmone A) y1).
  assert (K1 : forall i, ((i < m)%nat -> is_repr (fp F) (flo F) (y i + dotrow (pattern (filter f1 ts)) i x) (y1 i)) /\
     ((m <= i)%nat -> y1 i = y i)).
  { intro i. unfold y1. destruct H1 as [[-> ->]|[a [-> Ha]]]; cbn.
    - split; auto. intro Hi. apply is_repr_canon; auto. rewrite Z.add_0_r. symmetry. apply canon_id; auto.
    - apply (csr_one_generic_ok half F prec FT m n _ x (filter_sorted _ _ SO) (filter_in_matrix _) VX a (csr_zo_init_rep _ _ _ Ha)). }
  assert (K2 : forall i, ((i < m)%nat -> is_repr (fp F) (flo F) (y1 i - dotrow (pattern (filter f2 ts)) i x) (y2 i)) /\
     ((m <= i)%nat -> y2 i = y1 i)).
  { intro i. unfold y2. destruct H2 as [[-> ->]|[a [-> Ha]]]; cbn.
    - split; auto. intro Hi. apply is_repr_canon; auto. rewrite Z.sub_0_r. symmetry. apply canon_id; auto.
      destruct (proj1 (K1 i) Hi) as [R _]. unfold fhi. lia.
    - apply (csr_mone_generic_ok half F prec FT m n _ x (filter_sorted _ _ SO) (filter_in_matrix _) VX a (csr_zo_init_rep _ _ _ Ha)). }
  assert (K3 : forall i, ((i < m)%nat -> is_repr (fp F) (flo F) (y2 i + dotrow (filter f3 ts) i x) (opt (fun a => csr_generic F a x) (hdat A) y2 i)) /\
     ((m <= i)%nat -> opt (fun a => csr_generic F a x) (hdat A) y2 i = y2 i)).
  { intro i. destruct H3 as [[-> ->]|[a [-> Ha]]]; cbn.
    - split; auto. intro Hi. apply is_repr_canon; auto. rewrite Z.add_0_r. symmetry. apply canon_id; auto.
      destruct (proj1 (K2 i) Hi) as [R _]. unfold fhi. lia.
    - destruct (csr_init_rep _ _ _ _ _ _ Ha) as (CR & CD & _).
      apply (csr_generic_ok half F prec FT m _ x (filter_sorted _ _ SO) a CR CD). }
  split; intros i Hi.
  - destruct (proj1 (K1 i) Hi) as [_ [q1 Q1]]. destruct (proj1 (K2 i) Hi) as [_ [q2 Q2]].
    eapply repr_shift; [|apply (proj1 (K3 i) Hi)].
    destruct (split_row ts i) as [_ [q Q]]. exists (q + q1 + q2). lia.
  - rewrite (proj2 (K3 i)), (proj2 (K2 i)), (proj2 (K1 i)) by auto. auto.
Qed.

Lemma hyb_modular_ok A y : hyb_init half F prec m ts = Some A -> vin F m y ->
  (forall i, (i < m)%nat -> Z.of_nat (rowlen ts i) * (c * c) + c <= 2 ^ prec) ->
  (forall i, (i < m)%nat -> is_repr (fp F) (flo F) (y i + dotrow ts i x) (hyb_modular F prec fma A x y i)) /\
  (forall i, (m <= i)%nat -> hyb_modular F prec fma A x y i = y i).
Proof.
  intros HA VY HB. destruct (hyb_init_rep A HA) as (Em & H1 & H2 & H3). pose proof c_pos as CP.
  unfold hyb_modular, hyb_unparam. set (y1 := opt _ (hone A) y). set (y2 := opt _ (hmone A) y1).
  assert (B : forall i, (i < m)%nat -> Z.abs (y i) + Z.of_nat (rowlen (filter f1 ts) i) * c
     + Z.of_nat (rowlen (filter f2 ts) i) * c + Z.of_nat (rowlen (filter f3 ts) i) * (c * c) <= 2 ^ prec).
  { intros i Hi. specialize (HB i Hi). destruct (split_row ts i) as [L _]. rewrite L in HB.
    pose proof (ft_reduced half F prec FT (y i) (VY i Hi)) as R. fold c in R. clear - HB R CP.
    generalize dependent (Z.abs (y i)). intros. clearbody c. rewrite !Nat2Z.inj_add in HB.
    generalize dependent (Z.of_nat (rowlen (filter f3 ts) i)). intros.
    assert (0 <= Z.of_nat (rowlen (filter f2 ts) i)) by lia. assert (0 <= Z.of_nat (rowlen (filter f1 ts) i)) by lia.
    generalize dependent (Z.of_nat (rowlen (filter f2 ts) i)). generalize dependent (Z.of_nat (rowlen (filter f1 ts) i)).
    intros. assert (z1 * c <= z1 * (c * c)) by (apply Z.mul_le_mono_nonneg_l; nia).
    assert (z2 * c <= z2 * (c * c)) by (apply Z.mul_le_mono_nonneg_l; nia). lia. }
  assert (A1 : forall i, (i < m)%nat -> Z.abs (dotrow (pattern (filter f1 ts)) i x) <= Z.of_nat (rowlen (filter f1 ts) i) * c).
  { intros i Hi. assert (M0 : (0 < m)%nat) by lia. destruct (csr_zo_init_some m (filter f1 ts) M0) as [a Ha].
    apply (zrow_abs half F prec FT m n _ x (filter_sorted _ _ SO) (filter_in_matrix _) VX a (csr_zo_init_rep _ _ _ Ha) i Hi). }
  assert (A2 : forall i, (i < m)%nat -> Z.abs (dotrow (pattern (filter f2 ts)) i x) <= Z.of_nat (rowlen (filter f2 ts) i) * c).
  { intros i Hi. assert (M0 : (0 < m)%nat) by lia. destruct (csr_zo_init_some m (filter f2 ts) M0) as [a Ha].
    apply (zrow_abs half F prec FT m n _ x (filter_sorted _ _ SO) (filter_in_matrix _) VX a (csr_zo_init_rep _ _ _ Ha) i Hi). }
  assert (K1 : forall i, ((i < m)%nat -> y1 i = y i + dotrow (pattern (filter f1 ts)) i x) /\ ((m <= i)%nat -> y1 i = y i)).
  { intro i. unfold y1. destruct H1 as [[-> ->]|[a [-> Ha]]]; cbn; [split; auto; lia|].
    destruct (csr_one_unparam_ok half F prec FT m n _ x (filter_sorted f1 _ SO) (filter_in_matrix f1) VX a (csr_zo_init_rep _ _ _ Ha) y i) as [U1 U2].
    split; auto. intro Hi. apply U1; auto. specialize (B i Hi). fold c. clear - B CP.
    assert (0 <= Z.of_nat (rowlen (filter f2 ts) i) * c) by nia. assert (0 <= Z.of_nat (rowlen (filter f3 ts) i) * (c * c)) by nia.
    generalize dependent (Z.abs (y i)). intros. lia. }
  assert (K2 : forall i, ((i < m)%nat -> y2 i = y1 i - dotrow (pattern (filter f2 ts)) i x) /\ ((m <= i)%nat -> y2 i = y1 i)).
  { intro i. unfold y2. destruct H2 as [[-> ->]|[a [-> Ha]]]; cbn; [split; auto; lia|].
    destruct (csr_mone_unparam_ok half F prec FT m n _ x (filter_sorted f2 _ SO) (filter_in_matrix f2) VX a (csr_zo_init_rep _ _ _ Ha) y1 i) as [U1 U2].
    split; auto. intro Hi. apply U1; auto. specialize (B i Hi). specialize (A1 i Hi). rewrite (proj1 (K1 i) Hi). fold c. clear - B CP A1.
    assert (0 <= Z.of_nat (rowlen (filter f3 ts) i) * (c * c)) by nia.
    pose proof (Z.abs_triangle (y i) (dotrow (pattern (filter f1 ts)) i x)) as T.
    generalize dependent (Z.abs (y i + dotrow (pattern (filter f1 ts)) i x)). intros.
    generalize dependent (Z.abs (y i)). generalize dependent (Z.abs (dotrow (pattern (filter f1 ts)) i x)). intros. lia. }
  assert (K3 : forall i, ((i < m)%nat -> opt (fun a => csr_unparam prec fma a x) (hdat A) y2 i = y2 i + dotrow (filter f3 ts) i x) /\
     ((m <= i)%nat -> opt (fun a => csr_unparam prec fma a x) (hdat A) y2 i = y2 i)).
  { intro i. destruct H3 as [[-> ->]|[a [-> Ha]]]; cbn; [split; auto; lia|].
    destruct (csr_init_rep _ _ _ _ _ _ Ha) as (CR & CD & _).
    destruct (csr_unparam_ok half F prec fma FT m n _ x (filter_sorted f3 _ SO) (filter_in_matrix f3) VX a CR CD y2 i) as [U1 U2].
    split; auto. intro Hi. apply U1; auto. specialize (B i Hi). specialize (A1 i Hi). specialize (A2 i Hi).
    rewrite (proj1 (K2 i) Hi), (proj1 (K1 i) Hi). fold c. clear - B A1 A2.
    pose proof (Z.abs_triangle (y i) (dotrow (pattern (filter f1 ts)) i x)) as T.
    pose proof (Z.abs_triangle (y i + dotrow (pattern (filter f1 ts)) i x) (- dotrow (pattern (filter f2 ts)) i x)) as T2.
    rewrite Z.abs_opp in T2. unfold Z.sub.
    generalize dependent (Z.abs (y i + dotrow (pattern (filter f1 ts)) i x + - dotrow (pattern (filter f2 ts)) i x)). intros.
    generalize dependent (Z.abs (y i + dotrow (pattern (filter f1 ts)) i x)). intros.
    generalize dependent (Z.abs (y i)). generalize dependent (Z.abs (dotrow (pattern (filter f1 ts)) i x)).
    generalize dependent (Z.abs (dotrow (pattern (filter f2 ts)) i x)). intros. lia. }
  split; intros i Hi; unfold freduce_vec; rewrite rows_do_at, Em; destruct (Nat.ltb_spec i m); try lia.
  - rewrite (proj1 (K3 i) Hi), (proj1 (K2 i) Hi), (proj1 (K1 i) Hi).
    eapply repr_shift; [|apply is_repr_canon; auto].
    destruct (split_row ts i) as [_ [q Q]]. exists q. lia.
  - rewrite (proj2 (K3 i)), (proj2 (K2 i)), (proj2 (K1 i)) by auto. auto.
Qed.
End HYB.
End Formats.
