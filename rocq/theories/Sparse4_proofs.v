(** * Proofs for fspmm and SELL *)
From Coq Require Import ZArith List Lia Bool Psatz Sorting.Sorted Permutation.
From Verif Require Import Delayed_model Delayed_spec Delayed_proofs Sparse_model Sparse_spec Sparse_proofs
  Sparse2_proofs Sparse3_proofs Sparse2_model.
Import ListNotations.
Open Scope Z_scope.

(** ** Memory operations acting cell by cell on [base, base+b) *)
Definition acts (b base : nat) (G : (nat -> Z) -> nat -> Z) (g : nat -> Z -> Z) : Prop :=
  forall y q, G y q = if ((base <=? q) && (q <? base + b))%nat then g (q - base)%nat (y q) else y q.

Lemma from_inv {Y} (P : nat -> Y -> Prop) n j f y : P j y ->
  (forall k z, (j <= k < j + n)%nat -> P k z -> P (S k) (f k z)) -> P (j + n)%nat (from n j f y).
Proof.
  revert j y. induction n as [|n IH]; intros j y H0 HS; cbn [from]; [now rewrite Nat.add_0_r|].
  replace (j + S n)%nat with (S j + n)%nat by lia. apply IH; [apply HS; [lia|auto]|]. intros. apply HS; [lia|auto].
Qed.

Lemma win_acts b base g : acts b base (win b base g) g.
Proof.
  intros y q. unfold win.
  pose proof (from_inv (fun n (z : nat -> Z) => forall q,
     z q = if ((base <=? q) && (q <? base + n))%nat then g (q - base)%nat (y q) else y q) b 0
     (fun k y => upd y (base + k)%nat (g k (y (base + k)%nat))) y) as H.
  cbn [Nat.add] in H. apply H.
  - intro q'. destruct (Nat.leb_spec base q'), (Nat.ltb_spec q' (base + 0)); cbn; auto; lia.
  - intros k z _ Hz q'. unfold upd. destruct (Nat.eqb_spec q' (base + k)) as [->|E].
    + rewrite Hz. destruct (Nat.leb_spec base (base + k)), (Nat.ltb_spec (base + k) (base + k)),
        (Nat.ltb_spec (base + k) (base + S k)); cbn; try lia. f_equal. lia.
    + rewrite Hz. destruct (Nat.leb_spec base q'), (Nat.ltb_spec q' (base + k)),
        (Nat.ltb_spec q' (base + S k)); cbn; auto; lia.
Qed.

Lemma acts_from b base n : forall j G g, (forall j, acts b base (G j) (g j)) ->
  acts b base (from n j G) (fun k => from n j (fun j => g j k)).
Proof.
  induction n as [|n IH]; intros j G g H y q; cbn [from].
  - destruct ((base <=? q) && (q <? base + b))%nat; auto.
  - rewrite (IH (S j) G g H), (H j y q). destruct ((base <=? q) && (q <? base + b))%nat; auto.
Qed.

Lemma acts_blocks b base n kmax : forall j G g R r, (forall j, acts b base (G j) (g j)) -> acts b base R r ->
  acts b base (blocks n j kmax G R) (fun k => blocks n j kmax (fun j => g j k) (r k)).
Proof.
  induction n as [|n IH]; intros j G g R r H HR y q; cbn [blocks].
  - destruct ((base <=? q) && (q <? base + b))%nat; auto.
  - rewrite (IH _ G g R r H HR), (HR (from kmax j G y) q), (acts_from b base kmax j G g H y q).
    destruct ((base <=? q) && (q <? base + b))%nat; auto.
Qed.

Lemma acts_row_kmax b base diff start kmax G g R r : (forall j, acts b base (G j) (g j)) -> acts b base R r ->
  acts b base (row_kmax diff start kmax G R) (fun k => row_kmax diff start kmax (fun j => g j k) (r k)).
Proof.
  intros H HR y q. unfold row_kmax. rewrite (HR _ q), (acts_from b base _ _ G g H _ q), (acts_blocks b base _ _ _ G g R r H HR y q).
  destruct ((base <=? q) && (q <? base + b))%nat; auto.
Qed.

(** A loop over the rows of a window. *)
Lemma rows_acts m b ld G (g : nat -> nat -> Z -> Z) y : (b <= ld)%nat -> (forall i, acts b (i * ld) (G i) (g i)) ->
  (forall i k, (i < m)%nat -> (k < b)%nat -> from m 0 G y (i * ld + k)%nat = g i k (y (i * ld + k)%nat)) /\
  (forall q, ~ inside m b ld q -> from m 0 G y q = y q).
Proof.
  intros L H.
  pose proof (from_inv (fun n (z : nat -> Z) =>
    (forall i k, (i < n)%nat -> (k < b)%nat -> z (i * ld + k)%nat = g i k (y (i * ld + k)%nat)) /\
    (forall q, ~ inside n b ld q -> z q = y q)) m 0 G y) as HI. cbn [Nat.add] in HI. apply HI; clear HI.
  - split; [lia|auto].
  - intros n z _ [Z1 Z2]. split.
    + intros i k Hi Hk. rewrite H.
      destruct (Nat.leb_spec (n * ld) (i * ld + k)), (Nat.ltb_spec (i * ld + k) (n * ld + b)); cbn [andb].
      * assert (i = n) by (symmetry; apply (same_row n i ld k); lia). subst.
        rewrite Z2 by (intros (i' & k' & A1 & A2 & A3); assert (i' = n) by (symmetry; apply (same_row n i' ld k'); lia); lia).
        f_equal. lia.
      * assert (i <> n) by (intros ->; lia). apply Z1; auto; lia.
      * assert (i <> n) by (intros ->; lia). apply Z1; auto; lia.
      * lia.
    + intros q Hq. rewrite H.
      destruct (Nat.leb_spec (n * ld) q), (Nat.ltb_spec q (n * ld + b)); cbn [andb];
        try (apply Z2; intros (i' & k' & A1 & A2 & A3); apply Hq; exists i', k'; lia).
      exfalso. apply Hq. exists n, (q - n * ld)%nat. lia.
Qed.

Lemma rows_win_ok m n ld g y : (n <= ld)%nat ->
  (forall i k, (i < m)%nat -> (k < n)%nat -> rows_win m n ld g y (i * ld + k)%nat = g (y (i * ld + k)%nat)) /\
  (forall q, ~ inside m n ld q -> rows_win m n ld g y q = y q).
Proof. intro L. apply (rows_acts m n ld _ (fun _ _ => g)); auto. intro i. apply win_acts. Qed.

Lemma mat_map_ok m n ld g y : (n <= ld)%nat ->
  (forall i k, (i < m)%nat -> (k < n)%nat -> mat_map m n ld g y (i * ld + k)%nat = g (y (i * ld + k)%nat)) /\
  (forall q, ~ inside m n ld q -> mat_map m n ld g y q = y q).
Proof.
  intro L. unfold mat_map. destruct (Nat.eqb_spec n ld) as [->|]; [|now apply rows_win_ok].
  split.
  - intros i k Hi Hk. rewrite win_acts. destruct (Nat.leb_spec 0 (i * ld + k)), (Nat.ltb_spec (i * ld + k) (0 + m * ld)); cbn [andb]; auto; nia.
  - intros q Hq. rewrite win_acts. destruct (Nat.leb_spec 0 q), (Nat.ltb_spec q (0 + m * ld)); cbn [andb]; auto.
    exfalso. apply Hq. assert (ld <> 0)%nat by (intros ->; lia).
    exists (q / ld)%nat, (q mod ld)%nat. pose proof (Nat.div_mod q ld H1). pose proof (Nat.mod_upper_bound q ld H1).
    split; [apply Nat.div_lt_upper_bound; lia|]. lia.
Qed.

(** The same operation with another leading dimension, when it agrees. *)
Lemma rows_win_ld m n ld g y : (m <= 1)%nat -> rows_win m n 1 g y = rows_win m n ld g y.
Proof. destruct m as [|[|]]; [reflexivity|reflexivity|lia]. Qed.

Lemma init_y2_ok F m b beta y ldy : wf F -> flo F <= beta <= fhi F -> (b <= ldy)%nat -> good_beta F m beta ldy ->
  (beta = 0 \/ win_in F m b ldy y) ->
  (forall i k, (i < m)%nat -> (k < b)%nat -> flo F <= init_y2 F m b beta y ldy (i * ldy + k)%nat <= fhi F /\
     congr (fp F) (init_y2 F m b beta y ldy (i * ldy + k)%nat) (beta * y (i * ldy + k)%nat)) /\
  (forall q, ~ inside m b ldy q -> init_y2 F m b beta y ldy q = y q).
Proof.
  intros W B L GB V. assert (Z0 : flo F <= 0 <= fhi F) by (destruct W; unfold fhi in *; lia).
  unfold init_y2, is_one, is_mone. destruct (Z.eqb_spec beta (canon F 1)) as [E1|E1].
  - split; auto. intros i k Hi Hk. assert (K : congr (fp F) beta 1) by (rewrite E1; apply canon_congr, W).
    destruct V as [->|V].
    + exfalso. destruct K as [q K]. destruct W as [W1 W2]. assert (q = -1 \/ q <= -2 \/ 0 <= q) by lia. nia.
    + split; [now apply V|]. destruct K as [q K]. exists (- q * y (i * ldy + k)%nat). nia.
  - destruct (Z.eqb_spec beta 0) as [E0|E0].
    + destruct (mat_map_ok m b ldy (fun _ => 0) y L) as [H1 H2]. split; auto.
      intros i k Hi Hk. rewrite H1 by auto. split; auto. subst. exists 0. lia.
    + destruct V as [|V]; [lia|].
      destruct (Z.eqb_spec beta (canon F (-1))) as [E2|E2].
      * assert (K : congr (fp F) beta (-1)) by (rewrite E2; apply canon_congr, W).
        assert (E : rows_win m b 1 (fun v => canon F (- v)) y = rows_win m b ldy (fun v => canon F (- v)) y).
        { destruct GB as [|[|[->|HM]]]; [lia|lia|reflexivity|]. now apply rows_win_ld. }
        rewrite E. destruct (rows_win_ok m b ldy (fun v => canon F (- v)) y L) as [H1 H2]. split; auto.
        intros i k Hi Hk. rewrite H1 by auto. split; [apply canon_range, W|].
        destruct (canon_congr F (- y (i * ldy + k)%nat) W) as [q Q]. destruct K as [q' Q'].
        exists (q - q' * y (i * ldy + k)%nat). nia.
      * assert (E : forall q, mat_map m b 1 (fun v => canon F (beta * v)) y q = mat_map m b ldy (fun v => canon F (beta * v)) y q).
        { destruct GB as [|[|[->|HM]]]; [lia|lia|reflexivity|]. intro q. unfold mat_map.
          destruct m as [|[|]]; [destruct (Nat.eqb b 1), (Nat.eqb b ldy); reflexivity| |lia].
          rewrite Nat.mul_1_l. destruct (Nat.eqb b 1), (Nat.eqb b ldy); reflexivity. }
        destruct (mat_map_ok m b ldy (fun v => canon F (beta * v)) y L) as [H1 H2].
        split; [|intros; rewrite E; auto].
        intros i k Hi Hk. rewrite E, H1 by auto. split; [apply canon_range, W|]. apply canon_congr, W.
Qed.

(** ** The kernels on one column *)
Section Col.
Variables (half : bool) (F : fld) (prec : Z) (fma : bool).
Hypothesis FT : fits half F prec.
Let c := factor half F.
Let W : wf F := ft_wf half F prec FT.
Variables (m n : nat) (ts : list trip) (b ldx ldy : nat) (x : nat -> Z).
Hypothesis SO : row_sorted ts.
Hypothesis IM : in_matrix F m n ts.
Hypothesis VX : win_in F n b ldx x.
Hypothesis LY : (b <= ldy)%nat.

Definition column (k : nat) : nat -> Z := fun i => x (i * ldx + k)%nat.
Lemma col_in k : (k < b)%nat -> vin F n (column k).
Proof. intros H i Hi. now apply VX. Qed.

Section Dat.
Variable A : csr.
Hypothesis HA : csr_init half F prec m ts = Some A.

Lemma spmm_generic_ok y :
  (forall i k, (i < m)%nat -> (k < b)%nat -> flo F <= y (i * ldy + k)%nat <= fhi F ->
     is_repr (fp F) (flo F) (y (i * ldy + k)%nat + dotrow ts i (column k)) (spmm_generic F A b x ldx ldy y (i * ldy + k)%nat)) /\
  (forall q, ~ inside m b ldy q -> spmm_generic F A b x ldx ldy y q = y q).
Proof.
  destruct (csr_init_rep _ _ _ _ _ _ HA) as (CR & CD & _). pose proof CR as (Em & _ & _).
  unfold spmm_generic. rewrite Em.
  destruct (rows_acts m b ldy (fun i => from (rlen A i) (cst A i) (fun j => win b (i * ldy) (fun k v => axpyin F v (cdat A j) (xx A x ldx j k))))
    (fun i k => from (rlen A i) (cst A i) (fun j v => axpyin F v (cdat A j) (xx A x ldx j k))) y LY) as [H1 H2].
  { intro i. apply acts_from. intro j. apply win_acts. }
  split; [|auto]. intros i k Hi Hk Hy. rewrite H1 by auto.
  assert (VC := col_in k Hk).
  rewrite <- (row_sum half F m ts (column k) SO A CR CD i Hi).
  destruct (from_congr (fp F) (fun j => cdat A j * cx A (column k) j) (fun j v => axpyin F v (cdat A j) (xx A x ldx j k)) (rlen A i)
    (axpyin_m F (cdat A) (fun j => cx A (column k) j) W) (cst A i) (y (i * ldy + k)%nat)) as [q Q].
  split; [|exists q; exact Q].
  assert (R : flo F <= from (rlen A i) (cst A i) (fun j v => axpyin F v (cdat A j) (xx A x ldx j k)) (y (i * ldy + k)%nat) <= fhi F).
  { apply (from_inv (fun _ z => flo F <= z <= fhi F)); auto. intros. apply canon_range, W. }
  unfold fhi in R. lia.
Qed.

Lemma spmm_modular_ok y : win_in F m b ldy y ->
  (forall i k, (i < m)%nat -> (k < b)%nat ->
     is_repr (fp F) (flo F) (y (i * ldy + k)%nat + dotrow ts i (column k)) (spmm_modular F prec fma A b x ldx ldy y (i * ldy + k)%nat)) /\
  (forall q, ~ inside m b ldy q -> spmm_modular F prec fma A b x ldx ldy y q = y q).
Proof.
  intro VY. destruct (csr_init_rep _ _ _ _ _ _ HA) as (CR & CD & CK & M & CM & ML). pose proof CR as (Em & _ & _).
  unfold spmm_modular. destruct (cdelayed A) eqn:ED.
  - pose proof (delayed_bound half F prec FT M (eq_sym CM)) as DB. fold c in DB.
    unfold spmm_unparam. rewrite Em.
    destruct (rows_acts m b ldy (fun i => from (rlen A i) (cst A i) (fun j => win b (i * ldy) (fun k v => madd prec fma v (cdat A j) (xx A x ldx j k))))
      (fun i k => from (rlen A i) (cst A i) (fun j v => madd prec fma v (cdat A j) (xx A x ldx j k))) y LY) as [H1 H2].
    { intro i. apply acts_from. intro j. apply win_acts. }
    set (z := from m 0 _ y) in *.
    destruct (mat_map_ok m b ldy (canon F) z LY) as [M1 M2].
    split; [|intros q Hq; rewrite M2, H2 by auto; auto].
    intros i k Hi Hk. rewrite M1, H1 by auto. assert (VC := col_in k Hk).
    rewrite (from_exact (2 ^ prec) (fun j => cdat A j * cx A (column k) j) _ _ (madd_a prec fma (cdat A) (fun j => cx A (column k) j))).
    + rewrite (row_sum half F m ts (column k) SO A CR CD i Hi). apply is_repr_canon; auto.
    + pose proof (row_asum half F prec FT m n ts (column k) SO IM VC A CR CD i Hi) as RA. fold c in RA.
      pose proof (len_mono half F prec FT _ _ (ML i Hi)) as LM. fold c in LM.
      pose proof (ft_reduced half F prec FT _ (VY i k Hi Hk)) as FR. fold c in FR. lia.
  - unfold spmm_kmax. rewrite Em, CK. destruct (dotbound_ok half F prec FT) as [K1 K2]. fold c in K2.
    destruct (rows_acts m b ldy (fun i => row_kmax (rlen A i) (cst A i) (dotbound half F prec) (fun j =>
        win b (i * ldy) (fun k v => madd prec fma v (cdat A j) (xx A x ldx j k))) (win b (i * ldy) (fun _ => canon F)))
      (fun i k => row_kmax (rlen A i) (cst A i) (dotbound half F prec) (fun j v => madd prec fma v (cdat A j) (xx A x ldx j k)) (canon F)) y LY) as [H1 H2].
    { intro i. apply (acts_row_kmax b (i * ldy) _ _ _ _ (fun j k v => madd prec fma v (cdat A j) (xx A x ldx j k)) _ (fun _ => canon F)); intros; apply win_acts. }
    split; [|auto]. intros i k Hi Hk. rewrite H1 by auto. assert (VC := col_in k Hk).
    rewrite <- (row_sum half F m ts (column k) SO A CR CD i Hi). destruct (ft_c half F prec FT) as (C1 & C2 & _). fold c in C1, C2.
    apply (row_kmax_ok F (2 ^ prec) (fun j => cdat A j * cx A (column k) j) _ _ W (madd_a prec fma (cdat A) (fun j => cx A (column k) j)) K1 c (c * c)); auto; [nia|].
    + intros l Hl. apply (row_term half F prec FT m n ts (column k) SO IM VC A CR CD i l Hi Hl).
Qed.
End Dat.

Section Zo.
Variable A : csr.
Hypothesis HA : csr_zo_init m ts = Some A.
Lemma spmm_zo_generic_ok s y : s = 1 \/ s = -1 ->
  (forall i k, (i < m)%nat -> (k < b)%nat -> flo F <= y (i * ldy + k)%nat <= fhi F ->
     is_repr (fp F) (flo F) (y (i * ldy + k)%nat + s * dotrow (pattern ts) i (column k)) (spmm_zo_generic F A b x ldx ldy s y (i * ldy + k)%nat)) /\
  (forall q, ~ inside m b ldy q -> spmm_zo_generic F A b x ldx ldy s y q = y q).
Proof.
  intro HS. pose proof (csr_zo_init_rep _ _ _ HA) as CR. pose proof CR as (Em & _ & _).
  assert (G : forall step : Z -> Z -> Z, (forall v t, step v t = canon F (v + s * t)) ->
    let r := from m 0 (fun i => from (rlen A i) (cst A i) (fun j => win b (i * ldy) (fun k v => step v (xx A x ldx j k)))) y in
    (forall i k, (i < m)%nat -> (k < b)%nat -> flo F <= y (i * ldy + k)%nat <= fhi F ->
     is_repr (fp F) (flo F) (y (i * ldy + k)%nat + s * dotrow (pattern ts) i (column k)) (r (i * ldy + k)%nat)) /\
    (forall q, ~ inside m b ldy q -> r q = y q)).
  { intros step ST r. unfold r.
    destruct (rows_acts m b ldy (fun i => from (rlen A i) (cst A i) (fun j => win b (i * ldy) (fun k v => step v (xx A x ldx j k))))
      (fun i k => from (rlen A i) (cst A i) (fun j v => step v (xx A x ldx j k))) y LY) as [H1 H2].
    { intro i. apply acts_from. intro j. apply win_acts. }
    split; [|auto]. intros i k Hi Hk Hy. rewrite H1 by auto. assert (VC := col_in k Hk).
    destruct (from_congr (fp F) (fun j => s * cx A (column k) j) (fun j v => step v (xx A x ldx j k)) (rlen A i)
      ltac:(intros j v; rewrite ST; apply canon_congr, W) (cst A i) (y (i * ldy + k)%nat)) as [q Q].
    assert (SS : forall l o, Zsumr (fun j => s * cx A (column k) j) o l = s * Zsumr (cx A (column k)) o l).
    { induction l as [|l IH]; intro o; cbn [Zsumr]; [lia|]. rewrite IH. lia. }
    rewrite SS in Q. rewrite <- (zrow_sum half F prec FT m n ts (column k) SO IM VC A CR i Hi).
    split; [|exists q; exact Q].
    assert (R : flo F <= from (rlen A i) (cst A i) (fun j v => step v (xx A x ldx j k)) (y (i * ldy + k)%nat) <= fhi F).
    { apply (from_inv (fun _ z => flo F <= z <= fhi F)); auto. intros. rewrite ST. apply canon_range, W. }
    unfold fhi in R. lia. }
  unfold spmm_zo_generic, spmm_one_generic, spmm_mone_generic. rewrite Em.
  destruct HS as [->| ->]; cbn [Z.eqb Pos.eqb].
  - apply (G (addin F)). intros. unfold addin. f_equal; lia.
  - apply (G (subin F)). intros. unfold subin. f_equal; lia.
Qed.
End Zo.
End Col.

Lemma assemble2 F m ts s b x ldx beta y ldy r : wf F -> flo F <= beta <= fhi F -> (b <= ldy)%nat ->
  good_beta F m beta ldy -> (beta = 0 \/ win_in F m b ldy y) ->
  (win_in F m b ldy (init_y2 F m b beta y ldy) ->
   (forall i k, (i < m)%nat -> (k < b)%nat -> 
     is_repr (fp F) (flo F) (init_y2 F m b beta y ldy (i * ldy + k)%nat + s * dotrow ts i (column ldx x k)) (r (i * ldy + k)%nat)) /\
   (forall q, ~ inside m b ldy q -> r q = init_y2 F m b beta y ldy q)) ->
  spmm_ok F m ts s b x ldx beta y ldy r.
Proof.
  intros W B L GB V H. destruct (init_y2_ok F m b beta y ldy W B L GB V) as [I1 I2].
  destruct H as [H1 H2]. { intros i k Hi Hk. now apply I1. }
  split; [|intros; rewrite H2, I2; auto].
  intros i k Hi Hk. eapply repr_shift; [|apply H1; auto]. destruct (I1 i k Hi Hk) as [_ [q Q]].
  exists q. unfold column. lia.
Qed.

(** ** SELL *)
Lemma set_nth_length {T} (l : list T) i f : length (set_nth l i f) = length l.
Proof. revert i; induction l as [|a l IH]; intros [|i]; cbn; auto. Qed.
Lemma set_nth_nth {T} (l : list T) i f j d : (i < length l)%nat ->
  nth j (set_nth l i f) d = if (j =? i)%nat then f (nth j l d) else nth j l d.
Proof.
  revert i j; induction l as [|a l IH]; intros [|i] [|j] H; cbn in *; try lia; auto. apply IH. lia.
Qed.

Lemma scan_length ts : forall i cur l, length (sell_scan ts i cur l) = length l.
Proof.
  induction ts as [|t ts IH]; intros i cur l; cbn; auto. rewrite IH, set_nth_length.
  destruct (ro t =? cur)%nat; auto. apply set_nth_length.
Qed.

Lemma scan_size ts : forall i cur l, Forall (fun t => (ro t < length l)%nat) ts -> forall q,
  isize (nth q (sell_scan ts i cur l) info0) = (isize (nth q l info0) + rowlen ts q)%nat.
Proof.
  induction ts as [|[r c v] ts IH]; intros i cur l H q; cbn [sell_scan rowlen]; [lia|].
  inversion H; subst. cbn [ro] in *.
  set (l1 := if (r =? cur)%nat then l else set_nth l r (set_begin i)).
  assert (L1 : length l1 = length l) by (unfold l1; destruct (r =? cur)%nat; auto; apply set_nth_length).
  assert (S1 : forall q, isize (nth q l1 info0) = isize (nth q l info0)).
  { intro q'. unfold l1. destruct (r =? cur)%nat; auto. rewrite set_nth_nth by auto. destruct (q' =? r)%nat; auto. }
  rewrite IH by (rewrite set_nth_length, L1; auto). rewrite set_nth_nth by lia.
  rewrite (Nat.eqb_sym r q). destruct (Nat.eqb_spec q r); cbn [incr isize]; rewrite S1; lia.
Qed.

Lemma max_element_bysize l a : max_element bysize l = Some a ->
  In a l /\ forall b, In b l -> (isize a <= isize b)%nat.
Proof.
  destruct l as [|h l]; [discriminate|]. cbn [max_element]. intros [= <-].
  revert h. induction l as [|b l IH]; intro h; cbn [fold_left].
  - split; [now left|]. intros b [<-|[]]. lia.
  - unfold bysize at 2 4. destruct (Nat.leb_spec (isize b) (isize h)).
    + destruct (IH b) as [I1 I2]. split; [right; destruct I1; [left|right]; auto|].
      intros b' [<-|[<-|Hb]]; [|apply I2; now left|apply I2; now right].
      specialize (I2 b (or_introl eq_refl)). lia.
    + destruct (IH h) as [I1 I2]. split; [destruct I1; [left|right; right]; auto|].
      intros b' [<-|[<-|Hb]]; [apply I2; now left| |apply I2; now right].
      specialize (I2 h (or_introl eq_refl)). lia.
Qed.

Lemma nchunks m chunk : (0 < chunk)%nat -> (m <= (if m mod chunk =? 0 then m / chunk else m / chunk + 1) * chunk)%nat.
Proof.
  intro H. pose proof (Nat.div_mod m chunk ltac:(lia)). pose proof (Nat.mod_upper_bound m chunk ltac:(lia)).
  destruct (Nat.eqb_spec (m mod chunk) 0); nia.
Qed.

Lemma sell_maxrow_min srt half F prec chunk sigma m n ts A : in_matrix F m n ts -> (0 < chunk)%nat ->
  sell_init srt half F prec chunk sigma m ts = Some A ->
  (forall i, (i < m)%nat -> (smaxrow A <= rowlen ts i)%nat) /\
  sdelayed A = (smaxrow A <? dotbound half F prec)%nat /\
  ((m mod chunk = 0)%nat \/ smaxrow A = 0%nat).
Proof.
  intros IM HC. unfold sell_init. destruct ts as [|t ts'] eqn:ET; [discriminate|]. rewrite <- ET in *.
  set (nch := (if m mod chunk =? 0 then m / chunk else m / chunk + 1)%nat).
  pose proof (nchunks m chunk HC) as NC. fold nch in NC.
  set (l0 := set_nth (repeat info0 (nch * chunk)) (ro t) (set_begin 0)).
  assert (LL : length l0 = (nch * chunk)%nat) by (unfold l0; rewrite set_nth_length; apply repeat_length).
  assert (FA : Forall (fun t => (ro t < length l0)%nat) ts).
  { unfold in_matrix in IM. rewrite Forall_forall in *. intros u Hu. destruct (IM u Hu). lia. }
  assert (SZ : forall q, isize (nth q l0 info0) = 0%nat).
  { intro q. unfold l0. rewrite set_nth_nth.
    - assert (E : isize (nth q (repeat info0 (nch * chunk)) info0) = 0%nat) by (rewrite nth_repeat; auto).
      destruct (q =? ro t)%nat; auto.
    - rewrite repeat_length, <- LL. rewrite Forall_forall in FA. apply FA. rewrite ET. now left. }
  set (l1 := sell_scan ts 0 (ro t) l0).
  assert (S1 : forall q, isize (nth q l1 info0) = rowlen ts q) by (intro q; unfold l1; rewrite scan_size, SZ; auto).
  assert (L1 : length l1 = (nch * chunk)%nat) by (unfold l1; now rewrite scan_length).
  destruct (max_element bysize l1) as [a|] eqn:EA; [|discriminate].
  destruct (max_element_bysize _ _ EA) as [_ MIN].
  destruct (sell_fill _ _ _ _ _) as [col dat]. intros [= <-]. cbn [smaxrow sdelayed].
  split; [|split]; auto.
  - intros i Hi. rewrite <- S1. apply MIN. apply nth_In. lia.
  - destruct (Nat.eq_dec (m mod chunk) 0) as [E|E]; [auto|right].
    assert (LT : (m < nch * chunk)%nat).
    { unfold nch. destruct (Nat.eqb_spec (m mod chunk) 0); [lia|].
      pose proof (Nat.div_mod m chunk ltac:(lia)). pose proof (Nat.mod_upper_bound m chunk ltac:(lia)). nia. }
    assert (isize a <= isize (nth m l1 info0))%nat by (apply MIN, nth_In; lia).
    rewrite S1 in H. destruct (rowlen_out F m n ts IM m (le_n m)) as [R _]. lia.
Qed.

(** The permutation, for the default sigma. *)
Lemma perm_fold l : forall (s : list nat) p0 q,
  NoDup (map (fun i => iperm (nth i l info0)) s) ->
  In q s -> fold_left (fun p i => upd p (iperm (nth i l info0)) i) s p0 (iperm (nth q l info0)) = q.
Proof.
  assert (K : forall s p0 r, ~ In r (map (fun i => iperm (nth i l info0)) s) ->
     fold_left (fun p i => upd p (iperm (nth i l info0)) i) s p0 r = p0 r).
  { induction s as [|i s IH]; intros p0 r H; cbn in *; auto. rewrite IH by tauto. unfold upd.
    destruct (Nat.eqb_spec r (iperm (nth i l info0))); auto. subst. tauto. }
  induction s as [|i s IH]; intros p0 q ND HI; [destruct HI|]. destruct HI as [->|Hq]; cbn [map fold_left] in *; inversion ND; subst.
  - rewrite K by auto. unfold upd. now rewrite Nat.eqb_refl.
  - now apply IH.
Qed.

Lemma setperm_nth l s : NoDup s -> forall q, Forall (fun i => (i < length l)%nat) s ->
  iperm (nth q (fold_left (fun l i => set_nth l i (set_perm i)) s l) info0) =
  if in_dec Nat.eq_dec q s then q else iperm (nth q l info0).
Proof.
  revert l. induction s as [|i s IH]; intros l ND q H; cbn [fold_left]; auto.
  inversion ND; subst. inversion H; subst. rewrite IH; auto; [|rewrite Forall_forall in *; intros; rewrite set_nth_length; auto].
  destruct (in_dec Nat.eq_dec q s), (in_dec Nat.eq_dec q (i :: s)) as [I|I]; cbn in I; auto; try tauto.
  - rewrite set_nth_nth by auto. destruct (Nat.eqb_spec q i); [auto|]. destruct I; [congruence|tauto].
  - rewrite set_nth_nth by auto. destruct (Nat.eqb_spec q i); [subst; tauto|auto].
Qed.

Lemma setperm_length l s : length (fold_left (fun l i => set_nth l i (set_perm i)) s l) = length l.
Proof. revert l; induction s as [|i s IH]; intro l; cbn; auto. now rewrite IH, set_nth_length. Qed.

Lemma sell_perm srt half F prec chunk m n ts A : in_matrix F m n ts -> (0 < chunk)%nat -> (0 < m)%nat ->
  (forall l, Permutation l (srt l)) ->
  sell_init srt half F prec chunk 0 m ts = Some A ->
  (forall q, (q < m)%nat -> (iperm (nth q (sinfos A) info0) < m)%nat /\ sperm A (iperm (nth q (sinfos A) info0)) = q) /\
  (forall r, (r < m)%nat -> (sperm A r < m)%nat /\ iperm (nth (sperm A r) (sinfos A) info0) = r).
Proof.
  intros IM HC HM HP. unfold sell_init. destruct ts as [|t ts'] eqn:ET; [discriminate|]. rewrite <- ET in *.
  set (nch := (if m mod chunk =? 0 then m / chunk else m / chunk + 1)%nat).
  pose proof (nchunks m chunk HC) as NC. fold nch in NC.
  set (l1 := sell_scan ts 0 (ro t) _).
  assert (L1 : length l1 = (nch * chunk)%nat).
  { unfold l1. rewrite scan_length, set_nth_length. apply repeat_length. }
  destruct (max_element bysize l1) as [a|]; [|discriminate].
  cbn [Nat.eqb]. rewrite Nat.div_same by lia. cbn [seq fold_left]. rewrite Nat.mul_1_l, Nat.eqb_refl.
  set (l2 := fold_left (fun l i => set_nth l i (set_perm i)) (seq 0 m) l1).
  set (l3 := sort_seg srt (0 * m) (0 * m + m) l2).
  destruct (sell_fill _ _ _ _ _) as [col dat]. intros [= <-]. cbn [sperm sinfos].
  assert (L2 : length l2 = (nch * chunk)%nat) by (unfold l2; now rewrite setperm_length).
  assert (P2 : map iperm (firstn m l2) = seq 0 m).
  { apply nth_ext with (d := 0%nat) (d' := 0%nat).
    - rewrite map_length, firstn_length, seq_length. lia.
    - rewrite map_length, firstn_length. intros q Hq. change 0%nat with (iperm info0) at 1. rewrite map_nth.
      rewrite seq_nth by lia. cbn [Nat.add].
      assert (E : nth q (firstn m l2) info0 = nth q l2 info0).
      { rewrite <- (firstn_skipn m l2) at 2. rewrite app_nth1; auto. rewrite firstn_length. lia. }
      rewrite E. unfold l2. rewrite setperm_nth; [|apply seq_NoDup|].
      + destruct (in_dec Nat.eq_dec q (seq 0 m)) as [|N]; auto. exfalso. apply N, in_seq. lia.
      + apply Forall_forall. intros i Hi. apply in_seq in Hi. lia. }
  assert (F3 : l3 = srt (firstn m l2) ++ skipn m l2).
  { unfold l3, sort_seg. cbn [Nat.mul Nat.add firstn skipn app]. now rewrite Nat.sub_0_r. }
  assert (LS : length (srt (firstn m l2)) = m).
  { rewrite <- (Permutation_length (HP (firstn m l2))), firstn_length. lia. }
  assert (PM : Permutation (seq 0 m) (map iperm (srt (firstn m l2)))).
  { rewrite <- P2. apply Permutation_map, HP. }
  assert (N3 : map (fun i => iperm (nth i l3 info0)) (seq 0 m) = map iperm (srt (firstn m l2))).
  { apply nth_ext with (d := iperm (nth 0 l3 info0)) (d' := iperm info0).
    - rewrite !map_length, seq_length. lia.
    - rewrite map_length, seq_length. intros q Hq.
      rewrite (map_nth (fun i => iperm (nth i l3 info0)) (seq 0 m) 0%nat). rewrite map_nth, seq_nth by lia.
      rewrite F3, app_nth1 by lia. reflexivity. }
  assert (ND : NoDup (map (fun i => iperm (nth i l3 info0)) (seq 0 m))).
  { rewrite N3. eapply Permutation_NoDup; [exact PM|apply seq_NoDup]. }
  assert (R1 : forall q, (q < m)%nat -> (iperm (nth q l3 info0) < m)%nat).
  { intros q Hq. assert (I : In (iperm (nth q l3 info0)) (seq 0 m)); [|apply in_seq in I; lia].
    apply (Permutation_in _ (Permutation_sym PM)). rewrite <- N3.
    apply (in_map (fun i => iperm (nth i l3 info0))). apply in_seq. lia. }
  split.
  - intros q Hq. split; auto. apply perm_fold; auto. apply in_seq. lia.
  - intros r Hr. assert (I : In r (map (fun i => iperm (nth i l3 info0)) (seq 0 m))).
    { rewrite N3. apply (Permutation_in _ PM). apply in_seq. lia. }
    apply in_map_iff in I. destruct I as [q [<- Hq]]. 
    rewrite perm_fold by auto. split; auto. apply in_seq in Hq. lia.
Qed.
