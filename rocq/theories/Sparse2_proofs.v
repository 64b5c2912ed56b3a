(** * Proofs for the sparse products: the formats *)
From Coq Require Import ZArith List Lia Bool Psatz Sorting.Sorted.
From Verif Require Import Delayed_model Delayed_spec Delayed_proofs Sparse_model Sparse_spec Sparse_proofs.
Import ListNotations.
Open Scope Z_scope.

Section Arith.
Variables (half : bool) (F : fld) (prec : Z).
Hypothesis FT : fits half F prec.
Let c := factor half F.

Lemma ft_wf : wf F. Proof. apply FT. Qed.

Lemma ft_c : absmax F <= c /\ 1 <= c /\ c * c + c <= 2 ^ prec.
Proof.
  destruct FT as (W & P & H & B). pose proof (absmax_pos F W). cbv zeta in B.
  unfold c, factor. destruct W as [W1 W2]. unfold absmax, fhi in *.
  destruct half; [specialize (H eq_refl)|]; lia.
Qed.

Lemma ft_reduced a : flo F <= a <= fhi F -> Z.abs a <= c.
Proof. intro H. pose proof (absmax_ok F a H). pose proof ft_c. lia. Qed.

Lemma dotbound_ok : (1 <= dotbound half F prec)%nat /\ Z.of_nat (dotbound half F prec) * (c * c) + c <= 2 ^ prec.
Proof.
  destruct ft_c as (_ & C1 & C2). unfold dotbound, max_storable. fold c.
  replace (2 ^ prec - 1 + 1 - c) with (2 ^ prec - c) by lia.
  destruct (Z.leb_spec ((2 ^ prec - c) / (c * c)) 1) as [L|L]; [split; [lia|]; change (Z.of_nat 1) with 1; lia|].
  set (k := (2 ^ prec - c) / (c * c)) in *.
  assert (k * (c * c) <= 2 ^ prec - c).
  { unfold k. rewrite Z.mul_comm. apply Z.mul_div_le. nia. }
  set (k' := Z.min k (2 ^ 31)). assert (1 < k' <= k) by (unfold k'; lia).
  rewrite Z2Nat.id by lia. split; [lia|]. clearbody k' k. nia.
Qed.
End Arith.

(** ** Congruence lemmas for the elementary field steps *)
Lemma axpyin_m F (d x : nat -> Z) : wf F -> addsm (fp F) (fun j => d j * x j) (fun j acc => axpyin F acc (d j) (x j)).
Proof. intros W j y. apply canon_congr, W. Qed.
Lemma addin_m F (x : nat -> Z) : wf F -> addsm (fp F) x (fun j acc => addin F acc (x j)).
Proof. intros W j y. apply canon_congr, W. Qed.
Lemma madd_a prec fma (d x : nat -> Z) : adds (2 ^ prec) (fun j => d j * x j) (fun j acc => madd prec fma acc (d j) (x j)).
Proof. intros j y H. apply madd_exact. exact H. Qed.
Lemma mplus_a prec (x : nat -> Z) : adds (2 ^ prec) x (fun j acc => mplus prec acc (x j)).
Proof. intros j y H. apply mplus_exact. exact H. Qed.

Lemma addin4 F y a b c d : wf F ->
  is_repr (fp F) (flo F) (y + (a + b + c + d)) (addin F (addin F (addin F (addin F y a) b) c) d).
Proof.
  intro W. apply is_repr_canon; auto. apply canon_eq; auto.
  destruct (canon_congr F (y + a) W) as [q1 E1].
  destruct (canon_congr F (canon F (y + a) + b) W) as [q2 E2].
  destruct (canon_congr F (canon F (canon F (y + a) + b) + c) W) as [q3 E3].
  unfold addin. exists (q1 + q2 + q3). lia.
Qed.

Lemma repr_shift F z z' r : congr (fp F) z z' -> is_repr (fp F) (flo F) z r -> is_repr (fp F) (flo F) z' r.
Proof. intros [q E] [H [q' E']]. split; auto. exists (q + q'). lia. Qed.

(** ** CSR *)

(** [A] has the row starts and column indices of the triplets. *)
Definition crep (A : csr) (m : nat) (ts : list trip) : Prop :=
  cm A = m /\ (forall i, (i <= m)%nat -> cst A i = starts (rowlen ts) i) /\
  (forall j, ccol A j = co (nth j ts t0)).

Lemma csr_init_rep half F prec m ts A : csr_init half F prec m ts = Some A ->
  crep A m ts /\ (forall j, cdat A j = va (nth j ts t0)) /\
  ckmax A = dotbound half F prec /\
  exists M, cdelayed A = (M <? dotbound half F prec)%nat /\ forall i, (i < m)%nat -> (rowlen ts i <= M)%nat.
Proof.
  unfold csr_init. destruct (max_row m (count_rows ts)) as [M|] eqn:E; [|discriminate].
  intros [= <-]. cbn. split; [|split; [|split]]; auto.
  - split; [|split]; auto. intros i _. cbn. apply starts_ext. intros. apply count_rows_ok.
  - exists M. split; auto. intros i Hi. rewrite <- count_rows_ok. eapply max_row_ge; eauto.
Qed.

Lemma csr_init_some half F prec m ts : (0 < m)%nat -> exists A, csr_init half F prec m ts = Some A.
Proof. intro H. unfold csr_init. destruct (max_row_some m (count_rows ts) H) as [M ->]. eauto. Qed.

Lemma rowlen_pattern ts i : rowlen (pattern ts) i = rowlen ts i.
Proof. induction ts as [|[r c v] ts IH]; cbn; auto. all: rewrite IH; auto. Qed.
Lemma sorted_pattern ts : row_sorted ts -> row_sorted (pattern ts).
Proof.
  induction ts as [|t ts IH]; intro H; [constructor|].
  inversion H; subst. cbn. constructor; [now apply IH|].
  rewrite Forall_forall in *. intros u Hu. apply in_map_iff in Hu. destruct Hu as [w [<- Hw]]. cbn. now apply H3.
Qed.
Lemma pattern_in ts t : In t (pattern ts) -> va t = 1 /\ exists u, In u ts /\ ro u = ro t /\ co u = co t.
Proof. intro H. apply in_map_iff in H. destruct H as [u [<- Hu]]. cbn. split; auto. exists u. auto. Qed.

(** the in-place prefix sums *)
Lemma zo_counts ts : forall st i,
  fold_left (fun st t => upd st (S (ro t)) (S (st (S (ro t))))) ts st i =
  (st i + match i with O => O | S j => rowlen ts j end)%nat.
Proof.
  induction ts as [|[r c v] ts IH]; intros st i; cbn [fold_left ro].
  - destruct i; cbn; lia.
  - rewrite IH. unfold upd. destruct i as [|i]; [cbn; lia|]. cbn [rowlen].
    destruct (Nat.eqb_spec (S i) (S r)) as [E|E], (Nat.eqb_spec r i); try lia. injection E as ->. lia.
Qed.

Lemma zo_prefix (cnt : nat -> nat) m : forall st k,
  (forall i, (i <= k)%nat -> st i = starts cnt i) -> (forall i, (k < i)%nat -> st i = cnt (i - 1)%nat) ->
  forall i, (i <= k + m)%nat ->
  fold_left (fun st i => upd st i (st i + st (i - 1))%nat) (seq (S k) m) st i = starts cnt i.
Proof.
  induction m as [|m IH]; intros st k H1 H2 i Hi; cbn [seq fold_left].
  - apply H1; lia.
  - apply (IH _ (S k)); [| |lia].
    + intros j Hj. unfold upd. destruct (Nat.eqb_spec j (S k)) as [->|Hn].
      * rewrite H2 by lia. replace (S k - 1)%nat with k by lia. rewrite H1 by lia. cbn [starts]. lia.
      * apply H1; lia.
    + intros j Hj. unfold upd. destruct (Nat.eqb_spec j (S k)); [lia|]. apply H2; lia.
Qed.

Lemma csr_zo_init_rep m ts A : csr_zo_init m ts = Some A -> crep A m (pattern ts).
Proof.
  unfold csr_zo_init. destruct (max_row m (count_rows ts)) as [M|] eqn:E; [|discriminate].
  intros [= <-]. split; [|split]; cbn [cm cst ccol]; auto.
  - intros i Hi. rewrite (starts_ext _ (rowlen ts)) by (intros; apply rowlen_pattern).
    apply (zo_prefix (rowlen ts) m _ 0); auto.
    + intros j Hj. assert (j = 0%nat) by lia. subst. rewrite zo_counts. reflexivity.
    + intros j Hj. rewrite zo_counts. destruct j as [|j]; [lia|]. cbn [Nat.add]. f_equal. lia.
  - intro j. unfold pattern.
    assert (G : forall l j, co (nth j l t0) = co (nth j (map (fun t => T3 (ro t) (co t) 1) l) t0)).
    { induction l as [|t l IH]; intros [|k]; cbn; auto. }
    apply G.
Qed.
Lemma csr_zo_init_some m ts : (0 < m)%nat -> exists A, csr_zo_init m ts = Some A.
Proof. intro H. unfold csr_zo_init. destruct (max_row_some m (count_rows ts) H) as [M ->]. eauto. Qed.

Section Csr.
Variables (half : bool) (F : fld) (prec : Z) (fma : bool).
Hypothesis FT : fits half F prec.
Let c := factor half F.
Let W : wf F := ft_wf half F prec FT.
Variables (m n : nat) (ts : list trip) (x : nat -> Z).
Hypothesis SO : row_sorted ts.
Hypothesis IM : in_matrix F m n ts.
Hypothesis VX : vin F n x.
Variable A : csr.
Hypothesis CR : crep A m ts.

Lemma rlen_ok i : (i < m)%nat -> rlen A i = rowlen ts i.
Proof using CR. clear - CR. intro H. destruct CR as (_ & H2 & _). unfold rlen. rewrite !H2 by lia. cbn [starts]. lia. Qed.

Lemma in_bounds t : In t ts -> (co t < n)%nat /\ Z.abs (va t) <= c /\ Z.abs (x (co t)) <= c.
Proof using FT IM VX.
  intro H. unfold in_matrix in IM. rewrite Forall_forall in IM. destruct (IM t H) as (H1 & H2 & H3).
  split; auto. split; apply (ft_reduced half F prec FT); auto.
Qed.

(** *** with values *)
Section Dat.
Hypothesis CD : forall j, cdat A j = va (nth j ts t0).
Let t j := cdat A j * cx A x j.

Lemma row_sum i : (i < m)%nat -> Zsumr t (cst A i) (rlen A i) = dotrow ts i x.
Proof.
  intro H. rewrite rlen_ok by auto. destruct CR as (_ & H2 & H3). rewrite H2 by lia.
  destruct (segment ts SO i x) as [E _]. rewrite <- E. apply zext. intros j _. unfold t, cx. now rewrite CD, H3.
Qed.

Lemma row_term i j : (i < m)%nat -> (cst A i <= j < cst A i + rlen A i)%nat -> Z.abs (t j) <= c * c.
Proof.
  intros H Hj. rewrite rlen_ok in Hj by auto. destruct CR as (_ & H2 & H3). rewrite H2 in Hj by lia.
  destruct (segment ts SO i x) as [_ I]. specialize (I j Hj). destruct (in_bounds _ I) as (_ & B1 & B2).
  unfold t, cx. rewrite CD, H3. now apply abs_mul_le.
Qed.

Lemma row_asum i : (i < m)%nat -> asum t (cst A i) (rlen A i) <= Z.of_nat (rowlen ts i) * (c * c).
Proof. intro H. rewrite <- (rlen_ok i H). apply asum_le. intros j Hj. eapply row_term; eauto. Qed.

Lemma csr_generic_ok y i :
  ((i < m)%nat -> is_repr (fp F) (flo F) (y i + dotrow ts i x) (csr_generic F A x y i)) /\
  ((m <= i)%nat -> csr_generic F A x y i = y i).
Proof.
  unfold csr_generic. rewrite rows_do_at. destruct CR as (-> & _ & _).
  split; intro H; [|destruct (Nat.ltb_spec i m); auto; lia].
  destruct (Nat.ltb_spec i m); [|lia].
  destruct (row4_congr (fp F) t (fun j acc => axpyin F acc (cdat A j) (cx A x j))
    (fun y1 y2 y3 y4 => addin F (addin F (addin F (addin F (y i) y1) y2) y3) y4) (rlen A i) (cst A i)
    (axpyin_m F _ _ W)) as (a & b & c' & d & E & [q K]).
  rewrite E. eapply repr_shift; [|apply addin4, W]. rewrite row_sum in K by auto. exists q. lia.
Qed.

Lemma csr_unparam_ok y i :
  ((i < m)%nat -> Z.abs (y i) + Z.of_nat (rowlen ts i) * (c * c) <= 2 ^ prec ->
    csr_unparam prec fma A x y i = y i + dotrow ts i x) /\
  ((m <= i)%nat -> csr_unparam prec fma A x y i = y i).
Proof.
  unfold csr_unparam. rewrite rows_do_at. destruct CR as (-> & _ & _).
  split; [intros H B|intro H]; [|destruct (Nat.ltb_spec i m); auto; lia].
  destruct (Nat.ltb_spec i m); [|lia].
  rewrite (row4_unparam prec t) by (first [apply madd_a | pose proof (row_asum i H); lia]).
  now rewrite row_sum.
Qed.

Lemma csr_kmax_ok y i kmax : (0 < kmax)%nat -> Z.of_nat kmax * (c * c) + c <= 2 ^ prec ->
  ((i < m)%nat -> flo F <= y i <= fhi F ->
    is_repr (fp F) (flo F) (y i + dotrow ts i x) (csr_kmax F prec fma A x kmax y i)) /\
  ((m <= i)%nat -> csr_kmax F prec fma A x kmax y i = y i).
Proof.
  intros K1 K2. unfold csr_kmax. rewrite rows_do_at. pose proof CR as (-> & _ & _).
  split; [intros H B|intro H]; [|destruct (Nat.ltb_spec i m); auto; lia].
  destruct (Nat.ltb_spec i m); [|lia].
  rewrite <- row_sum by auto. destruct (ft_c half F prec FT) as (C1 & C2 & _). fold c in C1, C2.
  apply (row_kmax_ok F (2 ^ prec) t _ kmax W (madd_a prec fma _ _) K1 c (c * c)); auto; [nia|].
  intros l Hl. eapply row_term; eauto.
Qed.
End Dat.
End Csr.

(** *** zero-one *)
Section Zo.
Variables (half : bool) (F : fld) (prec : Z).
Hypothesis FT : fits half F prec.
Let c := factor half F.
Let W : wf F := ft_wf half F prec FT.
Variables (m n : nat) (ts : list trip) (x : nat -> Z).
Hypothesis SO : row_sorted ts.
Hypothesis IM : in_matrix F m n ts.
Hypothesis VX : vin F n x.
Variable A : csr.
Hypothesis CR : crep A m (pattern ts).
Let t j := cx A x j.

Lemma zrlen_ok i : (i < m)%nat -> rlen A i = rowlen ts i.
Proof. intro H. rewrite <- (rowlen_pattern ts). now apply (rlen_ok m). Qed.

Lemma zin i j : (i < m)%nat -> (cst A i <= j < cst A i + rlen A i)%nat ->
  va (nth j (pattern ts) t0) = 1 /\ Z.abs (t j) <= c.
Proof.
  intros H Hj. rewrite zrlen_ok, <- (rowlen_pattern ts) in Hj by auto.
  destruct CR as (_ & H2 & H3). rewrite H2 in Hj by lia.
  destruct (segment _ (sorted_pattern ts SO) i x) as [_ I]. specialize (I j Hj).
  destruct (pattern_in _ _ I) as (V & u & U1 & U2 & U3). split; auto.
  unfold t, cx. rewrite H3, <- U3. apply (in_bounds half F prec FT m n ts x IM VX u U1).
Qed.

Lemma zrow_sum i : (i < m)%nat -> Zsumr t (cst A i) (rlen A i) = dotrow (pattern ts) i x.
Proof.
  intro H. destruct (segment _ (sorted_pattern ts SO) i x) as [E _]. rewrite <- E.
  rewrite rowlen_pattern, <- zrlen_ok by auto. pose proof CR as (_ & H2 & H3). rewrite <- H2 by lia.
  apply zext. intros j Hj. destruct (zin i j H Hj) as [-> _]. unfold t, cx. rewrite H3. lia.
Qed.

Lemma zrow_asum i : (i < m)%nat -> asum t (cst A i) (rlen A i) <= Z.of_nat (rowlen ts i) * c.
Proof. intro H. rewrite <- (zrlen_ok i H). apply asum_le. intros j Hj. now apply (zin i j). Qed.

Lemma csr_one_generic_ok y i :
  ((i < m)%nat -> is_repr (fp F) (flo F) (y i + dotrow (pattern ts) i x) (csr_one_generic F A x y i)) /\
  ((m <= i)%nat -> csr_one_generic F A x y i = y i).
Proof.
  unfold csr_one_generic. rewrite rows_do_at. pose proof CR as (-> & _ & _).
  split; intro H; [|destruct (Nat.ltb_spec i m); auto; lia].
  destruct (Nat.ltb_spec i m); [|lia].
  destruct (row4_congr (fp F) t (fun j acc => addin F acc (cx A x j))
    (fun y1 y2 y3 y4 => addin F (y i) (y1 + y2 + y3 + y4)) (rlen A i) (cst A i)
    (addin_m F _ W)) as (a & b & c' & d & E & [q K]).
  rewrite E. rewrite zrow_sum in K by auto.
  apply is_repr_canon; auto. apply canon_eq; auto. exists q. lia.
Qed.
Lemma csr_mone_generic_ok y i :
  ((i < m)%nat -> is_repr (fp F) (flo F) (y i - dotrow (pattern ts) i x) (csr_mone_generic F A x y i)) /\
  ((m <= i)%nat -> csr_mone_generic F A x y i = y i).
Proof.
  unfold csr_mone_generic. rewrite rows_do_at. pose proof CR as (-> & _ & _).
  split; intro H; [|destruct (Nat.ltb_spec i m); auto; lia].
  destruct (Nat.ltb_spec i m); [|lia].
  destruct (row4_congr (fp F) t (fun j acc => addin F acc (cx A x j))
    (fun y1 y2 y3 y4 => subin F (y i) (y1 + y2 + y3 + y4)) (rlen A i) (cst A i)
    (addin_m F _ W)) as (a & b & c' & d & E & [q K]).
  rewrite E. rewrite zrow_sum in K by auto.
  apply is_repr_canon; auto. apply canon_eq; auto. exists (-q). lia.
Qed.

Lemma csr_one_unparam_ok y i :
  ((i < m)%nat -> Z.abs (y i) + Z.of_nat (rowlen ts i) * c <= 2 ^ prec ->
    csr_one_unparam prec A x y i = y i + dotrow (pattern ts) i x) /\
  ((m <= i)%nat -> csr_one_unparam prec A x y i = y i).
Proof.
  unfold csr_one_unparam. rewrite rows_do_at. pose proof CR as (-> & _ & _).
  split; [intros H B|intro H]; [|destruct (Nat.ltb_spec i m); auto; lia].
  destruct (Nat.ltb_spec i m); [|lia].
  rewrite (row4_unparam prec t) by (first [apply mplus_a | pose proof (zrow_asum i H); lia]).
  now rewrite zrow_sum.
Qed.
Lemma csr_mone_unparam_ok y i :
  ((i < m)%nat -> Z.abs (y i) + Z.of_nat (rowlen ts i) * c <= 2 ^ prec ->
    csr_mone_unparam prec A x y i = y i - dotrow (pattern ts) i x) /\
  ((m <= i)%nat -> csr_mone_unparam prec A x y i = y i).
Proof.
  unfold csr_mone_unparam. rewrite rows_do_at. pose proof CR as (-> & _ & _).
  split; [intros H B|intro H]; [|destruct (Nat.ltb_spec i m); auto; lia].
  destruct (Nat.ltb_spec i m); [|lia].
  rewrite (row4_unparam_neg prec t) by (first [apply mplus_a | pose proof (zrow_asum i H); lia]).
  now rewrite zrow_sum.
Qed.

Lemma zrow_abs i : (i < m)%nat -> Z.abs (dotrow (pattern ts) i x) <= Z.of_nat (rowlen ts i) * c.
Proof. intro H. rewrite <- zrow_sum by auto. eapply Z.le_trans; [apply asum_sum|]. now apply zrow_asum. Qed.
End Zo.
