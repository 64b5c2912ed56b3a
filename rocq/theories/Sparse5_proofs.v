(** * Proofs for the sparse products: statements as given in Sparse_props *)
From Coq Require Import ZArith List Lia Bool Psatz Sorting.Sorted Permutation.
From Verif Require Import Delayed_model Delayed_spec Delayed_proofs Sparse_model Sparse_spec Sparse_proofs
  Sparse2_proofs Sparse3_proofs Sparse2_model Sparse4_proofs.
Import ListNotations.
Open Scope Z_scope.

Lemma init_vin half F prec m n ts x beta y : setting half F prec m n ts x beta y -> vin F m (init_y F m beta y).
Proof.
  intros (FT & SO & IM & VX & B & V & HM) i Hi.
  apply (proj1 (init_y_ok F m beta y (ft_wf _ _ _ FT) B V) i Hi).
Qed.

Lemma csr_ok g half F prec fma m n ts x beta y : setting half F prec m n ts x beta y ->
  exists r, fspmv fCSR g half F prec fma m ts x beta y = Some r /\ spmv_ok F m ts 1 x beta y r.
Proof.
  intro S. pose proof (init_vin _ _ _ _ _ _ _ _ _ S) as VI. destruct S as (FT & SO & IM & VX & B & V & HM).
  destruct (csr_init_some half F prec m ts HM) as [A HA]. unfold fspmv. rewrite HA.
  destruct (csr_init_rep _ _ _ _ _ _ HA) as (CR & CD & _). pose proof (ft_wf _ _ _ FT) as W.
  eexists; split; [reflexivity|]. destruct g; apply assemble; auto.
  - intros i Hi. rewrite Z.mul_1_l. apply (csr_generic_ok half F prec FT m ts x SO A CR CD _ i), Hi.
  - intros i Hi. apply (csr_generic_ok half F prec FT m ts x SO A CR CD _ i), Hi.
  - intros i Hi. rewrite Z.mul_1_l. apply (csr_modular_ok half F prec fma FT m n ts x IM VX SO A _ HA VI), Hi.
  - intros i Hi. apply (csr_modular_ok half F prec fma FT m n ts x IM VX SO A _ HA VI), Hi.
Qed.

Lemma ell_ok g half F prec fma m n ts x beta y : setting half F prec m n ts x beta y -> ts <> [] ->
  exists r, fspmv fELL g half F prec fma m ts x beta y = Some r /\ spmv_ok F m ts 1 x beta y r.
Proof.
  intros S NE. pose proof (init_vin _ _ _ _ _ _ _ _ _ S) as VI. destruct S as (FT & SO & IM & VX & B & V & HM).
  destruct (ell_init_some half F prec m n ts IM SO HM NE) as [A HA]. unfold fspmv. rewrite HA.
  pose proof (ft_wf _ _ _ FT) as W.
  eexists; split; [reflexivity|]. destruct g; apply assemble; auto.
  - intros i Hi. rewrite Z.mul_1_l. apply (ell_generic_ok half F prec FT m n ts x IM VX SO A _ HA), Hi.
  - intros i Hi. apply (ell_generic_ok half F prec FT m n ts x IM VX SO A _ HA), Hi.
  - intros i Hi. rewrite Z.mul_1_l. apply (ell_modular_ok half F prec fma FT m n ts x IM VX SO A _ HA VI), Hi.
  - intros i Hi. apply (ell_modular_ok half F prec fma FT m n ts x IM VX SO A _ HA VI), Hi.
Qed.

Lemma hyb_ok g half F prec fma m n ts x beta y : setting half F prec m n ts x beta y ->
  (g = Modular_ -> forall i, (i < m)%nat -> Z.of_nat (rowlen ts i) * (factor half F * factor half F) + factor half F <= 2 ^ prec) ->
  exists r, fspmv fHYB g half F prec fma m ts x beta y = Some r /\ spmv_ok F m ts 1 x beta y r.
Proof.
  intros S HB. pose proof (init_vin _ _ _ _ _ _ _ _ _ S) as VI. destruct S as (FT & SO & IM & VX & B & V & HM).
  destruct (hyb_init_some half F prec m ts HM) as [A HA]. unfold fspmv. rewrite HA.
  pose proof (ft_wf _ _ _ FT) as W.
  eexists; split; [reflexivity|]. destruct g; apply assemble; auto.
  - intros i Hi. rewrite Z.mul_1_l. apply (hyb_generic_ok half F prec FT m n ts x IM VX SO A _ HA VI), Hi.
  - intros i Hi. apply (hyb_generic_ok half F prec FT m n ts x IM VX SO A _ HA VI), Hi.
  - intros i Hi. rewrite Z.mul_1_l. apply (hyb_modular_ok half F prec fma FT m n ts x IM VX SO A _ HA VI (HB eq_refl)), Hi.
  - intros i Hi. apply (hyb_modular_ok half F prec fma FT m n ts x IM VX SO A _ HA VI (HB eq_refl)), Hi.
Qed.

Lemma max_row_in m rows M : max_row m rows = Some M -> exists i, (i < m)%nat /\ M = rows i.
Proof.
  unfold max_row, max_element. destruct m as [|k]; cbn [seq map]; [discriminate|]. intros [= EM].
  assert (G : forall l a, In (fold_left (fun g b => if (g <? b)%nat then b else g) l a) (a :: l)).
  { induction l as [|b l IH]; intro a; cbn [fold_left]; [now left|].
    specialize (IH (if (a <? b)%nat then b else a)). destruct (a <? b)%nat; [now right|].
    destruct IH as [I|I]; [left; exact I|right; right; exact I]. }
  specialize (G (map rows (seq 1 k)) (rows 0%nat)). rewrite EM in G. destruct G as [G|G].
  - exists 0%nat. split; [lia|]. now rewrite <- G.
  - apply in_map_iff in G. destruct G as [i [G Hi]]. apply in_seq in Hi. exists i. split; [lia|]. now rewrite <- G.
Qed.

Lemma coo_ok g half F prec fma m n ts x beta y : setting half F prec m n ts x beta y ->
  (g = Modular_ -> forall i, (i < m)%nat -> (rowlen ts i < dotbound half F prec)%nat) ->
  exists r, fspmv fCOO g half F prec fma m ts x beta y = Some r /\ spmv_ok F m ts 1 x beta y r.
Proof.
  intros S HB. pose proof (init_vin _ _ _ _ _ _ _ _ _ S) as VI. destruct S as (FT & SO & IM & VX & B & V & HM).
  unfold fspmv, coo_init. destruct (max_row_some m (count_rows ts) HM) as [M EM]. rewrite EM.
  pose proof (ft_wf _ _ _ FT) as W. set (z := init_y F m beta y) in *.
  eexists; split; [reflexivity|]. destruct g; apply assemble; auto; fold z.
  - intros i Hi. rewrite Z.mul_1_l. destruct (coo_generic_fold half F prec FT x ts z) as (H1 & H2 & _).
    destruct (H1 i) as [q Q]. specialize (H2 i (VI i Hi)). unfold fhi in H2. split; [|exists q; exact Q].
    unfold coo_generic in *. cbn [oo_ts] in *. lia.
  - intros i Hi. destruct (coo_generic_fold half F prec FT x ts z) as (_ & _ & H3). apply H3.
    apply (rowlen_out F m n ts IM i Hi).
  - assert (MB : (M <? dotbound half F prec)%nat = true).
    { apply Nat.ltb_lt. destruct (max_row_in _ _ _ EM) as [i [Hi ->]]. rewrite count_rows_ok. now apply HB. }
    intros i Hi. rewrite Z.mul_1_l. unfold coo_modular. cbn [oo_delayed oo_m]. rewrite MB. unfold freduce_vec. rewrite rows_do_at.
    destruct (Nat.ltb_spec i m); [|lia].
    pose proof (coo_unparam_fold half F prec fma FT m n ts x IM VX ts ltac:(now apply Forall_forall) z i) as U.
    unfold coo_unparam in *. cbn [oo_ts] in *. rewrite U; [apply is_repr_canon; auto|].
    pose proof (delayed_bound half F prec FT _ (proj2 (Nat.ltb_lt _ _) (HB eq_refl i Hi))).
    pose proof (ft_reduced half F prec FT _ (VI i Hi)). lia.
  - intros i Hi. unfold coo_modular. cbn [oo_delayed oo_m].
    destruct (Nat.ltb_spec M (dotbound half F prec)) as [L|L].
    + unfold freduce_vec. rewrite rows_do_at. destruct (Nat.ltb_spec i m); [lia|].
      apply (coo_unparam_out F prec fma m n ts x IM z i Hi).
    + exfalso. destruct (max_row_in _ _ _ EM) as [j [Hj ->]]. rewrite count_rows_ok in L. specialize (HB eq_refl j Hj). lia.
Qed.

Lemma spmv_ok_unique F m ts k x beta y r r' : wf F -> spmv_ok F m ts k x beta y r -> spmv_ok F m ts k x beta y r' ->
  forall i, r i = r' i.
Proof.
  intros W [A1 A2] [B1 B2] i. destruct (le_lt_dec m i) as [H|H].
  - now rewrite A2, B2.
  - pose proof (proj1 (is_repr_canon F _ _ W) (A1 i H)) as E1. pose proof (proj1 (is_repr_canon F _ _ W) (B1 i H)) as E2. congruence.
Qed.

Lemma zo_ok g half F prec k m n ts x beta y : setting half F prec m n ts x beta y -> k = 1 \/ k = -1 ->
  (g = Modular_ -> forall i, (i < m)%nat -> Z.of_nat (rowlen ts i) * factor half F + factor half F <= 2 ^ prec) ->
  exists r, fspmv_zo g F prec k m ts x beta y = Some r /\ spmv_ok F m (pattern ts) k x beta y r.
Proof.
  intros S HK HB. pose proof (init_vin _ _ _ _ _ _ _ _ _ S) as VI. destruct S as (FT & SO & IM & VX & B & V & HM).
  destruct (csr_zo_init_some m ts HM) as [A HA]. unfold fspmv_zo. rewrite HA.
  pose proof (ft_wf _ _ _ FT) as W.
  eexists; split; [reflexivity|]. destruct g; apply assemble; auto.
  - apply (csr_zo_generic_ok half F prec FT m n ts x IM VX SO A k _ HA HK).
  - apply (csr_zo_generic_ok half F prec FT m n ts x IM VX SO A k _ HA HK).
  - apply (csr_zo_modular_ok half F prec FT m n ts x IM VX SO A k _ HA HK VI (HB eq_refl)).
  - apply (csr_zo_modular_ok half F prec FT m n ts x IM VX SO A k _ HA HK VI (HB eq_refl)).
Qed.

Lemma spmm_csr_ok g half F prec fma m n ts b x ldx beta y ldy :
  setting2 half F prec m n ts b x ldx beta y ldy -> good_beta F m beta ldy ->
  exists r, fspmm g half F prec fma m ts b x ldx beta y ldy = Some r /\ spmm_ok F m ts 1 b x ldx beta y ldy r.
Proof.
  intros (FT & SO & IM & VX & LY & B & V & HM) GB.
  destruct (csr_init_some half F prec m ts HM) as [A HA]. unfold fspmm. rewrite HA.
  pose proof (ft_wf _ _ _ FT) as W. eexists; split; [reflexivity|]. apply assemble2; auto. intro VI. destruct g.
  - destruct (spmm_generic_ok half F prec FT m n ts b ldx ldy x SO VX LY A HA (init_y2 F m b beta y ldy)) as [H1 H2].
    split; [|exact H2]. intros i k Hi Hk. rewrite Z.mul_1_l. apply H1; auto.
  - destruct (spmm_modular_ok half F prec fma FT m n ts b ldx ldy x SO IM VX LY A HA _ VI) as [H1 H2].
    split; [|exact H2]. intros i k Hi Hk. rewrite Z.mul_1_l. apply H1; auto.
Qed.

Lemma spmm_zo_ok half F prec k m n ts b x ldx beta y ldy :
  setting2 half F prec m n ts b x ldx beta y ldy -> good_beta F m beta ldy -> k = 1 \/ k = -1 ->
  exists r, fspmm_zo Generic F prec k m ts b x ldx beta y ldy = Some r /\ spmm_ok F m (pattern ts) k b x ldx beta y ldy r.
Proof.
  intros (FT & SO & IM & VX & LY & B & V & HM) GB HK.
  destruct (csr_zo_init_some m ts HM) as [A HA]. unfold fspmm_zo. rewrite HA.
  pose proof (ft_wf _ _ _ FT) as W. eexists; split; [reflexivity|]. apply assemble2; auto. intro VI.
  destruct (spmm_zo_generic_ok half F prec FT m n ts b ldx ldy x SO IM VX LY A HA k (init_y2 F m b beta y ldy) HK) as [H1 H2].
  split; [|exact H2]. intros i j Hi Hj. apply H1; auto.
Qed.

Lemma generic_ok f half F prec fma m n ts x beta y : setting half F prec m n ts x beta y ->
  (f = fELL -> ts <> []) ->
  exists r, fspmv f Generic half F prec fma m ts x beta y = Some r /\ spmv_ok F m ts 1 x beta y r.
Proof.
  intros S H. destruct f; [eapply csr_ok|eapply coo_ok|eapply ell_ok|eapply hyb_ok]; eauto; discriminate.
Qed.
Lemma modular_ok f half F prec fma m n ts x beta y : setting half F prec m n ts x beta y ->
  (f = fELL -> ts <> []) ->
  (f = fCOO -> forall i, (i < m)%nat -> (rowlen ts i < dotbound half F prec)%nat) ->
  (f = fHYB -> forall i, (i < m)%nat ->
     Z.of_nat (rowlen ts i) * (factor half F * factor half F) + factor half F <= 2 ^ prec) ->
  exists r, fspmv f Modular_ half F prec fma m ts x beta y = Some r /\ spmv_ok F m ts 1 x beta y r.
Proof.
  intros S H1 H2 H3. destruct f; [eapply csr_ok|eapply coo_ok|eapply ell_ok|eapply hyb_ok]; eauto.
Qed.
Lemma agree f f' half F prec fma m n ts x beta y : setting half F prec m n ts x beta y -> ts <> [] ->
  exists r r', fspmv f Generic half F prec fma m ts x beta y = Some r /\
    fspmv f' Generic half F prec fma m ts x beta y = Some r' /\ forall i, r i = r' i.
Proof.
  intros S H. destruct (generic_ok f half F prec fma m n ts x beta y S (fun _ => H)) as [r [E1 R1]].
  destruct (generic_ok f' half F prec fma m n ts x beta y S (fun _ => H)) as [r' [E2 R2]].
  exists r, r'. split; [auto|]. split; [auto|]. eapply spmv_ok_unique; eauto. apply S.
Qed.

(** ** Counterexamples *)
Lemma one_row_sorted (l : list trip) : Forall (fun t => ro t = 0%nat) l -> row_sorted l.
Proof.
  induction l as [|t l IH]; intro H; constructor; inversion H; subst; [now apply IH|].
  rewrite Forall_forall in *. intros u Hu. rewrite (H3 u Hu), H2. lia.
Qed.
(** one row with n entries v *)
Definition longrow (n : nat) (v : Z) : list trip := map (fun j => T3 0 j v) (seq 0 n).
Lemma longrow_sorted n v : row_sorted (longrow n v).
Proof. apply one_row_sorted. apply Forall_forall. intros t H. apply in_map_iff in H. destruct H as [j [<- _]]. reflexivity. Qed.
Lemma longrow_in F n v : flo F <= v <= fhi F -> in_matrix F 1 n (longrow n v).
Proof.
  intro H. apply Forall_forall. intros t Ht. apply in_map_iff in Ht. destruct Ht as [j [<- Hj]].
  apply in_seq in Hj. cbn. lia.
Qed.

Definition p2039 := modular 2039.
Lemma fits2039 : fits false p2039 24.
Proof. split; [split; cbn; lia|]. split; [lia|]. split; [discriminate|]. cbn. lia. Qed.

Lemma longrow_setting n v x : 0 <= v <= 2038 -> (forall i, 0 <= x i <= 2038) ->
  setting false p2039 24 1 n (longrow n v) x 0 (fun _ => 0).
Proof.
  intros Hv Hx. split; [apply fits2039|]. split; [apply longrow_sorted|].
  split; [apply longrow_in; cbn; lia|]. split; [intros i _; specialize (Hx i); cbn; lia|].
  split; [cbn; lia|]. split; [auto|lia].
Qed.

(** COO: four entries in a row, the result is not reduced. *)
Lemma coo_unreduced : exists half F prec fma m n ts x beta y r, setting half F prec m n ts x beta y /\
  fspmv fCOO Modular_ half F prec fma m ts x beta y = Some r /\ ~ flo F <= r 0%nat <= fhi F.
Proof.
  exists false, p2039, 24, false, 1%nat, 4%nat, (longrow 4 2037), (fun _ => 2037), 0, (fun _ => 0). eexists.
  split; [apply longrow_setting; intros; lia|]. split; [reflexivity|]. vm_compute. intros [_ H]. apply H. reflexivity.
Qed.
(** COO: five entries, the result is not even congruent. *)
Lemma coo_wrong : exists half F prec fma m n ts x beta y r, setting half F prec m n ts x beta y /\
  fspmv fCOO Modular_ half F prec fma m ts x beta y = Some r /\ ~ congr (fp F) (r 0%nat) (dotrow ts 0 x + beta * y 0%nat).
Proof.
  exists false, p2039, 24, false, 1%nat, 5%nat, (longrow 5 2037), (fun _ => 2037), 0, (fun _ => 0). eexists.
  split; [apply longrow_setting; intros; lia|]. split; [reflexivity|].
  intros [q H]. revert H.
  match goal with |- ?a - ?b = _ -> _ => let a' := eval vm_compute in a in let b' := eval vm_compute in b in
    replace a with a' by (vm_compute; reflexivity); replace b with b' by (vm_compute; reflexivity) end.
  cbn [fp p2039 modular]. lia.
Qed.
(** HYB_ZO: nine entries. *)
Lemma hyb_wrong : exists half F prec fma m n ts x beta y r, setting half F prec m n ts x beta y /\
  fspmv fHYB Modular_ half F prec fma m ts x beta y = Some r /\ ~ congr (fp F) (r 0%nat) (dotrow ts 0 x + beta * y 0%nat).
Proof.
  exists false, p2039, 24, false, 1%nat, 9%nat, (longrow 9 2037), (fun _ => 2037), 0, (fun _ => 0). eexists.
  split; [apply longrow_setting; intros; lia|]. split; [reflexivity|].
  intros [q H]. revert H.
  match goal with |- ?a - ?b = _ -> _ => let a' := eval vm_compute in a in let b' := eval vm_compute in b in
    replace a with a' by (vm_compute; reflexivity); replace b with b' by (vm_compute; reflexivity) end.
  cbn [fp p2039 modular]. lia.
Qed.

Lemma ell_empty : exists half F prec fma m n ts x beta y, setting half F prec m n ts x beta y /\
  fspmv fELL Generic half F prec fma m ts x beta y = None.
Proof.
  exists false, p2039, 24, false, 2%nat, 3%nat, [], (fun _ => 7), 1, (fun _ => 5).
  split; [|reflexivity]. split; [apply fits2039|]. split; [constructor|]. split; [constructor|].
  split; [intros i _; cbn; lia|]. split; [cbn; lia|]. split; [right; intros i _; cbn; lia|lia].
Qed.

(** CSR_ZO: the constant is ignored. *)
Lemma zo_cst : exists half F prec m n ts x beta y k r, setting half F prec m n ts x beta y /\ flo F <= k <= fhi F /\
  fspmv_zo Generic F prec k m ts x beta y = Some r /\ ~ spmv_ok F m (pattern ts) k x beta y r.
Proof.
  exists false, p2039, 24, 1%nat, 1%nat, (longrow 1 1), (fun _ => 5), 0, (fun _ => 0), 3. eexists.
  split; [apply longrow_setting; intros; lia|]. split; [cbn; lia|]. split; [reflexivity|].
  intros [H _]. specialize (H 0%nat ltac:(lia)). destruct H as [_ [q H]]. revert H. 
  match goal with |- ?a - ?b = _ -> _ => let a' := eval vm_compute in a in let b' := eval vm_compute in b in
    replace a with a' by (vm_compute; reflexivity); replace b with b' by (vm_compute; reflexivity) end.
  cbn [fp p2039 modular]. lia.
Qed.

(** CSR_ZO over Modular<float>(4093): 4201 entries in one row. *)
Definition p4093 := modular 4093.
Lemma zo_overflow : exists half F prec m n ts x beta y r, setting half F prec m n ts x beta y /\
  fspmv_zo Modular_ F prec 1 m ts x beta y = Some r /\ ~ congr (fp F) (r 0%nat) (dotrow (pattern ts) 0 x + beta * y 0%nat).
Proof.
  exists false, p4093, 24, 1%nat, 4201%nat, (longrow 4201 1), (fun i => if (i =? 0)%nat then 4091 else 4092), 0, (fun _ => 0). eexists.
  split; [|split; [reflexivity|]].
  - split; [split; [split; cbn; lia|]; split; [lia|]; split; [discriminate|]; cbn; lia|].
    split; [apply longrow_sorted|]. split; [apply longrow_in; cbn; lia|].
    split; [intros i _; destruct (i =? 0)%nat; cbn; lia|]. split; [cbn; lia|]. split; [auto|lia].
  - intros [q H]. revert H.
    match goal with |- ?a - ?b = _ -> _ => let a' := eval vm_compute in a in let b' := eval vm_compute in b in
      replace a with a' by (vm_compute; reflexivity); replace b with b' by (vm_compute; reflexivity) end.
    cbn [fp p4093 modular]. lia.
Qed.

(** ELL_ZO: the padding of the shorter row adds x[0]. *)
Lemma ell_zo_padding : exists half F prec m n ts x beta y r, setting half F prec m n ts x beta y /\
  fspmv_ell_one half F prec m ts x (init_y F m beta y) = Some r /\ ~ spmv_ok F m (pattern ts) 1 x beta y r.
Proof.
  exists false, p2039, 24, 2%nat, 3%nat, [T3 0 1 1; T3 0 2 1; T3 1 1 1], (fun _ => 1), 0, (fun _ => 0). eexists.
  split; [|split; [reflexivity|]].
  - split; [apply fits2039|]. split; [repeat constructor|]. split; [repeat constructor; cbn; lia|].
    split; [intros i _; cbn; lia|]. split; [cbn; lia|]. split; [auto|lia].
  - intros [H _]. specialize (H 1%nat ltac:(lia)). destruct H as [_ [q H]]. revert H. 
    match goal with |- ?a - ?b = _ -> _ => let a' := eval vm_compute in a in let b' := eval vm_compute in b in
      replace a with a' by (vm_compute; reflexivity); replace b with b' by (vm_compute; reflexivity) end.
    cbn [fp p2039 modular]. lia.
Qed.

(** fspmm of a CSR_ZO matrix, ModularTag: row 1 is left unreduced and a cell
    outside the window is overwritten. *)
Lemma spmm_zo_window : exists half F prec m n ts b x ldx beta y ldy r, setting2 half F prec m n ts b x ldx beta y ldy /\
  fspmm_zo Modular_ F prec 1 m ts b x ldx beta y ldy = Some r /\
  (exists i k, (i < m)%nat /\ (k < b)%nat /\ ~ flo F <= r (i * ldy + k)%nat <= fhi F) /\
  (exists q, ~ inside m b ldy q /\ r q <> y q).
Proof.
  exists false, p2039, 24, 2%nat, 2%nat, [T3 1 0 1; T3 1 1 1], 1%nat, (fun _ => 2000), 1%nat, 0,
    (fun q => if (q =? 1)%nat then 5000 else 0), 2%nat. eexists.
  split; [|split; [reflexivity|split]].
  - split; [apply fits2039|]. split; [repeat constructor|]. split; [repeat constructor; cbn; lia|].
    split; [intros i j _ _; cbn; lia|]. split; [lia|]. split; [cbn; lia|]. split; [auto|lia].
  - exists 1%nat, 0%nat. split; [lia|]. split; [lia|]. vm_compute. intros [_ H]. now apply H.
  - exists 1%nat. split; [|vm_compute; discriminate]. intros (i & k & H1 & H2 & H3). lia.
Qed.

(** init_y on a block: beta = -1 with ldy = 2. *)
Lemma spmm_beta : exists half F prec fma m n ts b x ldx beta y ldy r, setting2 half F prec m n ts b x ldx beta y ldy /\
  fspmm Generic half F prec fma m ts b x ldx beta y ldy = Some r /\ ~ spmm_ok F m ts 1 b x ldx beta y ldy r.
Proof.
  exists false, p2039, 24, false, 2%nat, 1%nat, [T3 0 0 0], 2%nat, (fun _ => 0), 2%nat, 2038, (fun _ => 1), 2%nat. eexists.
  split; [|split; [reflexivity|]].
  - split; [apply fits2039|]. split; [repeat constructor|]. split; [repeat constructor; cbn; lia|].
    split; [intros i j _ _; cbn; lia|]. split; [lia|]. split; [cbn; lia|]. split; [right; intros i j _ _; cbn; lia|lia].
  - intros [H _]. specialize (H 1%nat 1%nat ltac:(lia) ltac:(lia)). destruct H as [_ [q H]]. revert H.
    match goal with |- ?a - ?b = _ -> _ => let a' := eval vm_compute in a in let b' := eval vm_compute in b in
      replace a with a' by (vm_compute; reflexivity); replace b with b' by (vm_compute; reflexivity) end.
    cbn [fp p2039 modular]. lia.
Qed.

(** *** SELL *)
Lemma ins_perm a l : Permutation (a :: l) (ins a l).
Proof.
  induction l as [|b l IH]; cbn; [auto|]. destruct (bysize a b); [auto|].
  eapply perm_trans; [apply perm_swap|]. now apply perm_skip.
Qed.
Lemma isort_perm l : Permutation l (isort l).
Proof.
  unfold isort. assert (G : forall l s, Permutation (l ++ s) (fold_left (fun s a => ins a s) l s)).
  { induction l0 as [|a l0 IH]; intro s; cbn [fold_left app]; [auto|].
    eapply perm_trans; [|apply IH]. eapply perm_trans; [apply Permutation_middle|].
    apply Permutation_app_head, ins_perm. }
  specialize (G l []). now rewrite app_nil_r in G.
Qed.

(** [ts] has a row of 9 entries; the reduction-free product is chosen and wrong
    modulo p, SIMD kernel with chunks of 8 floats. *)
Lemma sell_delayed_wrong : exists half F prec chunk m n ts x y A, setting half F prec m n ts x 1 y /\
  sell_init isort half F prec chunk 0 m ts = Some A /\ sdelayed A = true /\
  (exists i, (i < m)%nat /\ (dotbound half F prec < rowlen ts i)%nat) /\
  ~ congr (fp F) (sell_delayed F prec true A x true y 0%nat) (dotrow ts 0 x + 1 * y 0%nat).
Proof.
  exists false, p2039, 24, 8%nat, 1%nat, 9%nat, (longrow 9 2037), (fun _ => 2037), (fun _ => 0). eexists.
  split.
  - destruct (longrow_setting 9 2037 (fun _ => 2037) ltac:(lia) ltac:(intros; lia)) as (S1 & S2 & S3 & S4 & _ & _ & S7).
    repeat (split; [assumption|]). split; [cbn; lia|]. split; [right; intros i _; cbn; lia|lia].
  - split; [reflexivity|]. split; [reflexivity|]. split; [exists 0%nat; split; [lia|]; vm_compute; lia|].
    intros [q H]. revert H.
    match goal with |- ?a - ?b = _ -> _ => let a' := eval vm_compute in a in let b' := eval vm_compute in b in
      replace a with a' by (vm_compute; reflexivity); replace b with b' by (vm_compute; reflexivity) end.
    cbn [fp p2039 modular]. lia.
Qed.

(** The rows of the result are permuted: 2 x 2 identity. *)
Lemma sell_order : exists half F prec chunk m n ts x y A, setting half F prec m n ts x 1 y /\
  sell_init isort half F prec chunk 0 m ts = Some A /\
  ~ spmv_ok F m ts 1 x 1 y (sell_generic F A x y).
Proof.
  exists false, p2039, 24, 2%nat, 2%nat, 2%nat, [T3 0 0 1; T3 1 1 1], (fun i => Z.of_nat i), (fun _ => 0). eexists.
  split; [|split; [reflexivity|]].
  - split; [apply fits2039|]. split; [repeat constructor|]. split; [repeat constructor; cbn; lia|].
    split; [intros i Hi; cbn; lia|]. split; [cbn; lia|]. split; [right; intros i _; cbn; lia|lia].
  - intros [H _]. specialize (H 0%nat ltac:(lia)). destruct H as [_ [q H]]. revert H.
    match goal with |- ?a - ?b = _ -> _ => let a' := eval vm_compute in a in let b' := eval vm_compute in b in
      replace a with a' by (vm_compute; reflexivity); replace b with b' by (vm_compute; reflexivity) end.
    cbn [fp p2039 modular]. lia.
Qed.

(** sigma = 2, three rows in chunks of 4: the fourth, padding, record is sorted
    in front of row 2. *)
Lemma sell_sigma : exists half F prec chunk sigma m n ts A, in_matrix F m n ts /\
  sell_init isort half F prec chunk sigma m ts = Some A /\
  ~ (forall q, (q < m)%nat -> sperm A (iperm (nth q (sinfos A) info0)) = q).
Proof.
  exists false, p2039, 24, 4%nat, 2%nat, 3%nat, 1%nat, [T3 0 0 1; T3 1 0 1]. eexists.
  split; [repeat constructor; cbn; lia|]. split; [reflexivity|].
  intro H. specialize (H 1%nat ltac:(lia)). vm_compute in H. discriminate.
Qed.

(** Without SIMD, chunk = 8: sixteen rows of nine entries 1, x = 1. *)
Definition block16 : list trip := flat_map (fun i => map (fun j => T3 i j 1) (seq 0 9)) (seq 0 16).
Lemma sell_nosimd : exists half F prec chunk m n ts x y A, in_matrix F m n ts /\
  sell_init isort half F prec chunk 0 m ts = Some A /\ sdelayed A = true /\
  (forall i, (i < m)%nat -> dotrow ts i x = 9 /\ y i = 0) /\ sell_delayed F prec true A x false y 8%nat <> 9.
Proof.
  assert (H : match sell_init isort false (modular 101) 24 8 0 16 block16 with
    | Some A => sdelayed A && negb (sell_delayed (modular 101) 24 true A (fun _ => 1) false (fun _ => 0) 8%nat =? 9)
    | None => false end = true) by (vm_compute; reflexivity).
  destruct (sell_init isort false (modular 101) 24 8 0 16 block16) as [A|] eqn:E; [|discriminate].
  apply andb_true_iff in H. destruct H as [H1 H2].
  exists false, (modular 101), 24, 8%nat, 16%nat, 9%nat, block16, (fun _ => 1), (fun _ => 0), A.
  split; [|split; [exact E|split; [exact H1|split]]].
  - apply Forall_forall. intros t H. apply in_flat_map in H. destruct H as [i [Hi H]]. apply in_map_iff in H.
    destruct H as [j [<- Hj]]. apply in_seq in Hi, Hj. cbn. lia.
  - intros i Hi. split; [|reflexivity]. do 16 (destruct i as [|i]; [reflexivity|]). lia.
  - intro K. rewrite K in H2. discriminate.
Qed.
