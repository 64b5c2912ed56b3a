(** * Proofs about fsyrk with delayed reductions *)
From Coq Require Import ZArith Znumtheory List Bool Lia.
From Verif Require Import Delayed_model Delayed_spec Delayed_proofs Syrkd_model.
Import ListNotations.
Open Scope Z_scope.

Lemma syrk_entry_ok F prec ord alpha a b k beta c :
  wf F -> prime (fp F) -> 0 < prec -> fair ord ->
  vin F k a -> vin F k b -> flo F <= c <= fhi F -> flo F <= alpha <= fhi F -> alpha <> 0 ->
  flo F <= beta <= fhi F -> (0 < k)%nat -> headroom F prec k beta ->
  syrk_entry F prec ord alpha a b k beta c = canon F (alpha * dotr a b 0 k + beta * c).
Proof.
  intros W Hp Hprec Hf. intros.
  apply (entry_ok F prec ord W Hp Hprec Hf (syrk_default_entry F prec ord)); auto.
  clear - W Hprec Hf. intros alpha a b k beta c Ha Hb Hal Hn. split; [apply canon_range, W|].
  unfold syrk_default_entry. eapply congr_trans; [apply canon_congr, W|].
  apply congr_add; [|apply canon_congr, W]. apply congr_mul; [apply congr_refl|].
  destruct (fdot_delayed_ok F prec ord k a b W Hprec Hf Ha Hb) as [d [-> [_ [q Hq]]]].
  exists q. unfold dotr. rewrite <- Zsum_Zsumr. exact Hq.
Qed.

Lemma fsyrk_delayed_ok F prec ord upper n k alpha A beta C :
  wf F -> prime (fp F) -> 0 < prec -> (forall i j, fair (ord i j)) ->
  (forall i l, (i < n)%nat -> (l < k)%nat -> reduced (fp F) (flo F) (A i l)) ->
  (forall i j, (i < n)%nat -> (j < n)%nat -> in_tri upper i j = true -> reduced (fp F) (flo F) (C i j)) ->
  reduced (fp F) (flo F) alpha -> reduced (fp F) (flo F) beta ->
  headroom F prec k beta ->
  forall i j, (i < n)%nat -> (j < n)%nat -> in_tri upper i j = true ->
     is_repr (fp F) (flo F) (alpha * Zsum (fun l => A i l * A j l) k + beta * C i j)
       (fsyrk_delayed F prec ord upper n k alpha A beta C i j).
Proof.
  intros W Hp Hprec Hf HA HC Hal Hbe Hh i j Hi Hj T. unfold fsyrk_delayed.
  apply Nat.ltb_lt in Hi as Hi'. apply Nat.ltb_lt in Hj as Hj'. rewrite Hi', Hj', T. cbn [andb].
  apply is_repr_canon; auto.
  destruct (Nat.eqb_spec k 0) as [->|Hk]; cbn [orb].
  + cbn [Zsum]. f_equal. lia.
  + destruct (Z.eqb_spec alpha 0) as [->|Hn]; [f_equal; lia|].
    rewrite Zsum_Zsumr. apply syrk_entry_ok; auto; try lia.
    * intros l Hl. apply (HA i l); auto.
    * intros l Hl. apply (HA j l); auto.
    * apply (HC i j); auto.
Qed.

Lemma fsyrk_delayed_frame F prec ord upper n k alpha A beta C i j :
  (~ ((i < n)%nat /\ (j < n)%nat) ->
     fsyrk_delayed F prec ord upper n k alpha A beta C i j = C i j) /\
  ((0 < k)%nat -> alpha <> 0 -> alpha = canon F 1 \/ alpha = canon F (-1) -> in_tri upper i j = false ->
     fsyrk_delayed F prec ord upper n k alpha A beta C i j = C i j).
Proof.
  unfold fsyrk_delayed. split.
  - intro H. destruct (Nat.ltb_spec i n), (Nat.ltb_spec j n); cbn; auto. exfalso; auto.
  - intros Hk Hn H T. destruct ((i <? n)%nat && (j <? n)%nat); auto.
    destruct (Nat.eqb_spec k 0); [lia|]. destruct (Z.eqb_spec alpha 0); [contradiction|]. cbn [orb].
    rewrite T. unfold syrk_other_entry.
    destruct H as [-> | ->]; rewrite Z.eqb_refl, ?andb_false_r; reflexivity.
Qed.

(** 2x2, A = (1 1)^T, alpha = 2: the lower entry 2000 becomes 4000, outside
    the interval of the field. *)
Lemma other_scaled : exists F prec n k alpha A beta C i j,
  wf F /\ prime (fp F) /\ prec = 24 /\ (forall i l, reduced (fp F) (flo F) (A i l)) /\
  (forall i j, reduced (fp F) (flo F) (C i j)) /\ reduced (fp F) (flo F) alpha /\ alpha <> 0 /\
  reduced (fp F) (flo F) beta /\ (i < n)%nat /\ (j < n)%nat /\ in_tri true i j = false /\
  ~ reduced (fp F) (flo F) (fsyrk_delayed F prec (fun _ _ => ltr) true n k alpha A beta C i j).
Proof.
  exists (modular 2039), 24, 2%nat, 1%nat, 2, (fun _ _ => 1), 1, (fun _ _ => 2000), 1%nat, 0%nat.
  split; [split; cbn; lia|].
  split; [apply prime_by_gcd; [cbn; lia|vm_compute; reflexivity]|].
  split; [reflexivity|]. unfold reduced. cbn [modular fp flo]. repeat split; try lia.
  replace (fsyrk_delayed _ _ _ _ _ _ _ _ _ _ _ _) with 4000 by (vm_compute; reflexivity). lia.
Qed.

Lemma zero_scales_all : exists F prec n alpha A beta C i j,
  wf F /\ prime (fp F) /\ prec = 24 /\
  (forall i j, reduced (fp F) (flo F) (C i j)) /\ reduced (fp F) (flo F) alpha /\ alpha <> 0 /\
  reduced (fp F) (flo F) beta /\ (i < n)%nat /\ (j < n)%nat /\ in_tri true i j = false /\
  fsyrk_delayed F prec (fun _ _ => ltr) true n 0 alpha A beta C i j <> C i j.
Proof.
  exists (modular 2039), 24, 2%nat, 1, (fun _ _ => 1), 2, (fun _ _ => 2000), 1%nat, 0%nat.
  split; [split; cbn; lia|].
  split; [apply prime_by_gcd; [cbn; lia|vm_compute; reflexivity]|].
  split; [reflexivity|]. unfold reduced. cbn [modular fp flo]. repeat split; try lia.
  vm_compute. discriminate.
Qed.
