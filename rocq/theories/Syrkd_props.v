(** * Property C46, delayed reductions over the integers *)
From Coq Require Import ZArith Znumtheory Lia.
From Verif Require Import Delayed_model Delayed_spec Delayed_proofs Syrkd_model Syrkd_proofs.
Open Scope Z_scope.

(** Missing: the opposite triangle when alpha is neither 1 nor -1, or k = 0,
    refuted below; operands without [headroom], as for fgemm (C07). *)
Theorem C46_delayed_exact_partial F prec ord upper n k alpha A beta C :
  wf F -> prime (fp F) -> 0 < prec -> (forall i j, fair (ord i j)) ->
  (forall i l, (i < n)%nat -> (l < k)%nat -> reduced (fp F) (flo F) (A i l)) ->
  (forall i j, (i < n)%nat -> (j < n)%nat -> in_tri upper i j = true -> reduced (fp F) (flo F) (C i j)) ->
  reduced (fp F) (flo F) alpha -> reduced (fp F) (flo F) beta ->
  headroom F prec k beta ->
  forall i j, (i < n)%nat -> (j < n)%nat -> in_tri upper i j = true ->
     is_repr (fp F) (flo F) (alpha * Zsum (fun l => A i l * A j l) k + beta * C i j)
       (fsyrk_delayed F prec ord upper n k alpha A beta C i j).
Proof. exact (fsyrk_delayed_ok F prec ord upper n k alpha A beta C). Qed.
Print Assumptions C46_delayed_exact_partial.

Theorem C46_delayed_frame_partial F prec ord upper n k alpha A beta C i j :
  (~ ((i < n)%nat /\ (j < n)%nat) ->
     fsyrk_delayed F prec ord upper n k alpha A beta C i j = C i j) /\
  ((0 < k)%nat -> alpha <> 0 -> alpha = canon F 1 \/ alpha = canon F (-1) -> in_tri upper i j = false ->
     fsyrk_delayed F prec ord upper n k alpha A beta C i j = C i j).
Proof. exact (fsyrk_delayed_frame F prec ord upper n k alpha A beta C i j). Qed.
Print Assumptions C46_delayed_frame_partial.

(** After a multiplication by alpha the other triangle is not even reduced. *)
Theorem C46_delayed_unreduced_refuted : exists F prec n k alpha A beta C i j,
  wf F /\ prime (fp F) /\ prec = 24 /\ (forall i l, reduced (fp F) (flo F) (A i l)) /\
  (forall i j, reduced (fp F) (flo F) (C i j)) /\ reduced (fp F) (flo F) alpha /\ alpha <> 0 /\
  reduced (fp F) (flo F) beta /\ (i < n)%nat /\ (j < n)%nat /\ in_tri true i j = false /\
  ~ reduced (fp F) (flo F) (fsyrk_delayed F prec (fun _ _ => ltr) true n k alpha A beta C i j).
Proof. exact other_scaled. Qed.
Print Assumptions C46_delayed_unreduced_refuted.

Theorem C46_delayed_empty_refuted : exists F prec n alpha A beta C i j,
  wf F /\ prime (fp F) /\ prec = 24 /\
  (forall i j, reduced (fp F) (flo F) (C i j)) /\ reduced (fp F) (flo F) alpha /\ alpha <> 0 /\
  reduced (fp F) (flo F) beta /\ (i < n)%nat /\ (j < n)%nat /\ in_tri true i j = false /\
  fsyrk_delayed F prec (fun _ _ => ltr) true n 0 alpha A beta C i j <> C i j.
Proof. exact zero_scales_all. Qed.
Print Assumptions C46_delayed_empty_refuted.

(** p = 2039 on 24 bits: blocks of four products. *)
Example C46_delayed_example :
  let A i l := Z.of_nat (2038 - 7 * i - l)%nat in
  fsyrk_delayed (modular 2039) 24 (fun _ _ => ltr) true 2 9 5 A 2038 (fun _ _ => 2000) 0%nat 1%nat
    = (5 * Zsum (fun l => A 0%nat l * A 1%nat l) 9 - 2000) mod 2039 /\
  headroom (modular 2039) 24 9 2038.
Proof. split; [vm_compute; reflexivity|]. intro E; discriminate E. Qed.
