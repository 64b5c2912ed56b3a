(** * C06, C07, C08, C09: delayed reductions over floating-point storage *)
From Coq Require Import ZArith List Lia Znumtheory.
From Verif Require Import Delayed_model Delayed_spec Delayed_proofs.
Import ListNotations.
Open Scope Z_scope.

(** C06. For every length, field representation, mantissa size and summation
    order, the delayed dot product of reduced vectors terminates and returns
    the representative of the exact dot product. *)
Theorem C06_fdot_exact : forall F prec ord N x y,
  wf F -> 0 < prec -> fair ord -> vin F N x -> vin F N y ->
  exists d, fdot_delayed F prec ord N x y = Some d /\
    is_repr (fp F) (flo F) (Zsum (fun i => x i * y i) N) d.
Proof. exact fdot_delayed_ok. Qed.
Print Assumptions C06_fdot_exact.

(** A single-precision balanced field mod 1709, 50 worst-case terms: the
    blocks have 23 terms. *)
Example C06_case :
  fdot_delayed (balanced 1709) 24 ltr 50 (fun i => 854) (fun i => if Nat.even i then 854 else -853)
  = Some (canon (balanced 1709) (25 * 854 * 854 - 25 * 854 * 853))
  /\ max_storable 24 / (absmax (balanced 1709) * absmax (balanced 1709)) = 23.
Proof. vm_compute. split; reflexivity. Qed.

(** C07 as stated is false.  ModularBalanced<float> modulo 2273, inner
    dimension 14, beta = 0: the first block (one product) leaves 1135 in C,
    which is added to a full block of 13 products of 1136 * 1136: the exact
    sum 16777583 exceeds 2^24 and is rounded. *)
Theorem C07_fgemm_beta0_refuted : exists p prec k (A B C : nat -> nat -> Z),
  prime p /\ prec = 24 /\
  (forall i j, reduced p (flo (balanced p)) (A i j)) /\
  (forall i j, reduced p (flo (balanced p)) (B i j)) /\
  (forall i j, reduced p (flo (balanced p)) (C i j)) /\
  ~ is_repr p (flo (balanced p)) (1 * Zsum (fun l => A O l * B l O) k + 0 * C O O)
      (fgemm_delayed (balanced p) prec (fun _ _ => ltr) 1 1 k 1 A B 0 C O O).
Proof. exact fgemm_beta0_counterexample. Qed.
Print Assumptions C07_fgemm_beta0_refuted.

(** C07 under the head-room condition (always true when beta <> 0): entries of
    the m x n window are exact, others untouched.  Missing from the full
    statement: beta = 0 without head-room (refuted above). *)
Theorem C07_fgemm_exact_partial : forall F prec ord m n k alpha A B beta C,
  wf F -> prime (fp F) -> 0 < prec -> (forall i j, fair (ord i j)) ->
  (forall i l, (i < m)%nat -> (l < k)%nat -> reduced (fp F) (flo F) (A i l)) ->
  (forall l j, (l < k)%nat -> (j < n)%nat -> reduced (fp F) (flo F) (B l j)) ->
  (forall i j, (i < m)%nat -> (j < n)%nat -> reduced (fp F) (flo F) (C i j)) ->
  reduced (fp F) (flo F) alpha -> reduced (fp F) (flo F) beta ->
  headroom F prec k beta ->
  forall i j,
   ((i < m)%nat -> (j < n)%nat ->
     is_repr (fp F) (flo F) (alpha * Zsum (fun l => A i l * B l j) k + beta * C i j)
       (fgemm_delayed F prec ord m n k alpha A B beta C i j)) /\
   (~ ((i < m)%nat /\ (j < n)%nat) -> fgemm_delayed F prec ord m n k alpha A B beta C i j = C i j).
Proof. exact fgemm_delayed_ok. Qed.
Print Assumptions C07_fgemm_exact_partial.

(** Non-zero beta needs no extra condition. *)
Theorem C07_headroom_beta : forall F prec k beta, beta <> 0 -> headroom F prec k beta.
Proof. intros F prec k beta H E. contradiction. Qed.
Print Assumptions C07_headroom_beta.

(** The hypotheses are met by a double-precision field with beta = 0 and an
    unbounded inner dimension. *)
Example C07_case_headroom : forall k, headroom (modular 65521) 53 k 0.
Proof. intros k _. right. vm_compute. discriminate. Qed.
Example C07_case : fgemm_delayed (balanced 2273) 24 (fun _ _ => ltr) 1 1 27 3
   (fun _ _ => 1136) (fun _ _ => 1136) 5 (fun _ _ => -1) O O
  = canon (balanced 2273) (3 * (27 * (1136 * 1136)) + 5 * -1).
Proof. vm_compute. reflexivity. Qed.

(** C08 as stated is false: with A of 0 rows, transposed, Y is not scaled. *)
Theorem C08_fgemv_M0_refuted : exists F prec N alpha A X beta Y,
  wf F /\ prime (fp F) /\ reduced (fp F) (flo F) alpha /\ reduced (fp F) (flo F) beta /\
  reduced (fp F) (flo F) (Y O) /\ (0 < N)%nat /\
  ~ is_repr (fp F) (flo F) (alpha * Zsum (fun l => A l O * X l) 0 + beta * Y O)
      (fgemv F prec (fun _ => ltr) true 0 N alpha A X beta Y O).
Proof. exact fgemv_M0_counterexample. Qed.
Print Assumptions C08_fgemv_M0_refuted.

(** ... and with beta = 0 it overflows like fgemm. *)
Theorem C08_fgemv_beta0_refuted : exists p prec k (A : nat -> nat -> Z) (X Y : nat -> Z),
  prime p /\ prec = 24 /\
  (forall i j, reduced p (flo (balanced p)) (A i j)) /\
  (forall j, reduced p (flo (balanced p)) (X j)) /\
  (forall i, reduced p (flo (balanced p)) (Y i)) /\
  ~ is_repr p (flo (balanced p)) (1 * Zsum (fun l => A O l * X l) k + 0 * Y O)
      (fgemv (balanced p) prec (fun _ => ltr) false 1 k 1 A X 0 Y O).
Proof. exact fgemv_beta0_counterexample. Qed.
Print Assumptions C08_fgemv_beta0_refuted.

(** C08 when A has at least one row and under the head-room condition.
    Missing: the two refuted cases. *)
Theorem C08_fgemv_exact_partial : forall F prec ord trans M N alpha A X beta Y,
  let ydim := if trans : bool then N else M in
  let xdim := if trans then M else N in
  let a := fun i l => if trans then A l i else A i l in
  wf F -> prime (fp F) -> 0 < prec -> (forall i, fair (ord i)) ->
  (forall i l, (i < ydim)%nat -> (l < xdim)%nat -> reduced (fp F) (flo F) (a i l)) ->
  (forall l, (l < xdim)%nat -> reduced (fp F) (flo F) (X l)) ->
  (forall i, (i < ydim)%nat -> reduced (fp F) (flo F) (Y i)) ->
  reduced (fp F) (flo F) alpha -> reduced (fp F) (flo F) beta ->
  headroom F prec xdim beta ->
  (M <> 0)%nat ->
  forall i,
   ((i < ydim)%nat ->
     is_repr (fp F) (flo F) (alpha * Zsum (fun l => a i l * X l) xdim + beta * Y i)
       (fgemv F prec ord trans M N alpha A X beta Y i)) /\
   (~ (i < ydim)%nat -> fgemv F prec ord trans M N alpha A X beta Y i = Y i).
Proof. exact fgemv_ok. Qed.
Print Assumptions C08_fgemv_exact_partial.

Example C08_case : fgemv (modular 101) 14 (fun _ => ltr) true 3 2 7
   (fun i j => Z.of_nat (i + 2 * j) + 90) (fun i => 100) 5 (fun i => 3) 1%nat
  = canon (modular 101) (7 * (92 * 100 + 93 * 100 + 94 * 100) + 5 * 3).
Proof. vm_compute. reflexivity. Qed.

(** C09. The recorded output interval contains every entry of the unreduced
    result, for intervals containing 0. *)
Theorem C09_out_bounds_sound : forall k alpha beta Amin Amax Bmin Bmax Cmin Cmax (a b : nat -> Z) c omin omax,
  Amin <= 0 <= Amax -> Bmin <= 0 <= Bmax ->
  (forall l, (l < k)%nat -> Amin <= a l <= Amax) ->
  (forall l, (l < k)%nat -> Bmin <= b l <= Bmax) ->
  Cmin <= c <= Cmax ->
  set_out_bounds (Z.of_nat k) alpha beta Amin Amax Bmin Bmax Cmin Cmax = (omin, omax) ->
  omin <= alpha * Zsum (fun l => a l * b l) k + beta * c <= omax.
Proof. exact set_out_bounds_sound. Qed.
Print Assumptions C09_out_bounds_sound.

(** The property "contains 0" needed above is preserved. *)
Theorem C09_out_bounds_zero : forall k alpha beta Amin Amax Bmin Bmax Cmin Cmax omin omax,
  0 <= k -> Amin <= 0 <= Amax -> Bmin <= 0 <= Bmax -> Cmin <= 0 <= Cmax ->
  set_out_bounds k alpha beta Amin Amax Bmin Bmax Cmin Cmax = (omin, omax) ->
  omin <= 0 <= omax.
Proof. exact set_out_bounds_zero. Qed.
Print Assumptions C09_out_bounds_zero.

(** Without that hypothesis the interval is wrong. *)
Theorem C09_out_bounds_nonzero_refuted : exists k alpha beta Amin Amax Bmin Bmax Cmin Cmax a b c omin omax,
  (forall l, (l < k)%nat -> Amin <= a l <= Amax) /\
  (forall l, (l < k)%nat -> Bmin <= b l <= Bmax) /\
  Cmin <= c <= Cmax /\
  set_out_bounds (Z.of_nat k) alpha beta Amin Amax Bmin Bmax Cmin Cmax = (omin, omax) /\
  ~ (omin <= alpha * Zsum (fun l => a l * b l) k + beta * c <= omax).
Proof.
  exists 1%nat, 1, 0, 1, 2, 1, 2, 0, 0, (fun _ => 1), (fun _ => 1), 0. do 2 eexists.
  repeat split; try reflexivity; try lia. cbn. lia.
Qed.
Print Assumptions C09_out_bounds_nonzero_refuted.

(** Pre-additions/subtractions of Winograd: with the announced reductions, the
    result is in the announced interval, and is exactly representable as soon
    as the sum of two reduced elements is. *)
Theorem C09_pre_add_sound : forall F M l1 h1 l2 h2 x y fl o1 o2,
  wf F -> l1 <= x <= h1 -> l2 <= y <= h2 -> need_pre_add F M l1 h1 l2 h2 = (fl, (o1, o2)) ->
  let x' := if fl : bool then canon F x else x in let y' := if fl then canon F y else y in
  o1 <= x' + y' <= o2 /\ (2 * absmax F <= M -> Z.abs (x' + y') <= M).
Proof. exact need_pre_add_ok. Qed.
Print Assumptions C09_pre_add_sound.

Theorem C09_pre_sub_sound : forall F M l1 h1 l2 h2 x y fl o1 o2,
  wf F -> l1 <= x <= h1 -> l2 <= y <= h2 -> need_pre_sub F M l1 h1 l2 h2 = (fl, (o1, o2)) ->
  let x' := if fl : bool then canon F x else x in let y' := if fl then canon F y else y in
  o1 <= x' - y' <= o2 /\ (2 * absmax F <= M -> Z.abs (x' - y') <= M).
Proof. exact need_pre_sub_ok. Qed.
Print Assumptions C09_pre_sub_sound.

Theorem C09_double_pre_add_sound : forall F M l1 h1 l2 h2 beta x y fl o1 o2,
  wf F -> l1 <= x <= h1 -> l2 <= y <= h2 -> need_double_pre_add F M l1 h1 l2 h2 beta = (fl, (o1, o2)) ->
  let x' := if fl : bool then canon F x else x in
  o1 <= x' + beta * y <= o2 /\
  (Z.max (Z.abs (beta * l2)) (Z.abs (beta * h2)) + absmax F <= M -> Z.abs (x' + beta * y) <= M).
Proof. exact need_double_pre_add_ok. Qed.
Print Assumptions C09_double_pre_add_sound.

Example C09_case : set_out_bounds 5 (-1) (-1) (-3) 4 (-2) 7 (-1) 1 = (-141, 106).
Proof. reflexivity. Qed.
