From Coq Require Import ZArith List Bool Lia.
From Verif Require Import Delayed_model Delayed_spec Delayed_proofs Red_model Red_spec Red_proofs Axpy_model Axpy_spec.
Open Scope Z_scope.

(** ** Loops *)
Lemma axpyp_ok (R : Z -> Z -> Z -> Prop) fs fv vs y x n m0 : (0 < vs)%nat -> same_or_disjoint y x n ->
  (forall i, (i < n)%nat -> R (m0 (x + i)%nat) (m0 (y + i)%nat) (fs (m0 (x + i)%nat) (m0 (y + i)%nat))) ->
  (forall i, (i < n)%nat -> R (m0 (x + i)%nat) (m0 (y + i)%nat) (fv (m0 (x + i)%nat) (m0 (y + i)%nat))) ->
  elementwise R y x y n m0 (axpyp vs fs fv y x n m0).
Proof.
  intros Hvs D Hs Hv. assert (D' : same_or_disjoint y y n) by (left; reflexivity).
  assert (SL := scalar_loop_inv R fs vs y x y n m0 Hvs D D' Hs). assert (I0 := inv_init R vs y x y n m0 Hvs).
  unfold axpyp. destruct (Nat.ltb_spec n vs).
  - apply (SL n 0%nat m0 I0 ltac:(lia)).
  - set (i0 := if (y mod vs =? 0)%nat then 0%nat else (vs - y mod vs)%nat).
    assert (L : (i0 <= n)%nat).
    { unfold i0. pose proof (Nat.mod_upper_bound y vs ltac:(lia)). destruct (y mod vs =? 0)%nat; lia. }
    assert (I := SL i0 0%nat m0 I0 ltac:(lia)). cbn [Nat.add] in I.
    set (m1 := scalar_loop fs y x y i0 0 m0) in *.
    set (P := if ((y + i0) mod vs =? 0)%nat then vector_loop vs fv y x y (S n) n i0 m1 else (i0, m1)).
    assert (J : inv R y x y n m0 (fst P) (snd P)).
    { unfold P. destruct ((y + i0) mod vs =? 0)%nat; [|exact I].
      pose proof (vector_loop_inv R fv vs y x y n m0 Hvs D D' Hv (S n) i0 m1 I ltac:(lia)) as V.
      destruct (vector_loop _ _ _ _ _ _ _ _ _). exact V. }
    destruct P as [i m]. cbn [fst snd] in J.
    pose proof (proj1 J). pose proof (SL (n - i)%nat i m J ltac:(lia)) as K.
    replace (i + (n - i))%nat with n in K by lia. exact (proj2 K).
Qed.

Lemma count_pos n inc : (0 < inc)%nat -> count n inc = n.
Proof. unfold count. destruct (Nat.eqb_spec inc 0); lia. Qed.

Lemma fassign_ok n y incy x incx m : (0 < incx)%nat ->
  (forall i j, (i < n)%nat -> (j < n)%nat -> (x + i * incx)%nat <> (y + j * incy)%nat) ->
  (forall i, (i < n)%nat -> fassign n y incy x incx m (x + i * incx)%nat = m (y + i * incy)%nat) /\
  (forall z, (forall i, (i < n)%nat -> z <> (x + i * incx)%nat) -> fassign n y incy x incx m z = m z).
Proof.
  intros Hx D. unfold fassign. rewrite count_pos by exact Hx.
  apply (strided_ok (fun v _ => v) x incx y incy y incy m n Hx); [|reflexivity].
  intros i j H. split; apply D; lia.
Qed.

Lemma by_copies_ok (R : Z -> Z -> Z -> Prop) loop n x incx y incy xc yc m :
  apart n x incx y incy -> fresh n x incx y incy xc yc ->
  (forall t u m1, same_or_disjoint t u n ->
     (forall i, (i < n)%nat -> m1 (u + i)%nat = m (x + i * incx)%nat) ->
     (forall i, (i < n)%nat -> m1 (t + i)%nat = m (y + i * incy)%nat) ->
     elementwise (fun a b r => R a b r) t u t n m1 (loop t u m1)) ->
  updated R (buffers n xc yc) n x incx y incy m (by_copies loop n x incx y incy xc yc m).
Proof.
  intros (Px & Py & D) (B & Fr) HL. unfold by_copies.
  set (u := if (incx =? 1)%nat then x else xc). set (t := if (incy =? 1)%nat then y else yc).
  set (m1 := if (incx =? 1)%nat then m else fassign n x incx xc 1 m).
  set (m2 := if (incy =? 1)%nat then m1 else fassign n y incy yc 1 m1).
  assert (M1 : (forall i, (i < n)%nat -> m1 (u + i)%nat = m (x + i * incx)%nat) /\
               (forall z, ~ (xc <= z < xc + n)%nat -> m1 z = m z)).
  { unfold m1, u. destruct (Nat.eqb_spec incx 1) as [->|].
    - split; [|reflexivity]. intros i _. f_equal. lia.
    - destruct (fassign_ok n x incx xc 1 m ltac:(lia)) as [E1 E2].
      { intros i j Hi Hj E. apply (proj1 (Fr j Hj)). left. lia. }
      split.
      + intros i Hi. rewrite <- (E1 i Hi). f_equal. lia.
      + intros z Hz. apply E2. intros i Hi. lia. }
  destruct M1 as [M1u M1o].
  assert (Yx : forall i, (i < n)%nat -> m1 (y + i * incy)%nat = m (y + i * incy)%nat).
  { intros i Hi. apply M1o. intro Hz. apply (proj2 (Fr i Hi)). left. exact Hz. }
  assert (Ut : forall i, (i < n)%nat -> (incy = 1%nat \/ ~ (yc <= u + i < yc + n)%nat)).
  { intros i Hi. destruct (Nat.eq_dec incy 1); [left; assumption|right]. unfold u. destruct (Nat.eqb_spec incx 1) as [E1|].
    - intro Hz. apply (proj1 (Fr i Hi)). right. rewrite E1. lia.
    - lia. }
  assert (M2 : (forall i, (i < n)%nat -> m2 (t + i)%nat = m (y + i * incy)%nat) /\
               (forall i, (i < n)%nat -> m2 (u + i)%nat = m (x + i * incx)%nat) /\
               (forall z, ~ buffers n xc yc z -> m2 z = m z)).
  { unfold m2, t. destruct (Nat.eqb_spec incy 1) as [Ey|Ny].
    - split; [|split].
      + intros i Hi. rewrite <- (Yx i Hi). f_equal. rewrite Ey. lia.
      + exact M1u.
      + intros z Hz. apply M1o. intro H. apply Hz. left. exact H.
    - destruct (fassign_ok n y incy yc 1 m1 ltac:(lia)) as [E1 E2].
      { intros i j Hi Hj E. apply (proj2 (Fr j Hj)). right. lia. }
      split; [|split].
      + intros i Hi. rewrite <- (Yx i Hi), <- (E1 i Hi). f_equal. lia.
      + intros i Hi. rewrite E2, (M1u i Hi); [reflexivity|]. intros j Hj. destruct (Ut i Hi); lia.
      + intros z Hz. rewrite E2, M1o; [reflexivity| |].
        * intro H. apply Hz. left. exact H.
        * intros i Hi E. apply Hz. right. lia. }
  destruct M2 as (M2t & M2u & M2o).
  assert (TU : same_or_disjoint t u n).
  { unfold same_or_disjoint. destruct (Nat.le_gt_cases (t + n) u) as [|H1]; [lia|].
    destruct (Nat.le_gt_cases (u + n) t) as [|H2]; [lia|]. exfalso.
    destruct (Nat.eq_dec n 0) as [|Hn]; [lia|].
    (* a common cell: u + i = t + j *)
    assert (C : exists i j, (i < n)%nat /\ (j < n)%nat /\ (u + i = t + j)%nat).
    { destruct (Nat.le_gt_cases t u); [exists 0%nat, (u - t)%nat|exists (t - u)%nat, 0%nat]; lia. }
    destruct C as (i & j & Hi & Hj & E). unfold t, u in E.
    destruct (Nat.eqb_spec incx 1) as [Ex|Nx]; destruct (Nat.eqb_spec incy 1) as [Ey|Ny].
    - apply (D i j Hi Hj). rewrite Ex, Ey. lia.
    - apply (proj1 (Fr i Hi)). right. rewrite Ex. lia.
    - apply (proj2 (Fr j Hj)). left. rewrite Ey. lia.
    - lia. }
  destruct (HL t u m2 TU M2u M2t) as [H1 H2].
  set (m3 := loop t u m2) in *.
  assert (T3 : forall i, (i < n)%nat -> R (m (x + i * incx)%nat) (m (y + i * incy)%nat) (m3 (t + i)%nat)).
  { intros i Hi. rewrite <- M2u, <- M2t by exact Hi. exact (H1 i Hi). }
  assert (T4 : forall z, ~ (t <= z < t + n)%nat -> ~ buffers n xc yc z -> m3 z = m z).
  { intros z Hz Hb. rewrite H2, M2o; auto. }
  unfold t in T3, T4. destruct (Nat.eqb_spec incy 1) as [Ey|Ny].
  - split.
    + intros i Hi. specialize (T3 i Hi). replace (y + i * incy)%nat with (y + i)%nat in * by (rewrite Ey; lia). exact T3.
    + intros z Hz Hb. apply T4; [|exact Hb]. intro C. apply (Hz (z - y)%nat); rewrite ?Ey; lia.
  - destruct (fassign_ok n yc 1 y incy m3 Py) as [E1 E2].
    { intros i j Hi Hj E. apply (proj2 (Fr i Hi)). right. lia. }
    split.
    + intros i Hi. rewrite E1 by exact Hi. specialize (T3 i Hi). replace (yc + i * 1)%nat with (yc + i)%nat by lia. exact T3.
    + intros z Hz Hb. rewrite E2 by exact Hz. apply T4; [|exact Hb]. intro C. apply Hb. right. exact C.
Qed.

Lemma apart_contiguous n x y : apart n x 1 y 1 -> same_or_disjoint y x n.
Proof.
  intros (_ & _ & D). unfold same_or_disjoint.
  destruct (Nat.le_gt_cases (y + n) x) as [|H1]; [lia|]. destruct (Nat.le_gt_cases (x + n) y) as [|H2]; [lia|]. exfalso.
  destruct (Nat.le_gt_cases y x); [apply (D 0%nat (x - y)%nat)|apply (D (y - x)%nat 0%nat)]; lia.
Qed.
Lemma updated_contiguous (R : Z -> Z -> Z -> Prop) tmp n x y m m' :
  elementwise R y x y n m m' -> updated R tmp n x 1 y 1 m m'.
Proof.
  intros [H1 H2]. split.
  - intros i Hi. rewrite !Nat.mul_1_r. exact (H1 i Hi).
  - intros z Hz _. apply H2. intro C. apply (Hz (z - y)%nat); lia.
Qed.
Lemma strided_updated (R : Z -> Z -> Z -> Prop) tmp f n x incx y incy m : apart n x incx y incy ->
  (forall i, (i < n)%nat -> R (m (x + i * incx)%nat) (m (y + i * incy)%nat) (f (m (x + i * incx)%nat) (m (y + i * incy)%nat))) ->
  updated R tmp n x incx y incy m (strided n 0 f y incy x incx y incy m).
Proof.
  intros (Px & Py & D) HR.
  destruct (strided_ok f y incy x incx y incy m n Py) with (m := strided n 0 f y incy x incx y incy m) as [E1 E2]; [|reflexivity|].
  { intros i j H. split; [intro E; apply (D j i); lia|nia]. }
  split.
  - intros i Hi. rewrite E1 by exact Hi. exact (HR i Hi).
  - intros z Hz _. apply E2. exact Hz.
Qed.
Lemma strided_updated1 (R : Z -> Z -> Z -> Prop) tmp (f : Z -> Z) n x incx y incy m : apart n x incx y incy ->
  (forall i, (i < n)%nat -> R (m (x + i * incx)%nat) (m (y + i * incy)%nat) (f (m (x + i * incx)%nat))) ->
  updated R tmp n x incx y incy m (strided n 0 (fun v _ => f v) y incy x incx x incx m).
Proof.
  intros (Px & Py & D) HR.
  destruct (strided_ok (fun v _ => f v) y incy x incx x incx m n Py) with (m := strided n 0 (fun v _ => f v) y incy x incx x incx m) as [E1 E2]; [|reflexivity|].
  { intros i j H. split; intro E; apply (D j i); lia. }
  split.
  - intros i Hi. rewrite E1 by exact Hi. exact (HR i Hi).
  - intros z Hz _. apply E2. exact Hz.
Qed.

(** ** faxpy *)
Lemma faxpy_modular_ok (R : Z -> Z -> Z -> Prop) vs cr fs fv n x incx y incy xc yc m : (0 < vs)%nat ->
  apart n x incx y incy -> fresh n x incx y incy xc yc ->
  (forall i, (i < n)%nat -> let u := m (x + i * incx)%nat in let v := m (y + i * incy)%nat in R u v (fs u v) /\ R u v (fv u v)) ->
  updated R (buffers n xc yc) n x incx y incy m (faxpy_modular vs cr fs fv n x incx y incy xc yc m).
Proof.
  intros Hvs A Fr HR. unfold faxpy_modular. destruct ((incx =? 1) && (incy =? 1))%nat eqn:E.
  - apply andb_prop in E as [E1 E2]. apply Nat.eqb_eq in E1, E2. subst incx incy.
    apply updated_contiguous. assert (HR' : forall i, (i < n)%nat -> let u := m (x + i)%nat in let v := m (y + i)%nat in R u v (fs u v) /\ R u v (fv u v)).
    { intros i Hi. specialize (HR i Hi). rewrite !Nat.mul_1_r in HR. exact HR. }
    apply axpyp_ok; [exact Hvs|exact (apart_contiguous _ _ _ A)| |]; intros i Hi; apply (HR' i Hi).
  - destruct (n <? cr)%nat.
    + rewrite count_pos by apply A. apply strided_updated; [exact A|]. intros i Hi. apply (HR i Hi).
    + apply by_copies_ok; [exact A|exact Fr|]. intros t u m1 TU Hu Ht.
      apply axpyp_ok; [exact Hvs|exact TU| |]; intros i Hi; rewrite (Hu i Hi), (Ht i Hi); apply (HR i Hi).
Qed.

Lemma muladd_exact prec fma a x y : Z.abs (a * x) + Z.abs y <= 2 ^ prec -> muladd prec fma a x y = a * x + y.
Proof.
  intro H. unfold muladd. destruct fma.
  - apply rnd_exact; lia.
  - rewrite (rnd_exact prec (a * x)) by lia. apply rnd_exact; lia.
Qed.

Theorem faxpy_flt_ok F prec fma fmav vs cr a n x incx y incy xc yc m :
  wf F -> 1 <= prec -> absmax F * absmax F + absmax F + fp F <= 2 ^ prec -> (0 < vs)%nat ->
  reduced (fp F) (flo F) a ->
  (forall i, (i < n)%nat -> reduced (fp F) (flo F) (m (x + i * incx)%nat) /\ reduced (fp F) (flo F) (m (y + i * incy)%nat)) ->
  apart n x incx y incy -> fresh n x incx y incy xc yc ->
  updated (fun u v r => is_repr (fp F) (flo F) (a * u + v) r) (buffers n xc yc) n x incx y incy m
    (faxpy_modular vs cr (axpy_flt prec fma (fp F) (flo F) (fhi F) a) (axpy_flt_lane prec fmav (fp F) (flo F) (fhi F) a)
       n x incx y incy xc yc m).
Proof.
  intros W Hp HM Hvs Ha Hm A Fr. apply faxpy_modular_ok; auto. intros i Hi. cbv zeta.
  destruct (Hm i Hi) as [Hu Hv]. set (u := m (x + i * incx)%nat) in *. set (v := m (y + i * incy)%nat) in *.
  assert (Aa := absmax_ok F a). assert (Au := absmax_ok F u). assert (Av := absmax_ok F v).
  unfold reduced in *. unfold fhi in Aa, Au, Av. specialize (Aa Ha). specialize (Au Hu). specialize (Av Hv).
  assert (P := abs_mul_le a u _ Aa Au). assert (M1 := absmax_pos F W).
  assert (M2 : 0 <= absmax F * absmax F) by nia.
  unfold axpy_flt, axpy_flt_lane. rewrite !muladd_exact by lia.
  split; [apply reduce_flt_ok|apply mod_simd_ok]; auto; lia.
Qed.

Theorem faxpy_int64_ok F fma vs cr a n x incx y incy xc yc m :
  wf F -> fp F < 2 ^ 33 -> absmax F * absmax F + absmax F < 2 ^ 63 -> (0 < vs)%nat ->
  reduced (fp F) (flo F) a ->
  (forall i, (i < n)%nat -> reduced (fp F) (flo F) (m (x + i * incx)%nat) /\ reduced (fp F) (flo F) (m (y + i * incy)%nat)) ->
  apart n x incx y incy -> fresh n x incx y incy xc yc ->
  updated (fun u v r => is_repr (fp F) (flo F) (a * u + v) r) (buffers n xc yc) n x incx y incy m
    (faxpy_modular vs cr (axpy_int64 fma false (fp F) (flo F) (fhi F) a) (axpy_int64 fma true (fp F) (flo F) (fhi F) a)
       n x incx y incy xc yc m).
Proof.
  intros W Hp HM Hvs Ha Hm A Fr. apply faxpy_modular_ok; auto. intros i Hi. cbv zeta.
  destruct (Hm i Hi) as [Hu Hv]. set (u := m (x + i * incx)%nat) in *. set (v := m (y + i * incy)%nat) in *.
  assert (Aa := absmax_ok F a). assert (Au := absmax_ok F u). assert (Av := absmax_ok F v).
  unfold reduced in *. unfold fhi in Aa, Au, Av. specialize (Aa Ha). specialize (Au Hu). specialize (Av Hv).
  assert (P := abs_mul_le a u _ Aa Au). assert (M1 := absmax_pos F W).
  assert (T : 2 ^ (64 - 1) = 2 ^ 63) by reflexivity.
  unfold axpy_int64. rewrite (wrap_id 64 (a * u)) by (rewrite ?T; lia). rewrite (wrap_id 64 (a * u + v)) by (rewrite ?T; lia).
  split; apply reduce_int64_ok; auto; lia.
Qed.

(** The other categories: right when a is not -1 or the vectors are contiguous. *)
Theorem faxpy_generic_ok add sub axpyin one mone a n x incx y incy m tmp :
  (forall u v, axpyin v one u = add u v) -> (forall u v, axpyin v mone u = sub v u) -> (forall u v, axpyin v 0 u = v) ->
  apart n x incx y incy -> (a <> mone \/ (incx = 1 /\ incy = 1)%nat) ->
  updated (fun u v r => r = axpyin v a u) tmp n x incx y incy m (faxpy_generic add sub axpyin one mone a n x incx y incy m).
Proof.
  intros H1 H2 H0 A Ha. pose proof A as (Px & Py & D). unfold faxpy_generic. destruct (Z.eqb_spec a 0) as [->|].
  { split; [intros; rewrite H0; reflexivity|reflexivity]. }
  destruct (Z.eqb_spec a one) as [->|].
  { destruct (fadd_generic_ok add sub true n x incx y incy y incy m) as [E1 E2]; [|left; reflexivity|].
    - split; [exact Py|]. intros i j H. split; [intro E; apply (D j i); lia|nia].
    - split; [intros i Hi; rewrite E1, H1 by exact Hi; reflexivity|]. intros z Hz _. apply E2. exact Hz. }
  destruct (Z.eqb_spec a mone) as [->|].
  { destruct Ha as [Ha|[-> ->]]; [congruence|].
    destruct (fadd_generic_ok add sub false n y 1 x 1 y 1 m) as [E1 E2]; [|right; auto|].
    - split; [lia|]. intros i j H. split; [lia|]. intro E; apply (D j i); lia.
    - split; [intros i Hi; rewrite E1, H2 by exact Hi; reflexivity|]. intros z Hz _. apply E2. exact Hz. }
  rewrite count_pos by exact Px. apply strided_updated; [exact A|]. reflexivity.
Qed.

(** ** fscal *)
Theorem fscal_flt_ok F prec fma vs cr neg one mone a n x incx y incy xc yc m :
  wf F -> 1 <= prec -> absmax F * absmax F + fp F <= 2 ^ prec -> (0 < vs)%nat ->
  is_repr (fp F) (flo F) 1 one -> is_repr (fp F) (flo F) (-1) mone ->
  (forall v, reduced (fp F) (flo F) v -> is_repr (fp F) (flo F) (- v) (neg v)) ->
  reduced (fp F) (flo F) a ->
  (forall i, (i < n)%nat -> reduced (fp F) (flo F) (m (x + i * incx)%nat)) ->
  apart n x incx y incy -> fresh n x incx y incy xc yc ->
  updated (fun u _ r => is_repr (fp F) (flo F) (a * u) r) (buffers n xc yc) n x incx y incy m
    (fscal_modular vs cr (scal_flt prec fma (fp F) (flo F) (fhi F) a) (scal_flt_lane prec (fp F) (flo F) (fhi F) a)
       neg one mone a n x incx y incy xc yc m).
Proof.
  intros W Hp HM Hvs [_ [q1 H1]] [_ [q2 H2]] Hneg Ha Hm A Fr. pose proof A as (Px & Py & D).
  set (R := fun u (_ : Z) r => is_repr (fp F) (flo F) (a * u) r).
  assert (K : forall i, (i < n)%nat -> let u := m (x + i * incx)%nat in
     is_repr (fp F) (flo F) (a * u) (scal_flt prec fma (fp F) (flo F) (fhi F) a u) /\
     is_repr (fp F) (flo F) (a * u) (scal_flt_lane prec (fp F) (flo F) (fhi F) a u)).
  { intros i Hi. cbv zeta. specialize (Hm i Hi). set (u := m (x + i * incx)%nat) in *.
    assert (Aa := absmax_ok F a). assert (Au := absmax_ok F u). unfold reduced in *. unfold fhi in Aa, Au.
    specialize (Aa Ha). specialize (Au Hm). assert (P := abs_mul_le a u _ Aa Au). assert (M1 := absmax_pos F W).
    assert (M2 : 0 <= absmax F * absmax F) by nia. destruct W as [W1 W2].
    unfold scal_flt, scal_flt_lane. rewrite !rnd_exact by lia.
    split; [apply reduce_flt_ok|apply mod_simd_ok]; try (split; assumption); auto; lia. }
  unfold fscal_modular. destruct (Z.eqb_spec a one) as [E|].
  { destruct (fassign_ok n x incx y incy m Py) as [E1 E2].
    { intros i j Hi Hj X. apply (D j i); auto. }
    split; [|intros z Hz _; apply E2; exact Hz].
    intros i Hi. rewrite E1 by exact Hi. specialize (Hm i Hi). unfold reduced in Hm. split; [exact Hm|].
    set (u := m (x + i * incx)%nat) in *. exists (- q1 * u). rewrite E. replace one with (1 + q1 * fp F) by lia. ring. }
  destruct (Z.eqb_spec a mone) as [E|].
  { rewrite count_pos by exact Py. apply (strided_updated1 R); [exact A|]. intros i Hi. unfold R.
    apply is_repr_trans with (- m (x + i * incx)%nat); [|apply Hneg, Hm, Hi].
    set (u := m (x + i * incx)%nat). exists (- q2 * u). rewrite E. replace mone with (-1 + q2 * fp F) by lia. ring. }
  destruct (Z.eqb_spec a 0) as [E|].
  { destruct (strided_ok (fun _ _ => 0) y incy y incy y incy m n Py) with (m := strided n 0 (fun _ _ => 0) y incy y incy y incy m) as [E1 E2]; [|reflexivity|].
    { intros i j H. nia. }
    split; [|intros z Hz _; apply E2; exact Hz].
    intros i Hi. rewrite E1 by exact Hi. unfold R. rewrite E. destruct W as [W1 W2]. unfold fhi in W2. split; [lia|]. exists 0. ring. }
  destruct ((incx =? 1) && (incy =? 1))%nat eqn:E.
  - apply andb_prop in E as [E1 E2]. apply Nat.eqb_eq in E1, E2. subst incx incy.
    assert (K' : forall i, (i < n)%nat -> let u := m (x + i)%nat in
     is_repr (fp F) (flo F) (a * u) (scal_flt prec fma (fp F) (flo F) (fhi F) a u) /\
     is_repr (fp F) (flo F) (a * u) (scal_flt_lane prec (fp F) (flo F) (fhi F) a u)).
    { intros i Hi. specialize (K i Hi). rewrite !Nat.mul_1_r in K. exact K. }
    apply updated_contiguous. unfold scalp. assert (S := apart_contiguous _ _ _ A).
    destruct (vloop_ok R (fun x _ => scal_flt prec fma (fp F) (flo F) (fhi F) a x) (fun x _ => scal_flt_lane prec (fp F) (flo F) (fhi F) a x)
       vs y x x n m Hvs S S) as [V1 V2].
    + intros i Hi. apply (K' i Hi).
    + intros i Hi. apply (K' i Hi).
    + split; [intros i Hi; apply (V1 i Hi)|exact V2].
  - destruct (n <? cr)%nat.
    + rewrite count_pos by exact Px. apply (strided_updated1 R); [exact A|]. intros i Hi. apply (K i Hi).
    + apply by_copies_ok; [exact A|exact Fr|]. intros t u m1 TU Hu Ht. unfold scalp.
      destruct (vloop_ok R (fun x _ => scal_flt prec fma (fp F) (flo F) (fhi F) a x) (fun x _ => scal_flt_lane prec (fp F) (flo F) (fhi F) a x)
         vs t u u n m1 Hvs TU TU) as [V1 V2].
      * intros i Hi. rewrite (Hu i Hi). apply (K i Hi).
      * intros i Hi. rewrite (Hu i Hi). apply (K i Hi).
      * split; [intros i Hi; apply (V1 i Hi)|exact V2].
Qed.

Theorem fscal_domain_ok mul a n x y inc m tmp : apart n x inc y inc ->
  updated (fun u _ r => r = mul a u) tmp n x inc y inc m (fscal_domain mul a n x inc y inc m).
Proof.
  intros A. pose proof A as (Px & Py & D). unfold fscal_domain.
  set (m1 := strided n 0 (fun v _ => v) y inc x inc x inc m).
  assert (U := strided_updated1 (fun u _ r => r = u) (fun _ => False) (fun v => v) n x inc y inc m A ltac:(reflexivity)).
  fold m1 in U. destruct U as [U1 U2].
  destruct (strided_ok (fun v _ => mul a v) y inc y inc y inc m1 n Py) with (m := strided n 0 (fun v _ => mul a v) y inc y inc y inc m1) as [E1 E2]; [|reflexivity|].
  { intros i j H. nia. }
  split.
  - intros i Hi. rewrite E1, U1 by exact Hi. reflexivity.
  - intros z Hz _. rewrite E2 by exact Hz. apply U2; [exact Hz|auto].
Qed.

(** ** Level 2 *)
Lemma no_common t u n : (forall i j, (i < n)%nat -> (j < n)%nat -> (u + i)%nat <> (t + j)%nat) -> same_or_disjoint t u n.
Proof.
  intro D. unfold same_or_disjoint. destruct (Nat.le_gt_cases (t + n) u) as [|H1]; [lia|].
  destruct (Nat.le_gt_cases (u + n) t) as [|H2]; [lia|]. exfalso.
  destruct (Nat.le_gt_cases t u); [apply (D 0%nat (u - t)%nat)|apply (D (t - u)%nat 0%nat)]; lia.
Qed.

Section Level2.
Variables (R : Z -> Z -> Z -> Prop) (G : Z -> Z -> Prop) (op : nat -> nat -> nat -> mem -> mem).
Hypothesis Hop : forall t u k m, same_or_disjoint t u k -> (forall i, (i < k)%nat -> G (m (u + i)%nat) (m (t + i)%nat)) ->
  elementwise R t u t k m (op t u k m).
Variables (M n x ldx y ldy : nat) (m0 : mem).
Hypothesis A : apart2 M n x ldx y ldy.
Hypothesis HG : forall i j, (i < M)%nat -> (j < n)%nat -> G (m0 (x + i * ldx + j)%nat) (m0 (y + i * ldy + j)%nat).

Lemma rows_ok k : forall i m, (i + k <= M)%nat -> updated2 R i n x ldx y ldy m0 m ->
  updated2 R (i + k) n x ldx y ldy m0 (rows k i (fun t u => op t u n) x ldx y ldy m).
Proof.
  destruct A as (Lx & Ly & D). induction k as [|k IH]; intros i m Hi U; cbn.
  { rewrite Nat.add_0_r. exact U. }
  replace (i + S k)%nat with (S i + k)%nat by lia. apply IH; [lia|]. destruct U as [U1 U2].
  set (t := (y + i * ldy)%nat). set (u := (x + i * ldx)%nat).
  assert (Xu : forall j, (j < n)%nat -> m (u + j)%nat = m0 (u + j)%nat).
  { intros j Hj. apply U2. intros i' j' Hi' Hj'. unfold u. apply D; lia. }
  assert (Yt : forall j, (j < n)%nat -> m (t + j)%nat = m0 (t + j)%nat).
  { intros j Hj. apply U2. intros i' j' Hi' Hj'. unfold t.
    assert ((i' + 1) * ldy <= i * ldy)%nat by (apply Nat.mul_le_mono_r; lia). lia. }
  destruct (Hop t u n m) as [E1 E2].
  { apply no_common. intros a b Ha Hb. unfold t, u. apply D; lia. }
  { intros j Hj. rewrite Xu, Yt by exact Hj. unfold t, u. apply HG; lia. }
  split.
  - intros i' j Hi' Hj. destruct (Nat.eq_dec i' i) as [->|Ni].
    + specialize (E1 j Hj). rewrite Xu, Yt in E1 by exact Hj. exact E1.
    + assert ((i' + 1) * ldy <= i * ldy)%nat by (apply Nat.mul_le_mono_r; lia).
      rewrite E2 by (unfold t; lia). apply U1; lia.
  - intros z Hz. rewrite E2.
    + apply U2. intros i' j Hi' Hj. apply Hz; lia.
    + intro C. apply (Hz i (z - t)%nat); unfold t in *; lia.
Qed.

Lemma level2_ok : updated2 R M n x ldx y ldy m0 (level2 op M n x ldx y ldy m0).
Proof.
  unfold level2. pose proof A as (Lx & Ly & D). destruct ((n =? ldx) && (n =? ldy))%nat eqn:E.
  - apply andb_prop in E as [E1 E2]. apply Nat.eqb_eq in E1, E2.
    assert (K : forall k, (k < M * n)%nat -> exists i j, (i < M)%nat /\ (j < n)%nat /\ k = (i * n + j)%nat).
    { intros k Hk. exists (k / n)%nat, (k mod n)%nat. assert (n <> 0)%nat by (intro Z0; rewrite Z0, Nat.mul_0_r in Hk; lia).
      split; [apply Nat.div_lt_upper_bound; lia|]. split; [apply Nat.mod_upper_bound; lia|].
      rewrite (Nat.div_mod k n) at 1 by lia. lia. }
    destruct (Hop y x (M * n)%nat m0) as [F1 F2].
    { apply no_common. intros a b Ha Hb.
      destruct (K a Ha) as (i & j & Hi & Hj & ->). destruct (K b Hb) as (i' & j' & Hi' & Hj' & ->).
      specialize (D i j i' j' Hi Hj Hi' Hj'). rewrite <- E1, <- E2 in D. lia. }
    { intros k Hk. destruct (K k Hk) as (i & j & Hi & Hj & ->).
      specialize (HG i j Hi Hj). rewrite <- E1, <- E2 in HG. rewrite !Nat.add_assoc. exact HG. }
    split.
    + intros i j Hi Hj. assert (i * n + j < M * n)%nat.
      { assert ((i + 1) * n <= M * n)%nat by (apply Nat.mul_le_mono_r; lia). lia. }
      specialize (F1 (i * n + j)%nat H). rewrite <- E1, <- E2. rewrite !Nat.add_assoc in F1. exact F1.
    + intros z Hz. apply F2. intro C. destruct (K (z - y)%nat ltac:(lia)) as (i & j & Hi & Hj & Ek).
      apply (Hz i j Hi Hj). rewrite <- E2. lia.
  - destruct (Nat.eq_dec ldx 0) as [Z0|NZ].
    + (* no column *) unfold count. rewrite Z0. cbn. split; [intros; lia|reflexivity].
    + rewrite count_pos by lia. apply (rows_ok M 0%nat m0); [lia|]. split; [intros; lia|reflexivity].
Qed.
End Level2.

Theorem faxpy2_ok F prec fma fmav positive vs one mone a M n x ldx y ldy m :
  wf F -> 1 <= prec -> absmax F * absmax F + absmax F + fp F <= 2 ^ prec -> 2 * fp F <= 2 ^ prec -> (0 < vs)%nat ->
  (positive = true -> flo F = 0) ->
  is_repr (fp F) (flo F) 1 one -> is_repr (fp F) (flo F) (-1) mone ->
  reduced (fp F) (flo F) a ->
  (forall i j, (i < M)%nat -> (j < n)%nat -> reduced (fp F) (flo F) (m (x + i * ldx + j)%nat) /\ reduced (fp F) (flo F) (m (y + i * ldy + j)%nat)) ->
  apart2 M n x ldx y ldy ->
  updated2 (fun u v r => is_repr (fp F) (flo F) (a * u + v) r) M n x ldx y ldy m
    (faxpy2_flt prec fma fmav positive (fp F) (flo F) (fhi F) one mone vs a M n x ldx y ldy m).
Proof.
  intros W Hp HM H2p Hvs Pos [_ [q1 H1]] [_ [q2 H2]] Ha Hm A.
  set (G := fun u v => reduced (fp F) (flo F) u /\ reduced (fp F) (flo F) v).
  unfold faxpy2_flt. destruct (Z.eqb_spec a 0) as [->|].
  { split; [|reflexivity]. intros i j Hi Hj. destruct (Hm i j Hi Hj) as [_ Hv]. split; [exact Hv|]. exists 0. ring. }
  assert (Hs : holds (Flt prec) (2 * fp F)) by (split; assumption).
  destruct (Z.eqb_spec a one) as [E|].
  { apply (level2_ok _ G); [|exact A|exact Hm]. intros t u k m1 TU HG.
    destruct (addsub_ok F (Flt prec) positive vs t u t k m1 W Hs Pos Hvs TU ltac:(left; reflexivity) HG) as [[E1 E2] _].
    split; [|exact E2]. intros i Hi. apply is_repr_trans with (2 := E1 i Hi).
    set (v := m1 (u + i)%nat). exists (- q1 * v). rewrite E. replace one with (1 + q1 * fp F) by lia. ring. }
  destruct (Z.eqb_spec a mone) as [E|].
  { apply (level2_ok _ G); [|exact A|exact Hm]. intros t u k m1 TU HG.
    assert (HG' : forall i, (i < k)%nat -> reduced (fp F) (flo F) (m1 (t + i)%nat) /\ reduced (fp F) (flo F) (m1 (u + i)%nat)).
    { intros i Hi. destruct (HG i Hi). split; assumption. }
    destruct (addsub_ok F (Flt prec) positive vs t t u k m1 W Hs Pos Hvs ltac:(left; reflexivity) TU HG') as [_ [E1 E2]].
    split; [|exact E2]. intros i Hi. apply is_repr_trans with (2 := E1 i Hi).
    set (v := m1 (u + i)%nat). set (w := m1 (t + i)%nat). exists (- q2 * v). rewrite E. replace mone with (-1 + q2 * fp F) by lia. ring. }
  apply (level2_ok _ G); [|exact A|exact Hm]. intros t u k m1 TU HG.
  assert (K : forall i, (i < k)%nat -> let v := m1 (u + i)%nat in let w := m1 (t + i)%nat in
    is_repr (fp F) (flo F) (a * v + w) (axpy_flt prec fma (fp F) (flo F) (fhi F) a v w) /\
    is_repr (fp F) (flo F) (a * v + w) (axpy_flt_lane prec fmav (fp F) (flo F) (fhi F) a v w)).
  { intros i Hi. cbv zeta. destruct (HG i Hi) as [Hu Hv]. set (v := m1 (u + i)%nat) in *. set (w := m1 (t + i)%nat) in *.
    assert (Aa := absmax_ok F a). assert (Au := absmax_ok F v). assert (Av := absmax_ok F w).
    unfold reduced in *. unfold fhi in Aa, Au, Av. specialize (Aa Ha). specialize (Au Hu). specialize (Av Hv).
    assert (P := abs_mul_le a v _ Aa Au). assert (M1 := absmax_pos F W).
    assert (M2 : 0 <= absmax F * absmax F) by nia.
    unfold axpy_flt, axpy_flt_lane. rewrite !muladd_exact by lia.
    split; [apply reduce_flt_ok|apply mod_simd_ok]; auto; lia. }
  apply axpyp_ok; [exact Hvs|exact TU| |]; intros i Hi; apply (K i Hi).
Qed.
