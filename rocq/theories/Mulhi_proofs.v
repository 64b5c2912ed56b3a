(** * Proofs about the high half of products *)
From Coq Require Import ZArith Lia Bool Psatz.
From Verif Require Import Mulhi_model Mulhi_spec.
Open Scope Z_scope.

Lemma land_mask z : Z.land z mask32 = z mod 4294967296.
Proof. change mask32 with (Z.ones 32). rewrite Z.land_ones by lia. reflexivity. Qed.
Lemma shr32 z : Z.shiftr z 32 = z / 4294967296.
Proof. rewrite Z.shiftr_div_pow2 by lia. reflexivity. Qed.
Lemma p64 : 2 ^ 64 = 18446744073709551616. Proof. reflexivity. Qed.
Lemma p63 : 2 ^ 63 = 9223372036854775808. Proof. reflexivity. Qed.
Lemma s64_some z : - 9223372036854775808 <= z < 9223372036854775808 -> s64 z = Some z.
Proof.
  intro H. unfold s64. rewrite p63.
  rewrite (proj2 (Z.leb_le _ _)) by lia. rewrite (proj2 (Z.ltb_lt _ _)) by lia. reflexivity.
Qed.
Lemma u32_id z : 0 <= z < 4294967296 -> u32 z = z.
Proof. intro. unfold u32. apply Z.mod_small. exact H. Qed.
Lemma u64_id z : 0 <= z < 18446744073709551616 -> u64 z = z.
Proof. intro. unfold u64. apply Z.mod_small. exact H. Qed.

Lemma split32 z : exists z1 z0, z / 4294967296 = z1 /\ z mod 4294967296 = z0 /\
  z = z1 * 4294967296 + z0 /\ 0 <= z0 < 4294967296.
Proof.
  exists (z / 4294967296), (z mod 4294967296).
  pose proof (Z.div_mod z 4294967296). pose proof (Z.mod_pos_bound z 4294967296). lia.
Qed.

Lemma mulhi_64_ok x y : is_int64 x -> is_int64 y ->
  exists h, mulhi_64 x y = Some h /\ high_half x y h.
Proof.
  unfold is_int64, mulhi_64, mullhi_u32, high_half. rewrite !land_mask, !shr32, p63, p64. intros Hx Hy.
  destruct (split32 x) as (x1 & x0 & -> & -> & Ex & Bx).
  destruct (split32 y) as (y1 & y0 & -> & -> & Ey & By).
  assert (X1 : -2147483648 <= x1 < 2147483648) by lia.
  assert (Y1 : -2147483648 <= y1 < 2147483648) by lia.
  rewrite !(u32_id x0), !(u32_id y0) by lia.
  assert (P00 : 0 <= x0 * y0 <= 4294967295 * 4294967295) by nia.
  assert (P10 : -2147483648 * 4294967295 <= x1 * y0 <= 2147483647 * 4294967295) by nia.
  assert (P01 : -2147483648 * 4294967295 <= x0 * y1 <= 2147483647 * 4294967295) by nia.
  assert (P11 : -2147483648 * 2147483647 <= x1 * y1 <= 2147483648 * 2147483648) by nia.
  rewrite (u64_id (x0 * y0)) by lia.
  assert (XY : x * y = x1 * y1 * 18446744073709551616 + (x1 * y0 + x0 * y1) * 4294967296 + x0 * y0)
    by (subst x y; ring).
  set (p00 := x0 * y0) in *. set (p10 := x1 * y0) in *. set (p01 := x0 * y1) in *.
  set (p11 := x1 * y1) in *. clearbody p00 p10 p01 p11. rewrite XY. clear XY Ex Ey Hx Hy.
  destruct (split32 p00) as (h & l & -> & _ & E0 & B0).
  rewrite (u32_id h) by lia.
  rewrite (s64_some p10) by lia. rewrite (s64_some (p10 + h)) by lia.
  rewrite (s64_some p01) by lia.
  rewrite !shr32. rewrite !land_mask.
  destruct (split32 (p10 + h)) as (tq & tr & -> & -> & Et & Bt).
  rewrite (s64_some (p01 + tr)) by lia. rewrite (s64_some p11) by lia.
  rewrite !shr32.
  destruct (split32 (p01 + tr)) as (wq & wr & -> & _ & Ew & Bw).
  rewrite (s64_some (p11 + tq)) by lia.
  rewrite (s64_some (p11 + tq + wq)) by lia.
  eexists; split; [reflexivity|]. exists (wr * 4294967296 + l). lia.
Qed.

Lemma mulhi_u64_ok x y : is_uint64 x -> is_uint64 y -> high_half x y (mulhi_u64 x y).
Proof.
  unfold is_uint64, mulhi_u64, high_half. rewrite !land_mask, !shr32, p64. intros Hx Hy.
  destruct (split32 x) as (x1 & x0 & -> & -> & Ex & Bx).
  destruct (split32 y) as (y1 & y0 & -> & -> & Ey & By).
  assert (X1 : 0 <= x1 < 4294967296) by lia.
  assert (Y1 : 0 <= y1 < 4294967296) by lia.
  assert (P00 : 0 <= x0 * y0 <= 4294967295 * 4294967295) by nia.
  assert (P10 : 0 <= x1 * y0 <= 4294967295 * 4294967295) by nia.
  assert (P01 : 0 <= x0 * y1 <= 4294967295 * 4294967295) by nia.
  assert (P11 : 0 <= x1 * y1 <= 4294967295 * 4294967295) by nia.
  rewrite (u64_id (x0 * y0)), (u64_id (x1 * y0)), (u64_id (x0 * y1)), (u64_id (x1 * y1)) by lia.
  assert (XY : x * y = x1 * y1 * 18446744073709551616 + (x1 * y0 + x0 * y1) * 4294967296 + x0 * y0)
    by (subst x y; ring).
  set (p00 := x0 * y0) in *. set (p10 := x1 * y0) in *. set (p01 := x0 * y1) in *.
  set (p11 := x1 * y1) in *. clearbody p00 p10 p01 p11. rewrite XY. clear XY Ex Ey.
  destruct (split32 p00) as (h & l & -> & _ & E0 & B0).
  destruct (split32 p10) as (aq & ar & -> & -> & Ea & Ba).
  destruct (split32 p01) as (bq & br & -> & -> & Eb & Bb).
  rewrite (u64_id (ar + br)) by lia. rewrite (u64_id (ar + br + h)) by lia.
  destruct (split32 (ar + br + h)) as (c & r & -> & _ & Ec & Bc).
  rewrite (u64_id (p11 + aq)) by lia. rewrite (u64_id (p11 + aq + bq)) by lia.
  rewrite (u64_id (p11 + aq + bq + c)) by lia.
  exists (r * 4294967296 + l). lia.
Qed.

Lemma mulhi_fast_64_ok x y : is_int64 x -> is_int64 y ->
  exists r e, mulhi_fast_64 x y = Some r /\ high_half x y (r + e) /\ 0 <= e <= 2.
Proof.
  unfold is_int64, mulhi_fast_64, high_half. rewrite !land_mask, !shr32, p63, p64. intros Hx Hy.
  destruct (split32 x) as (x1 & x0 & -> & -> & Ex & Bx).
  destruct (split32 y) as (y1 & y0 & -> & -> & Ey & By).
  assert (X1 : -2147483648 <= x1 < 2147483648) by lia.
  assert (Y1 : -2147483648 <= y1 < 2147483648) by lia.
  rewrite !(u32_id x0), !(u32_id y0) by lia.
  assert (P00 : 0 <= x0 * y0 <= 4294967295 * 4294967295) by nia.
  assert (P10 : -2147483648 * 4294967295 <= x1 * y0 <= 2147483647 * 4294967295) by nia.
  assert (P01 : -2147483648 * 4294967295 <= x0 * y1 <= 2147483647 * 4294967295) by nia.
  assert (P11 : -2147483648 * 2147483647 <= x1 * y1 <= 2147483648 * 2147483648) by nia.
  assert (XY : x * y = x1 * y1 * 18446744073709551616 + (x1 * y0 + x0 * y1) * 4294967296 + x0 * y0)
    by (subst x y; ring).
  set (p00 := x0 * y0) in *. set (p10 := x1 * y0) in *. set (p01 := x0 * y1) in *.
  set (p11 := x1 * y1) in *. clearbody p00 p10 p01 p11. rewrite XY. clear XY Ex Ey Hx Hy.
  rewrite (s64_some p10), (s64_some p01), (s64_some p11) by lia. rewrite !shr32.
  destruct (split32 p10) as (aq & ar & -> & _ & Ea & Ba).
  destruct (split32 p01) as (bq & br & -> & _ & Eb & Bb).
  rewrite (s64_some (p11 + aq)) by lia. rewrite (s64_some (p11 + aq + bq)) by lia.
  destruct (split32 p00) as (h & l & _ & _ & E0 & B0).
  destruct (split32 (ar + br + h)) as (c & r & _ & _ & Ec & Bc).
  exists (p11 + aq + bq), c. split; [reflexivity|]. split; [|lia].
  exists (r * 4294967296 + l). lia.
Qed.
