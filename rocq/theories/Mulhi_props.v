(** * High half of 64-bit products: C43 *)
From Coq Require Import ZArith.
From Verif Require Import Mulhi_model Mulhi_spec Mulhi_proofs.
Open Scope Z_scope.

(** The portable mulhi_64 has no signed overflow and returns the exact high
    half, for all operands. *)
Theorem C43_mulhi_64 : forall x y, is_int64 x -> is_int64 y ->
  exists h, mulhi_64 x y = Some h /\ high_half x y h.
Proof. exact mulhi_64_ok. Qed.
Print Assumptions C43_mulhi_64.

(** Same for the unsigned version: the wrap-arounds never lose a carry. *)
Theorem C43_mulhi_u64 : forall x y, is_uint64 x -> is_uint64 y -> high_half x y (mulhi_u64 x y).
Proof. exact mulhi_u64_ok. Qed.
Print Assumptions C43_mulhi_u64.

(** The fast version has no overflow either and is short by at most 2. *)
Theorem C43_mulhi_fast : forall x y, is_int64 x -> is_int64 y ->
  exists r e, mulhi_fast_64 x y = Some r /\ high_half x y (r + e) /\ 0 <= e <= 2.
Proof. exact mulhi_fast_64_ok. Qed.
Print Assumptions C43_mulhi_fast.

Example C43_cases :
  mulhi_64 (- 2 ^ 63) (- 2 ^ 63) = Some (2 ^ 62) /\
  mulhi_64 (-1) 1 = Some (-1) /\
  mulhi_u64 (2 ^ 64 - 1) (2 ^ 64 - 1) = 2 ^ 64 - 2 /\
  mulhi_fast_64 (2 ^ 63 - 1) (2 ^ 63 - 1) = Some (2 ^ 62 - 3) /\
  mulhi_64 (2 ^ 63 - 1) (2 ^ 63 - 1) = Some (2 ^ 62 - 1).
Proof. vm_compute. repeat split. Qed.
