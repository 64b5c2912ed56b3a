(** * C54: integer SIMD operations emulated with other ones *)
From Coq Require Import ZArith Lia.
From Verif Require Import Emul_model Emul_spec Emul_proofs.
Open Scope Z_scope.

(** Arithmetic shift of 64-bit lanes: the quotient rounded down. *)
Theorem C54_sra64 : forall s x v, 0 <= s <= 63 -> stands 64 x v -> stands 64 (sra64 s x) (v / 2 ^ s).
Proof. exact sra64_ok. Qed.
Print Assumptions C54_sra64.

(** Comparisons of unsigned lanes of any width. *)
Theorem C54_compare_unsigned : forall w a b, 1 <= w -> lane w a -> lane w b ->
  is_mask w (greater_u w a b) (a > b) /\ is_mask w (lesser_u w a b) (a < b) /\
  is_mask w (greater_eq_u w a b) (a >= b) /\ is_mask w (lesser_eq_u w a b) (a <= b).
Proof. exact compare_u_ok. Qed.
Print Assumptions C54_compare_unsigned.

(** Comparisons of signed lanes of any width. *)
Theorem C54_compare_signed : forall w a b u v, 1 <= w -> stands w a u -> stands w b v ->
  is_mask w (greater_eq_s w a b) (u >= v) /\ is_mask w (lesser_eq_s w a b) (u <= v).
Proof. exact compare_s_ok. Qed.
Print Assumptions C54_compare_signed.

(** mulx: the exact product of the low halves, whatever the high halves hold. *)
Theorem C54_mulx : forall h a b, 1 <= h ->
  (forall u v, stands h (a mod 2 ^ h) u -> stands h (b mod 2 ^ h) v ->
     stands (2 * h) (mulx_s h a b) (u * v)) /\
  (lane (2 * h) a -> lane (2 * h) b -> mulx_u h a b = (a mod 2 ^ h) * (b mod 2 ^ h)).
Proof. exact (fun h a b H => conj (fun u v => mulx_s_ok h a b u v H) (mulx_u_ok h a b H)). Qed.
Print Assumptions C54_mulx.

(** mulhi on two 32-bit lanes. *)
Theorem C54_mulhi32 : forall a0 a1 b0 b1,
  (forall u0 u1 v0 v1, stands 32 a0 u0 -> stands 32 a1 u1 -> stands 32 b0 v0 -> stands 32 b1 v1 ->
   exists h0 h1, mulhi32 mul_epi32 (a0 + 2 ^ 32 * a1) (b0 + 2 ^ 32 * b1) = h0 + 2 ^ 32 * h1 /\
     stands 32 h0 (u0 * v0 / 2 ^ 32) /\ stands 32 h1 (u1 * v1 / 2 ^ 32)) /\
  (lane 32 a0 -> lane 32 a1 -> lane 32 b0 -> lane 32 b1 ->
   mulhi32 mul_epu32 (a0 + 2 ^ 32 * a1) (b0 + 2 ^ 32 * b1) =
     a0 * b0 / 2 ^ 32 + 2 ^ 32 * (a1 * b1 / 2 ^ 32)).
Proof.
  exact (fun a0 a1 b0 b1 => conj (mulhi32_s_ok a0 a1 b0 b1) (mulhi32_u_ok a0 a1 b0 b1)).
Qed.
Print Assumptions C54_mulhi32.

(** mullo and mul on 64-bit lanes without AVX512: right exactly when the signed
    product does not overflow, undefined otherwise. *)
Theorem C54_mullo64_partial : forall a b u v, stands 64 a u -> stands 64 b v ->
  match mullo64 a b with
  | Some r => - 2 ^ 63 <= u * v < 2 ^ 63 /\ stands 64 r (u * v)
  | None => ~ (- 2 ^ 63 <= u * v < 2 ^ 63)
  end.
Proof. exact mullo64_ok. Qed.
Print Assumptions C54_mullo64_partial.

(** [mul] on uint64_t is undefined although the product of the two unsigned lanes
    fits in a lane. *)
Theorem C54_mul_u64_refuted : exists a b, lane 64 a /\ lane 64 b /\ lane 64 (a * b) /\ mul_u64 a b = None.
Proof.
  exists (2 ^ 32), (2 ^ 31). repeat split; try (vm_compute; congruence). 
Qed.
Print Assumptions C54_mul_u64_refuted.

(** mulhi_fast: the unsigned high half is right up to one, then two corrections are
    subtracted, which should be y if x < 0 and x if y < 0. *)
Theorem C54_mulhi_fast_partial : forall x y, lane 64 x -> lane 64 y ->
  exists h, x * y / 2 ^ 64 - 1 <= h <= x * y / 2 ^ 64 /\
    mulhi_fast_simd x y =
      (h - Z.land ((- (x / 2 ^ 31)) mod 2 ^ 64) y - Z.land ((- (y / 2 ^ 31)) mod 2 ^ 64) x) mod 2 ^ 64.
Proof. exact mulhi_fast_ok. Qed.
Print Assumptions C54_mulhi_fast_partial.

(** mulhi_fast "may be off by 1": it is off by 2^62 (signbits shifts by 31, not 63). *)
Theorem C54_mulhi_fast_refuted : exists x y, lane 64 x /\ lane 64 y /\ x < 2 ^ 63 /\ y < 2 ^ 63 /\
  2 ^ 61 < Z.abs (sig 64 (mulhi_fast_simd x y) - x * y / 2 ^ 64).
Proof.
  exists (2 ^ 32), (2 ^ 62). repeat split; vm_compute; congruence.
Qed.
Print Assumptions C54_mulhi_fast_refuted.

Example C54_case :
  (sig 64 (sra64 3 (2 ^ 64 - 20)) = -3) /\
  (greater_u 16 65535 1 = 65535 /\ greater_eq_u 16 1 65535 = 0 /\ lesser_eq_s 16 65535 1 = 65535) /\
  (sig 32 (mulx_s 16 (7 * 2 ^ 16 + 65535) (2 ^ 15)) = 2 ^ 15) /\
  (mulhi32 mul_epi32 (2 ^ 32 - 1 + 2 ^ 32 * 2 ^ 30) (5 + 2 ^ 32 * 12) = 2 ^ 32 - 1 + 2 ^ 32 * 3) /\
  mullo64 (2 ^ 64 - 3) 5 = Some (2 ^ 64 - 15).
Proof. vm_compute. repeat split; reflexivity. Qed.
