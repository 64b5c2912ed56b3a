(** * C72: the packed int64 product (igemm) and the int64 fgemv over it *)
From Coq Require Import ZArith.
From mathcomp Require Import all_ssreflect.
From Verif Require Import Grid Igemm_model Igemm_spec Igemm_proofs Igemm_pack Igemm_main Igemm_ex.

(** alpha = 0, 1 or -1 and entries of 32 bits: the exact product, nothing undefined, nothing else touched. *)
Theorem igemm_exact vs bf tA tB M N K alpha A lda B ldb beta mA0 mB0 ldc C mc kc :
  let a := rment tA A lda in let b := rment tB B ldb in
  0 < vs -> bf N K = Some (mc, kc) -> 0 < mc -> 0 < kc -> N <= ldc ->
  (forall i k, i < M -> k < K -> fits 32 (a i k)) ->
  (forall k j, k < K -> j < N -> fits 32 (b k j)) ->
  (alpha = 0 \/ alpha = 1 \/ alpha = -1)%Z ->
  (forall i j, i < M -> j < N -> (Z.abs (beta * C (i * ldc + j)%N) + Z.abs alpha * adot a b K i j < 2 ^ 63)%Z) ->
  exists C', [/\ igemm_row vs bf tA tB M N K alpha A lda B ldb beta mA0 mB0 ldc (C, true) = Some (C', true),
   forall i j, i < M -> j < N -> C' (i * ldc + j) = (beta * C (i * ldc + j)%N + alpha * dot a b 0 K i j)%Z
   & only_window M N ldc C C'].
Proof. exact (fun h1 h2 h3 h4 h5 h6 h7 h8 => @igemm_row_exact_l vs bf tA tB M N K alpha A lda B ldb beta mA0 mB0 ldc C mc kc h1 h2 h3 h4 h5 h6 h7 (or_introl h8)). Qed.
Print Assumptions igemm_exact.

(** Without a bound on the sums: the product modulo 2^64. *)
Theorem igemm_mod64 vs bf tA tB M N K alpha A lda B ldb beta mA0 mB0 ldc C ok mc kc :
  let a := rment tA A lda in let b := rment tB B ldb in
  0 < vs -> bf N K = Some (mc, kc) -> 0 < mc -> 0 < kc -> N <= ldc ->
  (forall i k, i < M -> k < K -> fits 32 (a i k)) ->
  (forall k j, k < K -> j < N -> fits 32 (b k j)) ->
  (alpha = 0 \/ alpha = 1 \/ alpha = -1)%Z ->
  exists s', [/\ igemm_row vs bf tA tB M N K alpha A lda B ldb beta mA0 mB0 ldc (C, ok) = Some s',
   forall i j, i < M -> j < N -> (exists z, s'.1 (i * ldc + j)%N = beta * C (i * ldc + j)%N + alpha * dot a b 0 K i j + z * 2 ^ 64)%Z
   & only_window M N ldc C s'.1].
Proof. exact (@igemm_mod64_l vs bf tA tB M N K alpha A lda B ldb beta mA0 mB0 ldc C ok mc kc). Qed.
Print Assumptions igemm_mod64.

(** Any alpha, but alpha, alpha times B and the sums must fit in 32 bits. *)
Theorem igemm_alpha_partial vs bf tA tB M N K alpha A lda B ldb beta mA0 mB0 ldc C mc kc :
  let a := rment tA A lda in let b := rment tB B ldb in
  0 < vs -> bf N K = Some (mc, kc) -> 0 < mc -> 0 < kc -> N <= ldc ->
  (forall i k, i < M -> k < K -> fits 32 (a i k)) ->
  (forall k j, k < K -> j < N -> fits 32 (b k j)) ->
  fits 32 alpha -> (forall k j, k < K -> j < N -> fits 32 (alpha * b k j)) ->
  (forall i j, i < M -> j < N -> (adot a b K i j < 2 ^ 31)%Z) ->
  (forall i j, i < M -> j < N -> (Z.abs (beta * C (i * ldc + j)%N) + Z.abs alpha * adot a b K i j < 2 ^ 63)%Z) ->
  exists C', [/\ igemm_row vs bf tA tB M N K alpha A lda B ldb beta mA0 mB0 ldc (C, true) = Some (C', true),
   forall i j, i < M -> j < N -> C' (i * ldc + j) = (beta * C (i * ldc + j)%N + alpha * dot a b 0 K i j)%Z
   & only_window M N ldc C C'].
Proof. exact (fun h1 h2 h3 h4 h5 h6 h7 h8 h9 h10 => @igemm_row_exact_l vs bf tA tB M N K alpha A lda B ldb beta mA0 mB0 ldc C mc kc h1 h2 h3 h4 h5 h6 h7 (or_intror (And3 h8 h9 h10))). Qed.
Print Assumptions igemm_alpha_partial.

(** With alpha = 2 a product of 33 bits is lost, although the result fits in 64. *)
Theorem igemm_alpha_refuted : exists vs bf M N K alpha (a b : Z) mc kc s',
  [/\ 0 < vs /\ bf N K = Some (mc, kc), 0 < mc /\ 0 < kc, fits 32 a /\ fits 32 b,
      igemm_row vs bf false false M N K alpha (fun=> a) K (fun=> b) N 0 (fun=> 0%Z) (fun=> 0%Z) N (fun=> 0%Z, true) = Some s'
    & fits 64 (alpha * (a * b)) /\ s'.1 0 <> (alpha * (Z.of_nat K * (a * b)))%Z].
Proof. exact igemm_alpha_refuted_l. Qed.
Print Assumptions igemm_alpha_refuted.

(** Entries beyond 32 bits are cut. *)
Theorem igemm_range_refuted : exists vs bf M N K (a b : Z) mc kc s',
  [/\ 0 < vs /\ bf N K = Some (mc, kc), 0 < mc /\ 0 < kc, fits 64 a /\ fits 64 b,
      igemm_row vs bf false false M N K 1 (fun=> a) K (fun=> b) N 0 (fun=> 0%Z) (fun=> 0%Z) N (fun=> 0%Z, true) = Some s'
    & fits 64 (Z.of_nat K * (a * b)) /\ s'.1 0 <> (Z.of_nat K * (a * b))%Z].
Proof. exact igemm_range_refuted_l. Qed.
Print Assumptions igemm_range_refuted.

Theorem fgemv_int64_exact vs bf ta M N alpha A lda X incX beta mA0 mB0 incY Y mc kc :
  let m := if ta then N else M in let n := if ta then M else N in
  let a := rment ta A lda in let x k (_ : nat) := X (k * incX)%N in
  0 < vs -> bf 1 n = Some (mc, kc) -> 0 < mc -> 0 < kc -> 0 < incY ->
  (forall i k, i < m -> k < n -> fits 32 (a i k)) ->
  (forall k, k < n -> fits 32 (X (k * incX))) ->
  (alpha = 0 \/ alpha = 1 \/ alpha = -1)%Z ->
  (forall i, i < m -> (Z.abs (beta * Y (i * incY)%N) + Z.abs alpha * adot a x n i 0 < 2 ^ 63)%Z) ->
  exists Y', [/\ fgemv_int64 vs bf ta M N alpha A lda X incX beta mA0 mB0 incY (Y, true) = Some (Y', true),
   forall i, i < m -> Y' (i * incY) = (beta * Y (i * incY)%N + alpha * dot a x 0 n i 0)%Z
   & forall q, (forall i, i < m -> q <> i * incY) -> Y' q = Y q].
Proof. exact (fun h1 h2 h3 h4 h5 h6 h7 h8 => @fgemv_int64_exact_l vs bf ta M N alpha A lda X incX beta mA0 mB0 incY Y mc kc h1 h2 h3 h4 h5 h6 h7 (or_introl h8)). Qed.
Print Assumptions fgemv_int64_exact.

(** Without SSE4.1 the code multiplies Y by beta Y. *)
Theorem fgemv_int64_scalar_refuted : exists M N alpha A X beta Y,
  fgemv_int64_scalar false M N alpha A N X 1 beta 1 Y 0 <> (beta * Y 0%N + alpha * dot (rment false A N) (fun k _ => X k) 0 N 0 0)%Z.
Proof. exact fgemv_int64_scalar_refuted_l. Qed.
Print Assumptions fgemv_int64_scalar_refuted.

Theorem fgemm_int64_scalar_ok ta tb m n k alpha A lda B ldb beta ldc C :
  let a := rment ta A lda in let b := rment tb B ldb in n <= ldc ->
  (forall i j, i < m -> j < n ->
    fgemm_int64_scalar ta tb m n k alpha A lda B ldb beta ldc C (i * ldc + j) = (beta * C (i * ldc + j)%N + alpha * dot a b 0 k i j)%Z)
  /\ only_window m n ldc C (fgemm_int64_scalar ta tb m n k alpha A lda B ldb beta ldc C).
Proof. exact (@fgemm_int64_scalar_l ta tb m n k alpha A lda B ldb beta ldc C). Qed.
Print Assumptions fgemm_int64_scalar_ok.

(** The block sizes are positive as soon as the caches are known and ordered by size. *)
Theorem BlockingFactor_pos vs l1 l2 l3 tlb m k : 0 < m -> 0 < k ->
  (2 * (4 + 2 * Z.of_nat vs) * 8 <= l1 < 2 ^ 31)%Z -> (l1 <= Z.max l2 l3 < 2 ^ 31)%Z -> (tlb = 0 \/ l1 <= tlb)%Z ->
  exists mc kc, [/\ BlockingFactor vs l1 l2 l3 tlb m k = Some (mc, kc), 0 < mc <= m & 0 < kc <= k].
Proof. exact (@BlockingFactor_pos_l vs l1 l2 l3 tlb m k). Qed.
Print Assumptions BlockingFactor_pos.

(** A cache size of 0: division by zero. *)
Theorem BlockingFactor_refuted : exists vs l1 l2 l3 m k, [/\ 0 < m, 0 < k & BlockingFactor vs l1 l2 l3 0 m k = None].
Proof. exact BlockingFactor_refuted_l. Qed.
Print Assumptions BlockingFactor_refuted.
