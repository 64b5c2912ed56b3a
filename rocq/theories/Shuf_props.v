(** * C53: register shuffles of the SIMD wrappers *)
From Coq Require Import Arith NArith List Lia.
From Verif Require Import Shuf_model Shuf_spec Shuf_proofs.
Import ListNotations.

(** unpacklo, unpackhi: the interleavings, for every content of the registers
    ([interleave_low g n]: n elements of g lanes). *)
Theorem C53_unpack : forall T : Type,
  (interleave_low 1 4 (@unpacklo_128_32 T) /\ interleave_high 1 4 (@unpackhi_128_32 T)) /\
  (interleave_low 1 2 (@unpacklo_128_64 T) /\ interleave_high 1 2 (@unpackhi_128_64 T)) /\
  (interleave_low 1 8 (@unpacklo_128_16 T) /\ interleave_high 1 8 (@unpackhi_128_16 T)) /\
  (interleave_low 1 8 (@unpacklo_256_32 T) /\ interleave_high 1 8 (@unpackhi_256_32 T)) /\
  (interleave_low 1 8 (@unpacklo_256_32_avx T) /\ interleave_high 1 8 (@unpackhi_256_32_avx T)) /\
  (interleave_low 1 4 (@unpacklo_256_64 T) /\ interleave_high 1 4 (@unpackhi_256_64 T)) /\
  (interleave_low 1 4 (@unpacklo_256_64_avx T) /\ interleave_high 1 4 (@unpackhi_256_64_avx T)) /\
  (interleave_low 1 16 (@unpacklo_256_16 T) /\ interleave_high 1 16 (@unpackhi_256_16 T)) /\
  (interleave_low 1 16 (@unpacklo_512_32 T) /\ interleave_high 1 16 (@unpackhi_512_32 T)) /\
  (interleave_low 1 8 (@unpacklo_512_64 T) /\ interleave_high 1 8 (@unpackhi_512_64 T)).
Proof.
  exact (fun T => conj (conj lo_128_32 hi_128_32) (conj (conj lo_128_64 hi_128_64)
    (conj (conj lo_128_16 hi_128_16) (conj (conj lo_256_32 hi_256_32)
    (conj (conj lo_256_32_avx hi_256_32_avx) (conj (conj lo_256_64 hi_256_64)
    (conj (conj lo_256_64_avx hi_256_64_avx) (conj (conj lo_256_16 hi_256_16)
    (conj (conj lo_512_32 hi_512_32) (conj lo_512_64 hi_512_64)))))))))).
Qed.
Print Assumptions C53_unpack.

(** pack_even, pack_odd: the elements of even (odd) number of a, then of b. *)
Theorem C53_pack : forall T : Type,
  (compress 0 1 4 (@pack_even_128_32 T) /\ compress 1 1 4 (@pack_odd_128_32 T)) /\
  (compress 0 1 2 (@pack_even_128_64 T) /\ compress 1 1 2 (@pack_odd_128_64 T)) /\
  (compress 0 2 8 (@pack_even_128_16 T) /\ compress 1 2 8 (@pack_odd_128_16 T)) /\
  (compress 0 1 8 (@pack_even_256_32 T) /\ compress 1 1 8 (@pack_odd_256_32 T)) /\
  (compress 0 1 8 (@pack_even_256_32_avx T) /\ compress 1 1 8 (@pack_odd_256_32_avx T)) /\
  (compress 0 1 4 (@pack_even_256_64 T) /\ compress 1 1 4 (@pack_odd_256_64 T)) /\
  (compress 0 1 4 (@pack_even_256_64_avx T) /\ compress 1 1 4 (@pack_odd_256_64_avx T)) /\
  (compress 0 2 16 (@pack_even_256_16 T) /\ compress 1 2 16 (@pack_odd_256_16 T)) /\
  (compress 0 1 16 (@pack_even_512_32 T) /\ compress 1 1 16 (@pack_odd_512_32 T)) /\
  (compress 0 1 8 (@pack_even_512_64 T) /\ compress 1 1 8 (@pack_odd_512_64 T)).
Proof.
  exact (fun T => conj (conj ev_128_32 od_128_32) (conj (conj ev_128_64 od_128_64)
    (conj (conj ev_128_16 od_128_16) (conj (conj ev_256_32 od_256_32)
    (conj (conj ev_256_32_avx od_256_32_avx) (conj (conj ev_256_64 od_256_64)
    (conj (conj ev_256_64_avx od_256_64_avx) (conj (conj ev_256_16 od_256_16)
    (conj (conj ev_512_32 od_512_32) (conj ev_512_64 od_512_64)))))))))).
Qed.
Print Assumptions C53_pack.

(** transpose of n registers of n elements *)
Theorem C53_transpose : forall T : Type,
  transposes 2 (@transpose_128_64 T) /\ transposes 4 (@transpose_128_float T) /\
  transposes 8 (@transpose_128_int16 T) /\ transposes 4 (@transpose_128_int32 T) /\
  transposes 8 (@transpose_256_float T) /\ transposes 4 (@transpose_256_double T) /\
  transposes 16 (@transpose_256_int16 T) /\ transposes 8 (@transpose_256_int32 T) /\
  transposes 4 (@transpose_256_int64 T) /\ transposes 16 (@transpose_512_float T) /\
  transposes 8 (@transpose_512_double T) /\ transposes 8 (@transpose_512_int64 T).
Proof.
  exact (fun T => conj tr_128_64 (conj tr_128_float (conj tr_128_int16 (conj tr_128_int32
    (conj tr_256_float (conj tr_256_double (conj tr_256_int16 (conj tr_256_int32
    (conj tr_256_int64 (conj tr_512_float (conj tr_512_double tr_512_int64))))))))))).
Qed.
Print Assumptions C53_transpose.

(** blend: the emulated masks select the elements that the bits of s designate
    (set bit: from b). *)
Theorem C53_blend : forall (T : Type) s,
  (forall n, blends 1 n s (@blendi T n s)) /\
  ((s < 16)%N -> blends 2 4 s (@blend_128_32_sse T s) /\ blends 2 4 s (@blend_256_64 T s)) /\
  ((s < 4)%N -> blends 2 2 s (@blend_128_64 T s) /\ blends 4 2 s (@blend_128_64_sse T s)) /\
  ((s < 65536)%N -> blends 1 16 s (@blend_256_16 T s)).
Proof.
  exact (fun T s => conj (fun n => blendi_ok T n s)
    (conj (fun H => conj (blend_twice T s H) (blend_twice T s H))
    (conj (blend_128_64_ok T s) (blend_256_16_ok T s)))).
Qed.
Print Assumptions C53_blend.

(** The comment above every blend says "s[i] ? a_i : b_i": the opposite. *)
Theorem C53_blend_comment_refuted : exists (a b : nat -> nat) s i,
  i < 8 /\ (s < 256)%N /\
  blend_128_16 s a b i <> (if N.testbit s (N.of_nat i) then a i else b i).
Proof.
  exact (ex_intro _ (fun _ => 0) (ex_intro _ (fun _ => 1) (ex_intro _ 1%N (ex_intro _ 0
    (conj (Nat.lt_0_succ 7) (conj (eq_refl Lt) (fun H => Nat.neq_succ_0 0 H))))))).
Qed.
Print Assumptions C53_blend_comment_refuted.

(** shuffle<s> on 64-bit elements of 128 bits (lanes of 32 bits) *)
Theorem C53_shuffle_128_64 : forall (T : Type) s (a : nat -> T) i k, i < 2 -> k < 2 ->
  shuffle_128_64 s a (i * 2 + k) = a ((if N.testbit s (N.of_nat i) then 1 else 0) * 2 + k).
Proof. exact shuffle_128_64_ok. Qed.
Print Assumptions C53_shuffle_128_64.

(** shuffle<s> on 16-bit elements, and on 32-bit elements of 256 bits, should
    return [a[s[0..3]], a[s[4..7]], ...].  It indexes out of bounds exactly when a
    field of odd number is not zero or a field of even number is not below n. *)
Theorem C53_shuffle_partial : forall (T : Type) n s (a : nat -> T), n <= 16 ->
  match shuffle n s a with
  | Some r => (forall k, k < n -> if Nat.even k then (nibble s k < N.of_nat n)%N else nibble s k = 0%N) /\
              (forall k, k < n -> r k = a (N.to_nat (nibble s k)))
  | None => exists k, k < n /\ if Nat.even k then (N.of_nat n <= nibble s k)%N else nibble s k <> 0%N
  end.
Proof. exact shuffle_ok. Qed.
Print Assumptions C53_shuffle_partial.

(** The identity mask goes out of bounds. *)
Theorem C53_shuffle_refuted : exists (s : N) (a : nat -> nat),
  (s < 2 ^ 32)%N /\ map (nibble s) (seq 0 8) = [0; 1; 2; 3; 4; 5; 6; 7]%N /\ shuffle 8 s a = None.
Proof.
  exact (ex_intro _ 0x76543210%N (ex_intro _ (fun i => i) (conj (eq_refl Lt) (conj eq_refl eq_refl)))).
Qed.
Print Assumptions C53_shuffle_refuted.

Definition lanes_of (n : nat) (r : nat -> nat) := map r (seq 0 n).

Example C53_case :
  let a := fun i => i in let b := fun i => 100 + i in
  lanes_of 8 (unpackhi_256_32 a b) = [4; 104; 5; 105; 6; 106; 7; 107] /\
  lanes_of 8 (pack_odd_512_64 a b) = [1; 3; 5; 7; 101; 103; 105; 107] /\
  map (lanes_of 4) (transpose_256_double (fun i j => 10 * i + j)) =
    [[0; 10; 20; 30]; [1; 11; 21; 31]; [2; 12; 22; 32]; [3; 13; 23; 33]] /\
  lanes_of 16 (blend_256_16 0xf0a5 a b) =
    [100; 1; 102; 3; 4; 105; 6; 107; 8; 9; 10; 11; 112; 113; 114; 115] /\
  option_map (lanes_of 8) (shuffle 8 0x04030201 a) = Some [1; 0; 2; 0; 3; 0; 4; 0].
Proof. vm_compute. repeat split; reflexivity. Qed.
