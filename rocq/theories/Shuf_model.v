(** * Model of the register shuffles of the SIMD wrappers: fflas/fflas_simd/simd{128,256,512}_*.inl *)
From Coq Require Import Arith NArith List.
Import ListNotations.

Section Shuf.
Context {T : Type}.

(** A register is the function from a lane number to the content of the lane.
    Lanes have the width of the element type unless stated otherwise. *)
Definition vec := nat -> T.

(** ** Intrinsics.  [L] is the number of lanes in 128 bits and [c] the number of
    lanes in the unit which is moved. *)

(** _mm*_unpacklo_* ([h] = 0) and _mm*_unpackhi_* ([h] = 1): in each 128 bits,
    interleave the units of the low (high) half of [a] and [b]. *)
Definition unpack (c L h : nat) (a b : vec) : vec := fun i =>
  let k := i mod L in
  let q := k / c in
  (if Nat.even q then a else b) (i / L * L + (h * (L / c / 2) + q / 2) * c + k mod c).

(** The [k]-th field of two bits of an immediate. *)
Definition sel2 (imm : N) (k : nat) : nat := N.to_nat (N.land (N.shiftr imm (N.of_nat (2 * k))) 3).

(** _mm256_permute4x64_*: [c] lanes in 64 bits. *)
Definition perm64 (c : nat) (imm : N) (a : vec) : vec := fun i => a (sel2 imm (i / c) * c + i mod c).

(** _mm256_permute2f128_*, _mm256_permute2x128_si256; bit 3 of each half of the
    immediate (clear the half) is taken to be 0. *)
Definition perm128 (L : nat) (imm : N) (a b : vec) : vec := fun i =>
  let s := N.to_nat (N.land (N.shiftr imm (N.of_nat (4 * (i / L)))) 3) in
  (if s <? 2 then a else b) (s mod 2 * L + i mod L).

(** _mm*_shuffle_epi32, _mm*_permute_ps: four lanes in 128 bits. *)
Definition shuf32 (imm : N) (a : vec) : vec := fun i => a (i / 4 * 4 + sel2 imm (i mod 4)).

(** _mm512_shuffle_ps *)
Definition shufps (imm : N) (a b : vec) : vec := fun i =>
  (if i mod 4 <? 2 then a else b) (i / 4 * 4 + sel2 imm (i mod 4)).

(** _mm*_shuffle_epi8: lanes are bytes, the index is taken in each 128 bits (top
    bit clear). *)
Definition shuf8 (idx : nat -> nat) (a : vec) : vec := fun i => a (i / 16 * 16 + idx i).

(** _mm_movelh_ps, _mm_movehl_ps: lanes of 32 bits. *)
Definition movelh (a b : vec) : vec := fun i => if i <? 2 then a i else b (i - 2).
Definition movehl (a b : vec) : vec := fun i => if i <? 2 then b (i + 2) else a i.

(** An array of indices loaded in a register. *)
Definition table (l : list nat) : nat -> nat := fun i => nth i l 0.

(** _mm512_permutexvar_* *)
Definition permutex (idx : nat -> nat) (a : vec) : vec := fun i => a (idx i).

(** _mm512_permutex2var_*, [n] lanes *)
Definition permutex2 (n : nat) (a : vec) (idx : nat -> nat) (b : vec) : vec := fun i =>
  if idx i <? n then a (idx i) else b (idx i - n).

(** _mm*_blend_*, _mm512_mask_blend_*: one bit for each lane; the 16-bit variant
    on 256 bits uses the same 8 bits twice ([period] = 8). *)
Definition blendi (period : nat) (imm : N) (a b : vec) : vec := fun i =>
  if N.testbit imm (N.of_nat (i mod period)) then b i else a i.

(** ** unpacklo, unpackhi, pack_even, pack_odd ([unpacklohi] and [pack] make the
    two calls with the same intermediate registers). *)

(** simd128_{float,int32}.inl: float l.178-274, int32 l.210-301 *)
Definition unpacklo_128_32 (a b : vec) := unpack 1 4 0 a b.
Definition unpackhi_128_32 (a b : vec) := unpack 1 4 1 a b.
Definition pack_even_128_32 (a b : vec) :=
  let t1 := shuf32 0xd8 a in let t2 := shuf32 0xd8 b in unpack 2 4 0 t1 t2.
Definition pack_odd_128_32 (a b : vec) :=
  let t1 := shuf32 0xd8 a in let t2 := shuf32 0xd8 b in unpack 2 4 1 t1 t2.

(** simd128_{double,int64}.inl: double l.171-272, int64 l.226-321 *)
Definition unpacklo_128_64 (a b : vec) := unpack 1 2 0 a b.
Definition unpackhi_128_64 (a b : vec) := unpack 1 2 1 a b.
Definition pack_even_128_64 (a b : vec) := unpacklo_128_64 a b.
Definition pack_odd_128_64 (a b : vec) := unpackhi_128_64 a b.
Definition transpose_128_64 (R : nat -> nat -> T) : list vec :=
  let r0 := R 0 in let r1 := R 1 in [unpacklo_128_64 r0 r1; unpackhi_128_64 r0 r1].

(** simd128_int16.inl:213-303.  In [pack_even] and [pack_odd] lanes are bytes;
    _mm_set_epi8 lists byte 15 first. *)
Definition unpacklo_128_16 (a b : vec) := unpack 1 8 0 a b.
Definition unpackhi_128_16 (a b : vec) := unpack 1 8 1 a b.
Definition idx_128_16 := table (rev [15; 14; 11; 10; 7; 6; 3; 2; 13; 12; 9; 8; 5; 4; 1; 0]).
Definition pack_even_128_16 (a b : vec) :=
  let t1 := shuf8 idx_128_16 a in let t2 := shuf8 idx_128_16 b in unpack 8 16 0 t1 t2.
Definition pack_odd_128_16 (a b : vec) :=
  let t1 := shuf8 idx_128_16 a in let t2 := shuf8 idx_128_16 b in unpack 8 16 1 t1 t2.

(** simd256_{float,int32}.inl with AVX2: float l.196-343, int32 l.261-346 *)
Definition unpacklo_256_32 (a b : vec) :=
  let t1 := perm64 2 0xd8 a in let t2 := perm64 2 0xd8 b in unpack 1 4 0 t1 t2.
Definition unpackhi_256_32 (a b : vec) :=
  let t1 := perm64 2 0xd8 a in let t2 := perm64 2 0xd8 b in unpack 1 4 1 t1 t2.
Definition pack_even_256_32 (a b : vec) :=
  let t1 := shuf32 0xd8 a in let t2 := shuf32 0xd8 b in
  let p1 := unpack 2 4 0 t1 t2 in perm64 2 0xd8 p1.
Definition pack_odd_256_32 (a b : vec) :=
  let t1 := shuf32 0xd8 a in let t2 := shuf32 0xd8 b in
  let p2 := unpack 2 4 1 t1 t2 in perm64 2 0xd8 p2.

(** simd256_float.inl without AVX2, l.206-208, 229-231, 255-258, 280-284, 306-310, 336-341 *)
Definition unpacklo_256_32_avx (a b : vec) :=
  let t1 := unpack 1 4 0 a b in let t2 := unpack 1 4 1 a b in perm128 4 0x20 t1 t2.
Definition unpackhi_256_32_avx (a b : vec) :=
  let t1 := unpack 1 4 0 a b in let t2 := unpack 1 4 1 a b in perm128 4 0x31 t1 t2.
Definition pack_even_256_32_avx (a b : vec) :=
  let pa := shuf32 0xd8 a in let pb := shuf32 0xd8 b in
  let t1 := perm128 4 0x20 pa pb in let t2 := perm128 4 0x31 pa pb in unpack 2 4 0 t1 t2.
Definition pack_odd_256_32_avx (a b : vec) :=
  let pa := shuf32 0xd8 a in let pb := shuf32 0xd8 b in
  let t1 := perm128 4 0x20 pa pb in let t2 := perm128 4 0x31 pa pb in unpack 2 4 1 t1 t2.

(** simd256_{double,int64}.inl with AVX2: double l.200-323, int64 l.260-336 *)
Definition unpacklo_256_64 (a b : vec) :=
  let t1 := perm64 1 0xd8 a in let t2 := perm64 1 0xd8 b in unpack 1 2 0 t1 t2.
Definition unpackhi_256_64 (a b : vec) :=
  let t1 := perm64 1 0xd8 a in let t2 := perm64 1 0xd8 b in unpack 1 2 1 t1 t2.
Definition pack_even_256_64 (a b : vec) := let t1 := unpack 1 2 0 a b in perm64 1 0xd8 t1.
Definition pack_odd_256_64 (a b : vec) := let t2 := unpack 1 2 1 a b in perm64 1 0xd8 t2.

(** simd256_double.inl without AVX2, l.208-210, 229-231, 253-256, 274-276, 294-296, 318-321 *)
Definition unpacklo_256_64_avx (a b : vec) :=
  let t1 := unpack 1 2 0 a b in let t2 := unpack 1 2 1 a b in perm128 2 0x20 t1 t2.
Definition unpackhi_256_64_avx (a b : vec) :=
  let t1 := unpack 1 2 0 a b in let t2 := unpack 1 2 1 a b in perm128 2 0x31 t1 t2.
Definition pack_even_256_64_avx (a b : vec) :=
  let t1 := perm128 2 0x20 a b in let t2 := perm128 2 0x31 a b in unpack 1 2 0 t1 t2.
Definition pack_odd_256_64_avx (a b : vec) :=
  let t1 := perm128 2 0x20 a b in let t2 := perm128 2 0x31 a b in unpack 1 2 1 t1 t2.

(** simd256_int16.inl:259-356; in [pack_even] and [pack_odd] lanes are bytes, the
    16-bit words of shuffle_idx are stored low byte first. *)
Definition unpacklo_256_16 (a b : vec) :=
  let t1 := perm64 4 0xd8 a in let t2 := perm64 4 0xd8 b in unpack 1 8 0 t1 t2.
Definition unpackhi_256_16 (a b : vec) :=
  let t1 := perm64 4 0xd8 a in let t2 := perm64 4 0xd8 b in unpack 1 8 1 t1 t2.
Definition words (l : list N) : list nat :=
  flat_map (fun w => [N.to_nat (N.land w 0xff); N.to_nat (N.shiftr w 8)]) l.
Definition idx_256_16 := table (words
  [0x0100; 0x0504; 0x0908; 0x0d0c; 0x0302; 0x0706; 0x0b0a; 0x0f0e;
   0x0100; 0x0504; 0x0908; 0x0d0c; 0x0302; 0x0706; 0x0b0a; 0x0f0e]%N).
Definition pack_even_256_16 (a b : vec) :=
  let ta := shuf8 idx_256_16 a in let tb := shuf8 idx_256_16 b in
  let t1 := unpack 8 16 0 ta tb in perm64 8 0xd8 t1.
Definition pack_odd_256_16 (a b : vec) :=
  let ta := shuf8 idx_256_16 a in let tb := shuf8 idx_256_16 b in
  let t2 := unpack 8 16 1 ta tb in perm64 8 0xd8 t2.

(** simd512_float.inl:194-279 *)
Definition idx_unpack_512_32 := table [0; 1; 8; 9; 2; 3; 10; 11; 4; 5; 12; 13; 6; 7; 14; 15].
Definition idx_pack_512_32 := table [0; 1; 4; 5; 8; 9; 12; 13; 2; 3; 6; 7; 10; 11; 14; 15].
Definition unpacklo_512_32 (a b : vec) :=
  let ta := permutex idx_unpack_512_32 a in let tb := permutex idx_unpack_512_32 b in unpack 1 4 0 ta tb.
Definition unpackhi_512_32 (a b : vec) :=
  let ta := permutex idx_unpack_512_32 a in let tb := permutex idx_unpack_512_32 b in unpack 1 4 1 ta tb.
Definition pack_even_512_32 (a b : vec) := let t1 := shufps 0x88 a b in permutex idx_pack_512_32 t1.
Definition pack_odd_512_32 (a b : vec) := let t2 := shufps 0xdd a b in permutex idx_pack_512_32 t2.

(** simd512_{double,int64}.inl: double l.198-283, int64 l.259-341 *)
Definition idx_unpack_512_64 := table [0; 4; 1; 5; 2; 6; 3; 7].
Definition idx_pack_512_64 := table [0; 2; 4; 6; 1; 3; 5; 7].
Definition unpacklo_512_64 (a b : vec) :=
  let ta := permutex idx_unpack_512_64 a in let tb := permutex idx_unpack_512_64 b in unpack 1 2 0 ta tb.
Definition unpackhi_512_64 (a b : vec) :=
  let ta := permutex idx_unpack_512_64 a in let tb := permutex idx_unpack_512_64 b in unpack 1 2 1 ta tb.
Definition pack_even_512_64 (a b : vec) := let lo := unpack 1 2 0 a b in permutex idx_pack_512_64 lo.
Definition pack_odd_512_64 (a b : vec) := let hi := unpack 1 2 1 a b in permutex idx_pack_512_64 hi.

(** ** transpose *)

(** simd128_float.inl:290-301 *)
Definition transpose_128_float (R : nat -> nat -> T) : list vec :=
  let r0 := R 0 in let r1 := R 1 in let r2 := R 2 in let r3 := R 3 in
  let t0 := unpack 1 4 0 r0 r1 in let t2 := unpack 1 4 0 r2 r3 in let t1 := unpack 1 4 1 r0 r1 in
  let t3 := unpack 1 4 1 r2 r3 in let r0 := movelh t0 t2 in let r1 := movehl t2 t0 in
  let r2 := movelh t1 t3 in let r3 := movehl t3 t1 in
  [r0; r1; r2; r3].

(** simd128_int16.inl:320-351 *)
Definition transpose_128_int16 (R : nat -> nat -> T) : list vec :=
  let r0 := R 0 in let r1 := R 1 in let r2 := R 2 in let r3 := R 3 in
  let r4 := R 4 in let r5 := R 5 in let r6 := R 6 in let r7 := R 7 in
  let t0 := unpack 1 8 0 r0 r4 in let t1 := unpack 1 8 0 r1 r5 in let t2 := unpack 1 8 0 r2 r6 in
  let t3 := unpack 1 8 0 r3 r7 in let t4 := unpack 1 8 1 r0 r4 in let t5 := unpack 1 8 1 r1 r5 in
  let t6 := unpack 1 8 1 r2 r6 in let t7 := unpack 1 8 1 r3 r7 in let v0 := unpack 1 8 0 t0 t2 in
  let v1 := unpack 1 8 0 t1 t3 in let v4 := unpack 1 8 0 t4 t6 in let v5 := unpack 1 8 0 t5 t7 in
  let v2 := unpack 1 8 1 t0 t2 in let v3 := unpack 1 8 1 t1 t3 in let v6 := unpack 1 8 1 t4 t6 in
  let v7 := unpack 1 8 1 t5 t7 in let r0 := unpack 1 8 0 v0 v1 in let r2 := unpack 1 8 0 v2 v3 in
  let r4 := unpack 1 8 0 v4 v5 in let r6 := unpack 1 8 0 v6 v7 in let r1 := unpack 1 8 1 v0 v1 in
  let r3 := unpack 1 8 1 v2 v3 in let r5 := unpack 1 8 1 v4 v5 in let r7 := unpack 1 8 1 v6 v7 in
  [r0; r1; r2; r3; r4; r5; r6; r7].

(** simd128_int32.inl:315-330; the casts do not change bits *)
Definition transpose_128_int32 (R : nat -> nat -> T) : list vec :=
  let r0 := R 0 in let r1 := R 1 in let r2 := R 2 in let r3 := R 3 in
  let t0 := unpack 1 4 0 r0 r1 in let t2 := unpack 1 4 0 r2 r3 in let t1 := unpack 1 4 1 r0 r1 in
  let t3 := unpack 1 4 1 r2 r3 in let r0 := movelh t0 t2 in let r1 := movehl t2 t0 in
  let r2 := movelh t1 t3 in let r3 := movehl t3 t1 in
  [r0; r1; r2; r3].

(** simd256_float.inl:360-391 *)
Definition transpose_256_float (R : nat -> nat -> T) : list vec :=
  let r0 := R 0 in let r1 := R 1 in let r2 := R 2 in let r3 := R 3 in
  let r4 := R 4 in let r5 := R 5 in let r6 := R 6 in let r7 := R 7 in
  let v0 := unpack 1 4 0 r0 r2 in let v1 := unpack 1 4 0 r1 r3 in let v4 := unpack 1 4 0 r4 r6 in
  let v5 := unpack 1 4 0 r5 r7 in let v2 := unpack 1 4 1 r0 r2 in let v3 := unpack 1 4 1 r1 r3 in
  let v6 := unpack 1 4 1 r4 r6 in let v7 := unpack 1 4 1 r5 r7 in let t0 := unpack 1 4 0 v0 v1 in
  let t2 := unpack 1 4 0 v2 v3 in let t4 := unpack 1 4 0 v4 v5 in let t6 := unpack 1 4 0 v6 v7 in
  let t1 := unpack 1 4 1 v0 v1 in let t3 := unpack 1 4 1 v2 v3 in let t5 := unpack 1 4 1 v4 v5 in
  let t7 := unpack 1 4 1 v6 v7 in let r0 := perm128 4 32 t0 t4 in let r1 := perm128 4 32 t1 t5 in
  let r2 := perm128 4 32 t2 t6 in let r3 := perm128 4 32 t3 t7 in let r4 := perm128 4 49 t0 t4 in
  let r5 := perm128 4 49 t1 t5 in let r6 := perm128 4 49 t2 t6 in let r7 := perm128 4 49 t3 t7 in
  [r0; r1; r2; r3; r4; r5; r6; r7].

(** simd256_double.inl:338-349 *)
Definition transpose_256_double (R : nat -> nat -> T) : list vec :=
  let r0 := R 0 in let r1 := R 1 in let r2 := R 2 in let r3 := R 3 in
  let t0 := unpack 1 2 0 r0 r1 in let t2 := unpack 1 2 0 r2 r3 in let t1 := unpack 1 2 1 r0 r1 in
  let t3 := unpack 1 2 1 r2 r3 in let r0 := perm128 2 32 t0 t2 in let r1 := perm128 2 32 t1 t3 in
  let r2 := perm128 2 49 t0 t2 in let r3 := perm128 2 49 t1 t3 in
  [r0; r1; r2; r3].

(** simd256_int16.inl:369-443 *)
Definition transpose_256_int16 (R : nat -> nat -> T) : list vec :=
  let r0 := R 0 in let r1 := R 1 in let r2 := R 2 in let r3 := R 3 in
  let r4 := R 4 in let r5 := R 5 in let r6 := R 6 in let r7 := R 7 in
  let r8 := R 8 in let r9 := R 9 in let r10 := R 10 in let r11 := R 11 in
  let r12 := R 12 in let r13 := R 13 in let r14 := R 14 in let r15 := R 15 in
  let t0 := unpack 1 8 0 r0 r4 in let t1 := unpack 1 8 0 r1 r5 in let t2 := unpack 1 8 0 r2 r6 in
  let t3 := unpack 1 8 0 r3 r7 in let t8 := unpack 1 8 0 r8 r12 in let t9 := unpack 1 8 0 r9 r13 in
  let t10 := unpack 1 8 0 r10 r14 in let t11 := unpack 1 8 0 r11 r15 in
  let t4 := unpack 1 8 1 r0 r4 in let t5 := unpack 1 8 1 r1 r5 in let t6 := unpack 1 8 1 r2 r6 in
  let t7 := unpack 1 8 1 r3 r7 in let t12 := unpack 1 8 1 r8 r12 in
  let t13 := unpack 1 8 1 r9 r13 in let t14 := unpack 1 8 1 r10 r14 in
  let t15 := unpack 1 8 1 r11 r15 in let v0 := unpack 1 8 0 t0 t2 in
  let v1 := unpack 1 8 0 t1 t3 in let v4 := unpack 1 8 0 t4 t6 in let v5 := unpack 1 8 0 t5 t7 in
  let v8 := unpack 1 8 0 t8 t10 in let v9 := unpack 1 8 0 t9 t11 in
  let v12 := unpack 1 8 0 t12 t14 in let v13 := unpack 1 8 0 t13 t15 in
  let v2 := unpack 1 8 1 t0 t2 in let v3 := unpack 1 8 1 t1 t3 in let v6 := unpack 1 8 1 t4 t6 in
  let v7 := unpack 1 8 1 t5 t7 in let v10 := unpack 1 8 1 t8 t10 in
  let v11 := unpack 1 8 1 t9 t11 in let v14 := unpack 1 8 1 t12 t14 in
  let v15 := unpack 1 8 1 t13 t15 in let t0 := unpack 1 8 0 v0 v1 in
  let t2 := unpack 1 8 0 v2 v3 in let t4 := unpack 1 8 0 v4 v5 in let t6 := unpack 1 8 0 v6 v7 in
  let t8 := unpack 1 8 0 v8 v9 in let t10 := unpack 1 8 0 v10 v11 in
  let t12 := unpack 1 8 0 v12 v13 in let t14 := unpack 1 8 0 v14 v15 in
  let t1 := unpack 1 8 1 v0 v1 in let t3 := unpack 1 8 1 v2 v3 in let t5 := unpack 1 8 1 v4 v5 in
  let t7 := unpack 1 8 1 v6 v7 in let t9 := unpack 1 8 1 v8 v9 in
  let t11 := unpack 1 8 1 v10 v11 in let t13 := unpack 1 8 1 v12 v13 in
  let t15 := unpack 1 8 1 v14 v15 in let r0 := perm128 8 32 t0 t8 in
  let r1 := perm128 8 32 t1 t9 in let r2 := perm128 8 32 t2 t10 in let r3 := perm128 8 32 t3 t11 in
  let r4 := perm128 8 32 t4 t12 in let r5 := perm128 8 32 t5 t13 in
  let r6 := perm128 8 32 t6 t14 in let r7 := perm128 8 32 t7 t15 in let r8 := perm128 8 49 t0 t8 in
  let r9 := perm128 8 49 t1 t9 in let r10 := perm128 8 49 t2 t10 in
  let r11 := perm128 8 49 t3 t11 in let r12 := perm128 8 49 t4 t12 in
  let r13 := perm128 8 49 t5 t13 in let r14 := perm128 8 49 t6 t14 in
  let r15 := perm128 8 49 t7 t15 in
  [r0; r1; r2; r3; r4; r5; r6; r7; r8; r9; r10; r11; r12; r13; r14; r15].

(** simd256_int32.inl:363-394 *)
Definition transpose_256_int32 (R : nat -> nat -> T) : list vec :=
  let r0 := R 0 in let r1 := R 1 in let r2 := R 2 in let r3 := R 3 in
  let r4 := R 4 in let r5 := R 5 in let r6 := R 6 in let r7 := R 7 in
  let v0 := unpack 1 4 0 r0 r2 in let v1 := unpack 1 4 0 r1 r3 in let v4 := unpack 1 4 0 r4 r6 in
  let v5 := unpack 1 4 0 r5 r7 in let v2 := unpack 1 4 1 r0 r2 in let v3 := unpack 1 4 1 r1 r3 in
  let v6 := unpack 1 4 1 r4 r6 in let v7 := unpack 1 4 1 r5 r7 in let t0 := unpack 1 4 0 v0 v1 in
  let t2 := unpack 1 4 0 v2 v3 in let t4 := unpack 1 4 0 v4 v5 in let t6 := unpack 1 4 0 v6 v7 in
  let t1 := unpack 1 4 1 v0 v1 in let t3 := unpack 1 4 1 v2 v3 in let t5 := unpack 1 4 1 v4 v5 in
  let t7 := unpack 1 4 1 v6 v7 in let r0 := perm128 4 32 t0 t4 in let r1 := perm128 4 32 t1 t5 in
  let r2 := perm128 4 32 t2 t6 in let r3 := perm128 4 32 t3 t7 in let r4 := perm128 4 49 t0 t4 in
  let r5 := perm128 4 49 t1 t5 in let r6 := perm128 4 49 t2 t6 in let r7 := perm128 4 49 t3 t7 in
  [r0; r1; r2; r3; r4; r5; r6; r7].

(** simd256_int64.inl:350-361 *)
Definition transpose_256_int64 (R : nat -> nat -> T) : list vec :=
  let r0 := R 0 in let r1 := R 1 in let r2 := R 2 in let r3 := R 3 in
  let t0 := unpack 1 2 0 r0 r1 in let t2 := unpack 1 2 0 r2 r3 in let t1 := unpack 1 2 1 r0 r1 in
  let t3 := unpack 1 2 1 r2 r3 in let r0 := perm128 2 32 t0 t2 in let r1 := perm128 2 32 t1 t3 in
  let r2 := perm128 2 49 t0 t2 in let r3 := perm128 2 49 t1 t3 in
  [r0; r1; r2; r3].

(** simd512_float.inl:292-390 *)
Definition transpose_512_float (R : nat -> nat -> T) : list vec :=
  let r0 := R 0 in let r1 := R 1 in let r2 := R 2 in let r3 := R 3 in
  let r4 := R 4 in let r5 := R 5 in let r6 := R 6 in let r7 := R 7 in
  let r8 := R 8 in let r9 := R 9 in let r10 := R 10 in let r11 := R 11 in
  let r12 := R 12 in let r13 := R 13 in let r14 := R 14 in let r15 := R 15 in
  let i1 := table [0; 1; 2; 3; 16; 17; 18; 19; 8; 9; 10; 11; 24; 25; 26; 27] in
  let i2 := table [4; 5; 6; 7; 20; 21; 22; 23; 12; 13; 14; 15; 28; 29; 30; 31] in
  let i3 := table [0; 1; 2; 3; 4; 5; 6; 7; 16; 17; 18; 19; 20; 21; 22; 23] in
  let i4 := table [8; 9; 10; 11; 12; 13; 14; 15; 24; 25; 26; 27; 28; 29; 30; 31] in
  let v0 := unpack 1 4 0 r0 r2 in let v1 := unpack 1 4 0 r1 r3 in let v4 := unpack 1 4 0 r4 r6 in
  let v5 := unpack 1 4 0 r5 r7 in let v8 := unpack 1 4 0 r8 r10 in let v9 := unpack 1 4 0 r9 r11 in
  let v12 := unpack 1 4 0 r12 r14 in let v13 := unpack 1 4 0 r13 r15 in
  let v2 := unpack 1 4 1 r0 r2 in let v3 := unpack 1 4 1 r1 r3 in let v6 := unpack 1 4 1 r4 r6 in
  let v7 := unpack 1 4 1 r5 r7 in let v10 := unpack 1 4 1 r8 r10 in
  let v11 := unpack 1 4 1 r9 r11 in let v14 := unpack 1 4 1 r12 r14 in
  let v15 := unpack 1 4 1 r13 r15 in let t0 := unpack 1 4 0 v0 v1 in
  let t2 := unpack 1 4 0 v2 v3 in let t4 := unpack 1 4 0 v4 v5 in let t6 := unpack 1 4 0 v6 v7 in
  let t8 := unpack 1 4 0 v8 v9 in let t10 := unpack 1 4 0 v10 v11 in
  let t12 := unpack 1 4 0 v12 v13 in let t14 := unpack 1 4 0 v14 v15 in
  let t1 := unpack 1 4 1 v0 v1 in let t3 := unpack 1 4 1 v2 v3 in let t5 := unpack 1 4 1 v4 v5 in
  let t7 := unpack 1 4 1 v6 v7 in let t9 := unpack 1 4 1 v8 v9 in
  let t11 := unpack 1 4 1 v10 v11 in let t13 := unpack 1 4 1 v12 v13 in
  let t15 := unpack 1 4 1 v14 v15 in let v0 := permutex2 16 t0 i1 t4 in
  let v1 := permutex2 16 t1 i1 t5 in let v2 := permutex2 16 t2 i1 t6 in
  let v3 := permutex2 16 t3 i1 t7 in let v8 := permutex2 16 t8 i1 t12 in
  let v9 := permutex2 16 t9 i1 t13 in let v10 := permutex2 16 t10 i1 t14 in
  let v11 := permutex2 16 t11 i1 t15 in let v4 := permutex2 16 t0 i2 t4 in
  let v5 := permutex2 16 t1 i2 t5 in let v6 := permutex2 16 t2 i2 t6 in
  let v7 := permutex2 16 t3 i2 t7 in let v12 := permutex2 16 t8 i2 t12 in
  let v13 := permutex2 16 t9 i2 t13 in let v14 := permutex2 16 t10 i2 t14 in
  let v15 := permutex2 16 t11 i2 t15 in let r0 := permutex2 16 v0 i3 v8 in
  let r1 := permutex2 16 v1 i3 v9 in let r2 := permutex2 16 v2 i3 v10 in
  let r3 := permutex2 16 v3 i3 v11 in let r4 := permutex2 16 v4 i3 v12 in
  let r5 := permutex2 16 v5 i3 v13 in let r6 := permutex2 16 v6 i3 v14 in
  let r7 := permutex2 16 v7 i3 v15 in let r8 := permutex2 16 v0 i4 v8 in
  let r9 := permutex2 16 v1 i4 v9 in let r10 := permutex2 16 v2 i4 v10 in
  let r11 := permutex2 16 v3 i4 v11 in let r12 := permutex2 16 v4 i4 v12 in
  let r13 := permutex2 16 v5 i4 v13 in let r14 := permutex2 16 v6 i4 v14 in
  let r15 := permutex2 16 v7 i4 v15 in
  [r0; r1; r2; r3; r4; r5; r6; r7; r8; r9; r10; r11; r12; r13; r14; r15].

(** simd512_double.inl:300-341 *)
Definition transpose_512_double (R : nat -> nat -> T) : list vec :=
  let r0 := R 0 in let r1 := R 1 in let r2 := R 2 in let r3 := R 3 in
  let r4 := R 4 in let r5 := R 5 in let r6 := R 6 in let r7 := R 7 in
  let i1 := table [0; 1; 8; 9; 4; 5; 12; 13] in
  let i2 := table [2; 3; 10; 11; 6; 7; 14; 15] in
  let i3 := table [0; 1; 2; 3; 8; 9; 10; 11] in
  let i4 := table [4; 5; 6; 7; 12; 13; 14; 15] in
  let t0 := unpack 1 2 0 r0 r1 in let t2 := unpack 1 2 0 r2 r3 in let t4 := unpack 1 2 0 r4 r5 in
  let t6 := unpack 1 2 0 r6 r7 in let t1 := unpack 1 2 1 r0 r1 in let t3 := unpack 1 2 1 r2 r3 in
  let t5 := unpack 1 2 1 r4 r5 in let t7 := unpack 1 2 1 r6 r7 in let v0 := permutex2 8 t0 i1 t2 in
  let v1 := permutex2 8 t1 i1 t3 in let v4 := permutex2 8 t4 i1 t6 in
  let v5 := permutex2 8 t5 i1 t7 in let v2 := permutex2 8 t0 i2 t2 in
  let v3 := permutex2 8 t1 i2 t3 in let v6 := permutex2 8 t4 i2 t6 in
  let v7 := permutex2 8 t5 i2 t7 in let r0 := permutex2 8 v0 i3 v4 in
  let r1 := permutex2 8 v1 i3 v5 in let r2 := permutex2 8 v2 i3 v6 in
  let r3 := permutex2 8 v3 i3 v7 in let r4 := permutex2 8 v0 i4 v4 in
  let r5 := permutex2 8 v1 i4 v5 in let r6 := permutex2 8 v2 i4 v6 in
  let r7 := permutex2 8 v3 i4 v7 in
  [r0; r1; r2; r3; r4; r5; r6; r7].

(** simd512_int64.inl:358-399 *)
Definition transpose_512_int64 (R : nat -> nat -> T) : list vec :=
  let r0 := R 0 in let r1 := R 1 in let r2 := R 2 in let r3 := R 3 in
  let r4 := R 4 in let r5 := R 5 in let r6 := R 6 in let r7 := R 7 in
  let i1 := table [0; 1; 8; 9; 4; 5; 12; 13] in
  let i2 := table [2; 3; 10; 11; 6; 7; 14; 15] in
  let i3 := table [0; 1; 2; 3; 8; 9; 10; 11] in
  let i4 := table [4; 5; 6; 7; 12; 13; 14; 15] in
  let t0 := unpack 1 2 0 r0 r1 in let t2 := unpack 1 2 0 r2 r3 in let t4 := unpack 1 2 0 r4 r5 in
  let t6 := unpack 1 2 0 r6 r7 in let t1 := unpack 1 2 1 r0 r1 in let t3 := unpack 1 2 1 r2 r3 in
  let t5 := unpack 1 2 1 r4 r5 in let t7 := unpack 1 2 1 r6 r7 in let v0 := permutex2 8 t0 i1 t2 in
  let v1 := permutex2 8 t1 i1 t3 in let v4 := permutex2 8 t4 i1 t6 in
  let v5 := permutex2 8 t5 i1 t7 in let v2 := permutex2 8 t0 i2 t2 in
  let v3 := permutex2 8 t1 i2 t3 in let v6 := permutex2 8 t4 i2 t6 in
  let v7 := permutex2 8 t5 i2 t7 in let r0 := permutex2 8 v0 i3 v4 in
  let r1 := permutex2 8 v1 i3 v5 in let r2 := permutex2 8 v2 i3 v6 in
  let r3 := permutex2 8 v3 i3 v7 in let r4 := permutex2 8 v0 i4 v4 in
  let r5 := permutex2 8 v1 i4 v5 in let r6 := permutex2 8 v2 i4 v6 in
  let r7 := permutex2 8 v3 i4 v7 in
  [r0; r1; r2; r3; r4; r5; r6; r7].

(** ** shuffle and blend *)

(** simd128_int16.inl:196-205, simd256_int16.inl:214-227, simd256_int32.inl:220-229:
    the content goes through an array of [n] elements; [None] when an index is out
    of bounds.  Arguments of [set] of odd number use the mask 0xF0 without a shift. *)
Definition shuffle_index (s : N) (k : nat) : N :=
  if Nat.even k then N.land (N.shiftr s (N.of_nat (4 * k))) 0xf
  else N.land (N.shiftr s (N.of_nat (4 * (k - 1)))) 0xf0.
Definition shuffle (n : nat) (s : N) (a : vec) : option vec :=
  if forallb (fun k => N.ltb (shuffle_index s k) (N.of_nat n)) (seq 0 n)
  then Some (fun k => a (N.to_nat (shuffle_index s k))) else None.

(** simd128_int64.inl:213-218; lanes are 32-bit words *)
Definition shuffle_128_64 (s : N) (a : vec) : vec :=
  let s1 := ((if N.testbit s 0 then 3*4+2 else 1*4+0) + 16 * (if N.testbit s 1 then 3*4+2 else 1*4+0))%N in
  shuf32 s1 a.

(** simd128_int16.inl:360-363; the float, double and 512-bit blends, simd128_int32
    with AVX2 and simd256_int32 are [blendi n s]. *)
Definition blend_128_16 (s : N) (a b : vec) := blendi 8 s a b.

(** s = [d3 d2 d1 d0] in base 2 to [d3 d3 d2 d2 d1 d1 d0 d0] *)
Definition twice (s : N) : N :=
  (N.land s 1 * 3 + N.shiftl (N.land s 2) 1 * 3 + N.shiftl (N.land s 4) 2 * 3
   + N.shiftl (N.land s 8) 3 * 3)%N.

(** simd128_int32.inl:339-353 without AVX2 (lanes are 16-bit words),
    simd256_int64.inl:376-385 (lanes are 32-bit words) *)
Definition blend_128_32_sse (s : N) (a b : vec) := blendi 8 (twice s) a b.
Definition blend_256_64 (s : N) (a b : vec) := blendi 8 (twice s) a b.

(** simd128_int64.inl:330-348, with AVX2 (lanes are 32-bit words) and without
    (lanes are 16-bit words) *)
Definition blend_128_64 (s : N) (a b : vec) :=
  let s1 := (N.land s 1 * 3 + N.shiftl (N.land s 2) 1 * 3)%N in blendi 4 s1 a b.
Definition blend_128_64_sse (s : N) (a b : vec) :=
  let s1 := (N.land s 1 * 15 + N.shiftl (N.land s 2) 3 * 15)%N in blendi 8 s1 a b.

(** simd256_int16.inl:452-470 *)
Definition blend_256_16 (s : N) (a b : vec) :=
  if N.eqb (N.land s 0xff) (N.shiftr s 8) then blendi 8 (N.land s 0xff) a b
  else
    let lo := blendi 8 (N.land s 0xff) a b in
    let hi := blendi 8 (N.shiftr s 8) a b in
    perm128 8 0x30 lo hi.
End Shuf.
