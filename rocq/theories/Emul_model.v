(** * Model of the integer SIMD operations emulated with other ones: fflas/fflas_simd/simd{128,256}_int{16,32,64}.inl, simd512_int64.inl *)
From Coq Require Import ZArith Bool.
Open Scope Z_scope.

(** A lane of [w] bits is its bit pattern, an integer of [0, 2^w).  [sig w] is its
    value as a two's complement integer. *)
Definition sig (w x : Z) : Z := if x <? 2 ^ (w - 1) then x else x - 2 ^ w.

(** Intrinsics, on one lane. *)
Definition ladd (w a b : Z) : Z := (a + b) mod 2 ^ w.
Definition lsub (w a b : Z) : Z := (a - b) mod 2 ^ w.
Definition lmullo (w a b : Z) : Z := (a * b) mod 2 ^ w.
Definition lsll (w s a : Z) : Z := (a * 2 ^ s) mod 2 ^ w.
Definition lsrl (s a : Z) : Z := a / 2 ^ s.
Definition ones (w : Z) : Z := 2 ^ w - 1.
Definition lcmpgt (w a b : Z) : Z := if sig w b <? sig w a then ones w else 0.
Definition lcmpeq (w a b : Z) : Z := if a =? b then ones w else 0.
(** _mm*_mul_epi32 and _mm*_mul_epu32 on a lane of 64 bits: product of the low halves. *)
Definition mul_epi32 (a b : Z) : Z := (sig 32 (a mod 2 ^ 32) * sig 32 (b mod 2 ^ 32)) mod 2 ^ 64.
Definition mul_epu32 (a b : Z) : Z := (a mod 2 ^ 32) * (b mod 2 ^ 32).

(** sra<s>: simd128_int64.inl:201-204, simd256_int64.inl:213-216 (without AVX512). *)
Definition sra64 (s a : Z) : Z :=
  let m := lsll 64 (63 - s) 1 in
  let x := lsrl s a in
  lsub 64 (Z.lxor x m) m.

(** Comparisons of unsigned lanes: simd128_int16.inl:678-696, simd128_int32.inl:701-719,
    simd128_int64.inl:688-722, simd256_int32.inl:779-797, simd256_int64.inl:722-740
    and simd256_int16.inl.  _mm_cmplt is _mm_cmpgt with exchanged arguments. *)
Definition greater_u (w a b : Z) : Z :=
  let x := 2 ^ (w - 1) in
  let a := Z.lxor x a in
  let b := Z.lxor x b in
  lcmpgt w a b.
Definition lesser_u (w a b : Z) : Z :=
  let x := 2 ^ (w - 1) in
  let a := Z.lxor x a in
  let b := Z.lxor x b in
  lcmpgt w b a.
Definition greater_eq_u (w a b : Z) : Z := Z.lor (greater_u w a b) (lcmpeq w a b).
Definition lesser_eq_u (w a b : Z) : Z := Z.lor (lesser_u w a b) (lcmpeq w a b).

(** Comparisons of signed lanes, same files. *)
Definition greater_eq_s (w a b : Z) : Z := Z.lor (lcmpgt w a b) (lcmpeq w a b).
Definition lesser_eq_s (w a b : Z) : Z := Z.lor (lcmpgt w b a) (lcmpeq w a b).

(** mulx on lanes of w = 2h bits: simd128_int32.inl:431-443 and 763-770,
    simd128_int16.inl:414-426 and 714-721, simd256_int32.inl:494-506 and 844-851,
    simd256_int16.inl:523-535. *)
Definition mulx_s (h a b : Z) : Z :=
  let w := 2 * h in
  let mask1 := 2 ^ h - 1 in
  let mask2 := 2 ^ (h - 1) in
  let a1 := ladd w a mask2 in
  let a1 := Z.land a1 mask1 in
  let a1 := lsub w a1 mask2 in
  let b1 := ladd w b mask2 in
  let b1 := Z.land b1 mask1 in
  let b1 := lsub w b1 mask2 in
  lmullo w a1 b1.
Definition mulx_u (h a b : Z) : Z :=
  let mask1 := 2 ^ h - 1 in
  let a1 := Z.land a mask1 in
  let b1 := Z.land b mask1 in
  lmullo (2 * h) a1 b1.

(** mulhi on lanes of 32 bits, here on a unit of 64 bits which holds two of them:
    simd128_int32.inl:409-418 and 742-751, simd256_int32.inl:466-482 and 818-834. *)
Definition mulhi32 (mul : Z -> Z -> Z) (a b : Z) : Z :=
  let C := mul a b in
  let A1 := lsrl 32 a in
  let B1 := lsrl 32 b in
  let A1 := mul A1 B1 in
  let C := lsrl 32 C in
  let A1 := lsrl 32 A1 in
  let A1 := lsll 64 32 A1 in
  Z.lor C A1.

(** signbits and mulhi_fast: simd128_int64.inl:575-578 and 791-818,
    simd256_int64.inl:602-605 and 809-836, simd512_int64.inl:865-892;
    4*sizeof(scalar_t)-1 = 31. *)
Definition signbits (x : Z) : Z := lsub 64 0 (lsrl (4 * 8 - 1) x).
Definition mulhi_fast_simd (x y : Z) : Z :=
  let mask := lsrl 32 (ones 64) in
  let x0 := Z.land x mask in let x1 := lsrl 32 x in
  let y0 := Z.land y mask in let y1 := lsrl 32 y in
  let x0 := mul_epu32 x0 y1 in
  let y0 := mul_epu32 x1 y0 in
  let y1 := mul_epu32 x1 y1 in
  let x1 := Z.land y0 mask in
  let y0 := lsrl 32 y0 in
  let x1 := lsrl 32 (ladd 64 x1 x0) in
  let y0 := ladd 64 y1 y0 in
  let x1 := ladd 64 x1 y0 in
  let x0 := Z.land (signbits x) y in
  let x1 := lsub 64 x1 x0 in
  let x0 := Z.land (signbits y) x in
  lsub 64 x1 x0.

(** mullo on lanes of 64 bits, simd128_int64.inl:377-388 and simd256_int64.inl:415-425
    without AVX512: the product of two int64_t, undefined on overflow.  [mul] of the
    unsigned class (l.584ff) is inherited from the signed one: same function. *)
Definition mullo64 (a b : Z) : option Z :=
  let z := sig 64 a * sig 64 b in
  if (- 2 ^ 63 <=? z) && (z <? 2 ^ 63) then Some (z mod 2 ^ 64) else None.
Definition mul_s64 := mullo64.
Definition mul_u64 := mullo64.
