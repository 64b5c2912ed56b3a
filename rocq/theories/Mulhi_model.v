(** * Model of the high half of 64-bit products (portable code path)

    utils/bit_manipulation.h:131-191, the branches compiled without
    __FFLASFFPACK_HAVE_INT128.  Signed arithmetic that leaves the type is
    undefined behaviour ([None]); unsigned arithmetic wraps. *)
From Coq Require Import ZArith Bool.
Open Scope Z_scope.

(** int64_t arithmetic result *)
Definition s64 (z : Z) : option Z :=
  if (- 2 ^ 63 <=? z) && (z <? 2 ^ 63) then Some z else None.
(** uint64_t and uint32_t arithmetic results *)
Definition u64 (z : Z) : Z := z mod 2 ^ 64.
Definition u32 (z : Z) : Z := z mod 2 ^ 32.

Definition mask32 : Z := 0xFFFFFFFF.

(** l.131-135 *)
Definition mullhi_u32 (x y : Z) : Z := u32 (Z.shiftr (u64 (x * y)) 32).

Notation "'do' x <- a ; b" := (match a with Some x => b | None => None end)
  (at level 200, x name, a at level 100, b at level 200).

(** l.137-151; >> on signed operands is the arithmetic shift. *)
Definition mulhi_64 (x y : Z) : option Z :=
  let x0 := u32 (Z.land x mask32) in let y0 := u32 (Z.land y mask32) in
  let x1 := Z.shiftr x 32 in let y1 := Z.shiftr y 32 in
  let x0y0_hi := mullhi_u32 x0 y0 in
  do a <- s64 (x1 * y0);
  do t <- s64 (a + x0y0_hi);
  do b <- s64 (x0 * y1);
  do w1 <- s64 (b + Z.land t mask32);
  do c <- s64 (x1 * y1);
  do d <- s64 (c + Z.shiftr t 32);
  s64 (d + Z.shiftr w1 32).

(** l.153-175 *)
Definition mulhi_u64 (x y : Z) : Z :=
  let x0 := Z.land x mask32 in let x1 := Z.shiftr x 32 in
  let y0 := Z.land y mask32 in let y1 := Z.shiftr y 32 in
  let xy_hi := u64 (x1 * y1) in
  let xy_mid := u64 (x1 * y0) in
  let yx_mid := u64 (x0 * y1) in
  let xy_lo := u64 (x0 * y0) in
  let carry_bit := Z.shiftr (u64 (u64 (Z.land xy_mid mask32 + Z.land yx_mid mask32)
                                  + Z.shiftr xy_lo 32)) 32 in
  u64 (u64 (u64 (xy_hi + Z.shiftr xy_mid 32) + Z.shiftr yx_mid 32) + carry_bit).

(** l.177-191 *)
Definition mulhi_fast_64 (x y : Z) : option Z :=
  let x0 := u32 (Z.land x mask32) in let y0 := u32 (Z.land y mask32) in
  let x1 := Z.shiftr x 32 in let y1 := Z.shiftr y 32 in
  do t <- s64 (x1 * y0);
  do w1 <- s64 (x0 * y1);
  do c <- s64 (x1 * y1);
  do d <- s64 (c + Z.shiftr t 32);
  s64 (d + Z.shiftr w1 32).
