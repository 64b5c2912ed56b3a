(** * Model of modular reductions, SIMD field operations and vector additions

    Machine numbers are integers of [Z]; every arithmetic result is rounded
    (floating point) or wrapped (fixed-size integers). *)
From Coq Require Import ZArith List Bool.
From Verif Require Import Delayed_model.
Import ListNotations.
Open Scope Z_scope.

(** ** fflas_freduce.inl:61-93 *)

(** 1/B rounded to [prec] bits (fflas_freduce.inl:123,142) is
    inv_mant * 2^-inv_exp, the mantissa having [prec] bits.  Ties do not
    occur: 2^inv_exp / B is an integer or B has an odd factor. *)
Definition inv_exp (prec B : Z) : Z := prec + Z.log2 B.
Definition inv_mant (prec B : Z) : Z := (2 ^ (inv_exp prec B + 1) + B) / (2 * B).

(** Q = floor(A * invB), l.63-64, 74-75. *)
Definition qfloor (prec A B : Z) : Z := rnd prec (A * inv_mant prec B) / 2 ^ inv_exp prec B.

(** A - Q*B: with two roundings, or contracted by the compiler in one fused
    operation (always so in the SIMD code: fnmadd). *)
Definition sub_mul (prec : Z) (fma : bool) (A Q B : Z) : Z :=
  if fma then rnd prec (A - Q * B) else rnd prec (A - rnd prec (Q * B)).

(** l.61-80, scalar reduce for float and double. *)
Definition reduce_flt (prec : Z) (fma : bool) (A B mn mx : Z) : Z :=
  let A := sub_mul prec fma A (qfloor prec A B) B in
  let A := if A <? mn then rnd prec (A + B) else A in
  if mx <? A then rnd prec (A - B) else A.

(** fflas_simd.h:196-211 FLOAT_MOD and NORML_MOD on one lane; the masks are
    and-ed with NEGP and P and or-ed: at most one is set.  Also
    simd_modular.inl:127-142, FieldSimd::mod. *)
Definition mod_simd (prec : Z) (A B mn mx : Z) : Z :=
  let A := sub_mul prec true A (qfloor prec A B) B in
  rnd prec (A + (if mx <? A then - B else if A <? mn then B else 0)).

(** Two's complement wrap-around on [bits] bits. *)
Definition wrap (bits z : Z) : Z := (z + 2 ^ (bits - 1)) mod 2 ^ bits - 2 ^ (bits - 1).

(** fflas_freduce.inl:82-93 and 118-126: int64 reduce; double has 53 bits;
    the products of int64 wrap.  Conversion to double rounds, the conversion
    back of an integral double is exact.  [vec]: simd256_int64.inl:840-877. *)
Definition reduce_int64 (fma vec : bool) (A p mn mx : Z) : Z :=
  let pow50rem := (2 ^ 50) mod p in
  let Aq50 := Z.shiftr A 50 in
  let Ar50 := Z.land A (2 ^ 50 - 1) in
  let Aeq := wrap 64 (wrap 64 (Aq50 * pow50rem) + Ar50) in
  let d := rnd 53 Aeq in
  if vec then mod_simd 53 d p mn mx else reduce_flt 53 fma d p mn mx.

(** ** simd_modular.inl: one lane of FieldSimd *)

(** How a result is stored: rounded to [prec] bits or wrapped to [bits]. *)
Inductive storage := Flt (prec : Z) | SInt (bits : Z).
Definition stored (s : storage) (z : Z) : Z :=
  match s with Flt prec => rnd prec z | SInt bits => wrap bits z end.

Section FieldSimd.
Variables (s : storage) (p mn mx : Z).

(** l.77-82 and 84-90 (the two overloads have the same body) *)
Definition fs_add (a b : Z) : Z :=
  let c := stored s (a + b) in
  stored s (c - (if mx <? c then p else 0)).

(** l.100-105, sub with a result argument *)
Definition fs_sub3 (a b : Z) : Z :=
  let c := stored s (a - b) in
  stored s (c + (if c <? mn then p else 0)).

(** l.107-113, sub with two arguments; also subin, l.115 *)
Definition fs_sub2 (a b : Z) : Z :=
  let c := stored s (a - b) in
  stored s (c + (if mx <? c then p else 0)).
End FieldSimd.

(** l.144-177, floating-point elements; simd::fmadd(c,a,b) = a*b+c and
    simd::fmsub(c,a,b) = a*b-c in one rounding (simd256_double.inl:418-465). *)
Section FieldSimdFlt.
Variables (prec p mn mx : Z).
Definition fs_mul (a b : Z) : Z := mod_simd prec (rnd prec (a * b)) p mn mx.
Definition fs_axpy (a b c : Z) : Z := mod_simd prec (rnd prec (a * b + c)) p mn mx.
Definition fs_maxpy (a b c : Z) : Z := mod_simd prec (rnd prec (a * b - c)) p mn mx.
End FieldSimdFlt.

(** ** Vectorised loops: fflas_fadd.inl:49-281, fflas_freduce.inl:371-435 *)

(** Flat memory in units of elements; pointers are element addresses, [vs] the
    number of lanes, a vector is aligned when its address is a multiple of vs
    (elements themselves are aligned). *)
Definition mem := nat -> Z.

Section Loop.
Variables (vs : nat) (fs fv : Z -> Z -> Z) (t a b : nat).

Definition scalar_step (i : nat) (m : mem) : mem :=
  fun x => if (x =? t + i)%nat then fs (m (a + i)%nat) (m (b + i)%nat) else m x.

(** for (; i < i + k; i++) *)
Fixpoint scalar_loop (k i : nat) (m : mem) : mem :=
  match k with O => m | S k => scalar_loop k (S i) (scalar_step i m) end.

(** load, load, operate, store *)
Definition vector_step (i : nat) (m : mem) : mem :=
  fun x => if ((t + i <=? x) && (x <? t + i + vs))%nat
           then fv (m (a + (x - t))%nat) (m (b + (x - t))%nat) else m x.

(** for (; i <= n - vect_size; i += vect_size); returns the final i *)
Fixpoint vector_loop (fuel n i : nat) (m : mem) : nat * mem :=
  match fuel with
  | O => (i, m)
  | S fuel => if (i <=? n - vs)%nat then vector_loop fuel n (i + vs) (vector_step i m) else (i, m)
  end.

(** prologue up to the alignment of T, vector loop when the operands are
    aligned too, scalar epilogue *)
Definition vloop (n : nat) (m : mem) : mem :=
  if (n <? vs)%nat then scalar_loop n 0 m
  else
    let st := (t mod vs)%nat in
    let i0 := if (st =? 0)%nat then 0%nat else (vs - st)%nat in
    let m := scalar_loop i0 0 m in
    let '(i, m) :=
      if (((a + i0) mod vs =? 0) && ((b + i0) mod vs =? 0))%nat
      then vector_loop (S n) n i0 m else (i0, m) in
    scalar_loop (n - i) i m.
End Loop.

Section AddSub.
Variables (s : storage) (positive : bool) (p mn mx : Z).

(** fflas_fadd.inl:63-68, 84-88, 106-110 *)
Definition add_scalar (a b : Z) : Z :=
  let c := stored s (a + b) in
  let c := stored s (c - (if mx <? c then p else 0)) in
  if positive then c else stored s (c + (if c <? mn then p else 0)).

(** l.35-47, VEC_ADD on one lane *)
Definition add_lane (a b : Z) : Z :=
  let c := stored s (a + b) in
  stored s (c + (if mx <? c then - p else if negb positive && (c <? mn) then p else 0)).

(** l.141-144, 159-163, 182-186 *)
Definition sub_scalar (a b : Z) : Z :=
  let c := stored s (a - b) in
  let c := if positive then c else stored s (c - (if mx <? c then p else 0)) in
  stored s (c + (if c <? mn then p else 0)).

(** l.113-125, VEC_SUB on one lane *)
Definition sub_lane (a b : Z) : Z :=
  let c := stored s (a - b) in
  stored s (c + (if negb positive && (mx <? c) then - p else if c <? mn then p else 0)).

(** l.49-111, addp and l.127-187, subp *)
Definition addp (vs t a b n : nat) : mem -> mem := vloop vs add_scalar add_lane t a b n.
Definition subp (vs t a b n : nat) : mem -> mem := vloop vs sub_scalar sub_lane t a b n.
End AddSub.

(** fflas_freduce.inl:371-435, modp on contiguous vectors. *)
Definition modp_flt (prec : Z) (fma : bool) (p mn mx : Z) (vs t u n : nat) : mem -> mem :=
  vloop vs (fun x _ => reduce_flt prec fma x p mn mx) (fun x _ => mod_simd prec x p mn mx) t u u n.
Definition modp_int64 (fma : bool) (p mn mx : Z) (vs t u n : nat) : mem -> mem :=
  vloop vs (fun x _ => reduce_int64 fma false x p mn mx) (fun x _ => reduce_int64 fma true x p mn mx) t u u n.

(** ** Strided additions over any field: fflas_fadd.inl:346-370, GenericTag.
    [ADD = false] is what fsub calls (fflas_fadd.h:79-89). *)
Section Generic.
Variables (fadd_ fsub_ : Z -> Z -> Z).
Fixpoint strided (k i : nat) (f : Z -> Z -> Z) (c incc a inca b incb : nat) (m : mem) : mem :=
  match k with
  | O => m
  | S k => strided k (S i) f c incc a inca b incb
      (fun x => if (x =? c + i * incc)%nat then f (m (a + i * inca)%nat) (m (b + i * incb)%nat) else m x)
  end.
Definition fadd_generic (ADD : bool) (n a inca b incb c incc : nat) (m : mem) : mem :=
  if ((inca =? 1) && (incb =? 1) && (incc =? 1))%nat
  then strided n 0 (if ADD then fadd_ else fsub_) c 1 a 1 b 1 m
  else strided n 0 (if ADD then fadd_ else fadd_) c incc a inca b incb m.
End Generic.
