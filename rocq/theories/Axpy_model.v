(** * Model of faxpy and fscal on strided vectors

    Same flat memory and machine numbers as Red_model. *)
From Coq Require Import ZArith List Bool.
From Verif Require Import Delayed_model Red_model.
Open Scope Z_scope.

(** Iterations of for (; Xi < X+n*inc; Xi+=inc): none with inc = 0. *)
Definition count (n inc : nat) : nat := if (inc =? 0)%nat then 0%nat else n.

(** fflas_fassign.inl:46-66; the specialisations for float and double call the
    BLAS copy, which is the same for positive increments. *)
Definition fassign (n y incy x incx : nat) (m : mem) : mem :=
  strided (count n incx) 0 (fun v _ => v) x incx y incy y incy m.

(** fflas_faxpy.inl:46-93, axpyp with SIMD: as [vloop], but only the alignment
    of Y is tested. *)
Definition axpyp (vs : nat) (fs fv : Z -> Z -> Z) (y x n : nat) (m : mem) : mem :=
  if (n <? vs)%nat then scalar_loop fs y x y n 0 m
  else
    let st := (y mod vs)%nat in
    let i0 := if (st =? 0)%nat then 0%nat else (vs - st)%nat in
    let m := scalar_loop fs y x y i0 0 m in
    let '(i, m) :=
      if ((y + i0) mod vs =? 0)%nat then vector_loop vs fv y x y (S n) n i0 m else (i0, m) in
    scalar_loop fs y x y (n - i) i m.

(** One entry, floating point: l.63,73,91 reduce(a*X[i]+Y[i]), with the product
    and the sum contracted ([fma]) or not; l.38-43 VEC_FMA on one lane, fused on
    the processors that can ([fmav]). *)
Definition muladd (prec : Z) (fma : bool) (a x y : Z) : Z :=
  if fma then rnd prec (a * x + y) else rnd prec (rnd prec (a * x) + y).
Definition axpy_flt (prec : Z) (fma : bool) (p mn mx a x y : Z) : Z :=
  reduce_flt prec fma (muladd prec fma a x y) p mn mx.
Definition axpy_flt_lane (prec : Z) (fmav : bool) (p mn mx a x y : Z) : Z :=
  mod_simd prec (muladd prec fmav a x y) p mn mx.
(** The same for int64_t: the products wrap (signed overflow in the scalar code
    is excluded by the hypothesis of the theorem). *)
Definition axpy_int64 (fma vec : bool) (p mn mx a x y : Z) : Z :=
  reduce_int64 fma vec (wrap 64 (wrap 64 (a * x) + y)) p mn mx.

(** fflas_faxpy.inl:175-206, and fflas_fscal.inl:235-266 word for word: the
    vectors that are not contiguous are copied to [xc], [yc]. *)
Definition by_copies (loop : nat -> nat -> mem -> mem) (n x incx y incy xc yc : nat) (m : mem) : mem :=
  let m := if (incx =? 1)%nat then m else fassign n x incx xc 1 m in
  let m := if (incy =? 1)%nat then m else fassign n y incy yc 1 m in
  let m := loop (if (incy =? 1)%nat then y else yc) (if (incx =? 1)%nat then x else xc) m in
  if (incy =? 1)%nat then m else fassign n yc 1 y incy m.

(** fflas_faxpy.inl:155-209, ModularTag; [cr] is FFLASFFPACK_COPY_REDUCE, the
    strided loop is l.110-119. *)
Definition faxpy_modular (vs cr : nat) (fs fv : Z -> Z -> Z) (n x incx y incy xc yc : nat) (m : mem) : mem :=
  if ((incx =? 1) && (incy =? 1))%nat then axpyp vs fs fv y x n m
  else if (n <? cr)%nat then strided (count n incx) 0 fs y incy x incx y incy m
  else by_copies (fun t u => axpyp vs fs fv t u n) n x incx y incy xc yc m.

(** fflas_faxpy.inl:211-232, the other categories.  faddin and fsubin
    (fflas_fadd.h:75-81, 99-105) exchange their operands or not; over the
    GenericTag they are [fadd_generic]. *)
Definition faxpy_generic (add sub : Z -> Z -> Z) (axpyin : Z -> Z -> Z -> Z) (one mone a : Z)
    (n x incx y incy : nat) (m : mem) : mem :=
  if a =? 0 then m
  else if a =? one then fadd_generic add sub true n x incx y incy y incy m
  else if a =? mone then fadd_generic add sub false n y incy x incx y incy m
  else strided (count n incx) 0 (fun u v => axpyin v a u) y incy x incx y incy m.

(** fflas_fscal.inl:43-88, scalp: [vloop] with one operand. *)
Definition scal_flt (prec : Z) (fma : bool) (p mn mx a x : Z) : Z :=
  reduce_flt prec fma (rnd prec (a * x)) p mn mx.
Definition scal_flt_lane (prec : Z) (p mn mx a x : Z) : Z := mod_simd prec (rnd prec (a * x)) p mn mx.
Definition scalp (vs : nat) (fs fv : Z -> Z) (t u n : nat) : mem -> mem :=
  vloop vs (fun x _ => fs x) (fun x _ => fv x) t u u n.

(** fflas_fscal.inl:202-269, fscal, ModularTag; fneg is fflas_level1.inl:150-160
    and fzero l.168-190. *)
Definition fscal_modular (vs cr : nat) (fs fv neg : Z -> Z) (one mone a : Z)
    (n x incx y incy xc yc : nat) (m : mem) : mem :=
  if a =? one then fassign n x incx y incy m
  else if a =? mone then strided (count n incy) 0 (fun v _ => neg v) y incy x incx x incx m
  else if a =? 0 then strided n 0 (fun _ _ => 0) y incy y incy y incy m
  else if ((incx =? 1) && (incy =? 1))%nat then scalp vs fs fv y x n m
  else if (n <? cr)%nat then strided (count n incx) 0 (fun v _ => fs v) y incy x incx x incx m
  else by_copies (fun t u => scalp vs fs fv t u n) n x incx y incy xc yc m.

(** fflas_fscal.inl:361-387, fscal over DoubleDomain and FloatDomain: cblas_dcopy
    is given incy for both increments, then cblas_dscal. *)
Definition fscal_domain (mul : Z -> Z -> Z) (a : Z) (n x incx y incy : nat) (m : mem) : mem :=
  let m := strided n 0 (fun v _ => v) y incy x incy x incy m in
  strided n 0 (fun v _ => mul a v) y incy y incy y incy m.

(** ** Level 2 *)

(** for (; Xi < X+m*ldX; Xi+=ldX, Yi+=ldY) op(n,Xi,Yi) *)
Fixpoint rows (k i : nat) (op : nat -> nat -> mem -> mem) (x ldx y ldy : nat) (m : mem) : mem :=
  match k with O => m | S k => rows k (S i) op x ldx y ldy (op (y + i * ldy)%nat (x + i * ldx)%nat m) end.
(** fflas_faxpy.inl:304-310, fflas_fadd.h:249-254 (faddin) and 283-288 (fsubin):
    one call on the m*n entries when both matrices are contiguous. *)
Definition level2 (op : nat -> nat -> nat -> mem -> mem) (M n x ldx y ldy : nat) (m : mem) : mem :=
  if ((n =? ldx) && (n =? ldy))%nat then op y x (M * n)%nat m
  else rows (count M ldx) 0 (fun t u => op t u n) x ldx y ldy m.
(** fflas_faxpy.inl:286-311 over a prime field in floating point: [addp] and [subp]
    are what faddin and fsubin call (fflas_fadd.inl:299-304). *)
Definition faxpy2_flt (prec : Z) (fma fmav positive : bool) (p mn mx one mone : Z) (vs : nat) (a : Z)
    (M n x ldx y ldy : nat) (m : mem) : mem :=
  if a =? 0 then m
  else if a =? one then level2 (fun t u k => addp (Flt prec) positive p mn mx vs t u t k) M n x ldx y ldy m
  else if a =? mone then level2 (fun t u k => subp (Flt prec) positive p mn mx vs t t u k) M n x ldx y ldy m
  else level2 (fun t u k => axpyp vs (axpy_flt prec fma p mn mx a) (axpy_flt_lane prec fmav p mn mx a) t u k)
         M n x ldx y ldy m.
