(** * The packed int64 matrix product: fflas/fflas_igemm

    Column major arrays are functions from addresses to Z.  A vector register
    has vs lanes of 64 bits (vs = simd::vect_size = StepA: 2, 4 or 8).  Vector
    instructions wrap; scalar signed operations that leave the 64-bit range are
    undefined: they wrap here too, and clear the flag that goes with C.
    mulx is the instruction _mm_mul_epi32: it multiplies the low halves. *)
From Coq Require Import ZArith.
From mathcomp Require Import all_ssreflect.
From Verif Require Import Grid.
Set Implicit Arguments.
Unset Strict Implicit.
Unset Printing Implicit Defensive.

Definition mem := nat -> Z.
Definition swrap (n : Z) (z : Z) : Z := ((z + 2 ^ (n - 1)) mod 2 ^ n - 2 ^ (n - 1))%Z.
Definition w64 : Z -> Z := swrap 64.
Definition w32 : Z -> Z := swrap 32.
Definition in64 (z : Z) : bool := Z.leb (- 2 ^ 63) z && Z.ltb z (2 ^ 63).

(** ** simd128_int64.inl l.415-440, simd256_int64.inl l.453-478 *)
Definition vect := nat -> Z.
Definition mulx (a b : Z) : Z := (w32 a * w32 b)%Z.
Definition vload (M : mem) (p : nat) : vect := fun l => M (p + l).
Definition vset1 (x : Z) : vect := fun=> x.
Definition vadd (a b : vect) : vect := fun l => w64 (a l + b l).
Definition vsub (a b : vect) : vect := fun l => w64 (a l - b l).
Definition fmaddx (c a b : vect) : vect := fun l => w64 (c l + mulx (a l) (b l)).
Definition vstore (vs : nat) (M : mem) (p : nat) (v : vect) : mem := fun q => if p <= q < p + vs then v (q - p) else M q.

(** igemm.h l.33-38 *)
Inductive kind := One | Mone | Other.

Section Kernels.
Variables (vs : nat) (K : kind) (alpha : Z).

(** C and the flag: no undefined scalar operation so far. *)
Definition st := (mem * bool)%type.

(** igemm_kernels.inl l.65-235 [igebb44] (nv = 2 vectors of A, nc = 4 columns of B),
    l.237-348 [igebb24] (1, 4), l.471-521 [igebb41] (2, 1), l.523-562 [igebb21] (1, 1).
    acc t v is the register C_(t + 4 v).  The loads of B and A that the code
    interleaves with the products are done at the head of each step, and C is
    loaded right before it is stored (the target addresses are different).  pA, pB,
    cb: offsets of blA, blB, C.  The loop by four is in the code for nc = 4 only. *)
Definition mac (nv nc : nat) (blA : mem) (pA : nat) (blB : mem) (pB : nat) (k : nat) (acc : nat -> nat -> vect) : nat -> nat -> vect :=
  fun t v => fmaddx (acc t v) (vload blA (pA + (k * nv + v) * vs)) (vset1 (blB (pB + k * nc + t))).

Definition vfin (R c : vect) : vect :=
  match K with One => vadd R c | Mone => vsub R c | Other => fmaddx R (vset1 alpha) c end.

Definition igebbV (nv nc i j depth pdepth : nat) (blA : mem) (pA : nat) (blB : mem) (pB : nat) (cb ldc : nat) (s : st) : st :=
  let f := mac nv nc blA pA blB pB in
  let acc := iteri (pdepth %/ 4) (fun k acc => f (4 * k + 3) (f (4 * k + 2) (f (4 * k + 1) (f (4 * k) acc)))) (fun _ _ _ => 0%Z) in
  let acc := iteri (depth - pdepth) (fun k acc => f (pdepth + k) acc) acc in
  (iteri nc (fun t C => iteri nv (fun v C =>
     let r := cb + (j + t) * ldc + i + v * vs in vstore vs C r (vfin (vload C r) (acc t v))) C) s.1, s.2).

(** l.350-468 [igebb14], with vectors; R t is the lane for column j + t. *)
Definition igebb14 (i j depth : nat) (blA : mem) (pA : nat) (blB : mem) (pB : nat) (cb ldc : nat) (s : st) : st :=
  let: (R, ok) := iteri depth (fun k (Ro : vect * bool) =>
    let: (R, ok) := Ro in
    let B0 := vload blB (pB + k * 4) in
    match K with
    | One => (fmaddx R (vset1 (blA (pA + k))) B0, ok)
    | Mone => (vsub R (fun l => mulx (blA (pA + k)) (B0 l)), ok)
    | Other => let abla := (alpha * blA (pA + k)%N)%Z in (fmaddx R (vset1 (w64 abla)) B0, ok && in64 abla)
    end) (fun t => s.1 (cb + (j + t) * ldc + i), s.2) in
  (iteri 4 (fun t C => upd1 C (cb + (j + t) * ldc + i) (R t)) s.1, ok).

(** l.564-582 [igebb11], scalar. *)
Definition igebb11 (i j depth : nat) (blA : mem) (pA : nat) (blB : mem) (pB : nat) (cb ldc : nat) (s : st) : st :=
  let: (r, ok) := iteri depth (fun k (ro : Z * bool) =>
    let: (r, ok) := ro in
    let a := blA (pA + k) in let b := blB (pB + k) in
    match K with
    | One => (w64 (r + w64 (a * b)), [&& ok, in64 (a * b) & in64 (r + a * b)])
    | Mone => (w64 (r - w64 (a * b)), [&& ok, in64 (a * b) & in64 (r - a * b)])
    | Other => (w64 (r + w64 (alpha * a * b)), [&& ok, in64 (alpha * a), in64 (alpha * a * b) & in64 (r + alpha * a * b)])
    end%Z) (s.1 (cb + j * ldc + i), s.2) in
  (upd1 s.1 (cb + j * ldc + i) r, ok).

(** l.616-632 and l.640-656: the rows that are left, vs at a time, then one at a time. *)
Fixpoint igebp_rem (fuel nc i j rem depth pdepth : nat) (blockA : mem) (lda : nat) (blockB : mem) (ldb : nat) (cb ldc : nat) (s : st) : st :=
  if fuel is f.+1 then
    if rem == 0 then s
    else if vs <= rem then
      igebp_rem f nc (i + vs) j (rem - vs) depth pdepth blockA lda blockB ldb cb ldc
        (igebbV 1 nc i j depth pdepth blockA (i * lda) blockB (j * ldb) cb ldc s)
    else
      igebp_rem f nc i.+1 j rem.-1 depth pdepth blockA lda blockB ldb cb ldc
        ((if nc == 4 then igebb14 else igebb11) i j depth blockA (i * lda) blockB (j * ldb) cb ldc s)
  else s.

(** l.594-660 [igebp]; _mr = 2 vs, _nr = _dr = 4.  pdepth is not used by igebb41 and
    igebb21, which take one step after the other: pdepth = 0. *)
Definition igebp_rows (nc j rows depth pdepth : nat) (blockA : mem) (lda : nat) (blockB : mem) (ldb : nat) (cb ldc : nat) (s : st) : st :=
  let mr := 2 * vs in
  let prows := rows %/ mr * mr in
  let s := iteri (rows %/ mr) (fun ii s => igebbV 2 nc (ii * mr) j depth pdepth blockA (ii * mr * lda) blockB (j * ldb) cb ldc s) s in
  igebp_rem (rows - prows) nc prows j (rows - prows) depth pdepth blockA lda blockB ldb cb ldc s.

Definition igebp (rows cols depth : nat) (blockA : mem) (lda : nat) (blockB : mem) (ldb : nat) (cb ldc : nat) (s : st) : st :=
  let pcols := cols %/ 4 * 4 in
  let s := iteri (cols %/ 4) (fun jj s => igebp_rows 4 (jj * 4) rows depth (depth %/ 4 * 4) blockA lda blockB ldb cb ldc s) s in
  iteri (cols - pcols) (fun jj s => igebp_rows 1 (pcols + jj) rows depth 0 blockA lda blockB ldb cb ldc s) s.

End Kernels.

(** ** Packing: igemm_tools.inl *)
Definition put (s : mem * nat) (v : Z) : mem * nat := (upd1 s.1 s.2 v, s.2.+1).

(** l.38-66 [pack_rhs]; xo: offset of X. *)
Definition pack_rhs (StepA k : nat) (tr : bool) (XX X : mem) (xo ldx rows cols : nat) : mem :=
  let cbk := cols %/ k * k in
  let s := iteri (cols %/ k) (fun jj s => iteri rows (fun i s => iteri k (fun l s => put s (X (xo + (i + (jj * k + l) * ldx)))) s) s) (XX, 0) in
  let: (s, cbk) := if tr && (StepA <= cols - cbk)
    then (iteri rows (fun i s => iteri StepA (fun l s => put s (X (xo + (i + (cbk + l) * ldx)))) s) s, cbk + StepA) else (s, cbk) in
  (iteri (cols - cbk) (fun jj s => iteri rows (fun i s => put s (X (xo + (i + (cbk + jj) * ldx)))) s) s).1.

(** l.71-107 [pack_lhs]. *)
Definition pack_lhs (StepA k : nat) (tr : bool) (XX X : mem) (xo ldx rows cols : nat) : mem :=
  let rbk := rows %/ k * k in
  let s := iteri (rows %/ k) (fun ii s => iteri cols (fun j s => iteri k (fun l s => put s (X (xo + (ii * k + l + j * ldx)))) s) s) (XX, 0) in
  let: (s, rbk) := if ~~ tr && (StepA <= rows - rbk)
    then (iteri cols (fun j s => iteri StepA (fun l s => put s (X (xo + (rbk + l + j * ldx)))) s) s, rbk + StepA) else (s, rbk) in
  (iteri (rows - rbk) (fun ii s => iteri cols (fun j s => put s (X (xo + (rbk + ii + j * ldx)))) s) s).1.

(** l.109-136 [BlockingFactor]: (mc, kc) from the sizes of the caches, which the
    processor tells; int values are converted to 64 unsigned bits.  None: division by
    zero.  sizeof(int64_t) = 8, _mr = 2 vs, _nr = 4. *)
Definition u64 (z : Z) : Z := (z mod 2 ^ 64)%Z.
Definition BlockingFactor (vs : nat) (l1 l2 l3 tlb : Z) (m k : nat) : option (nat * nat) :=
  let l2 := Z.max l2 l3 in
  let l2 := if Z.eqb tlb 0 then l2 else Z.min l2 tlb in
  let kdiv := (2 * (4 + 2 * Z.of_nat vs) * 8)%Z in
  let kc := Z.to_nat (Z.min (Z.of_nat k) (u64 l1 / kdiv)%Z) in
  if kc == 0 then None else
  Some (Z.to_nat (Z.min (Z.of_nat m) (u64 l2 / (8 * Z.of_nat kc))%Z), kc).

(** ** Drivers: igemm.inl *)
Definition cdiv (n k : nat) : nat := (n + k - 1) %/ k.

(** l.64-121 [igemm_colmajor]; tA, tB: transposed.  None when mc = 0, where the
    loop over the rows never ends.  mA0, mB0: what the fresh blocks hold. *)
Definition igemm_colmajor (vs : nat) (bf : nat -> nat -> option (nat * nat)) (tA tB : bool) (K : kind) (rows cols depth : nat) (alpha : Z)
    (A : mem) (lda : nat) (B : mem) (ldb : nat) (mA0 mB0 : mem) (ldc : nat) (s : st) : option st :=
  if bf rows depth is Some (mc, kc) then
    if mc == 0 then None else
    Some (iteri (cdiv depth kc) (fun t (r : st * (mem * mem)) =>
      let k2 := t * kc in
      let akc := minn (k2 + kc) depth - k2 in
      let: (s, (mA, mB)) := r in
      let mB := if tB then pack_lhs vs 4 true mB B (k2 * ldb) ldb cols akc else pack_rhs vs 4 false mB B k2 ldb akc cols in
      let: (s, mA) := iteri (cdiv rows mc) (fun u (r : st * mem) =>
        let i2 := u * mc in
        let amc := minn (i2 + mc) rows - i2 in
        let mA := if tA then pack_rhs vs (2 * vs) true r.2 A (i2 * lda + k2) lda akc amc else pack_lhs vs (2 * vs) false r.2 A (i2 + k2 * lda) lda amc akc in
        (igebp vs K alpha amc cols akc mA akc mB akc i2 ldc r.1, mA)) (s, mA) in
      (s, (mA, mB))) (s, (mA0, mB0))).1
  else None.

(** fscalin over ZRing<int64_t> on the rows x cols window (column major). *)
Definition iscal (beta : Z) (rows cols ldc : nat) (s : st) : st :=
  (fun q => if (q %% ldc < rows) && (q %/ ldc < cols) then w64 (beta * s.1 q) else s.1 q,
   s.2 && all (fun j => all (fun i => in64 (beta * s.1 (j * ldc + i)%N)) (iota 0 rows)) (iota 0 cols)).

(** l.38-61 and l.123-157 [igemm]. *)
Definition igemm (vs : nat) (bf : nat -> nat -> option (nat * nat)) (tA tB : bool) (rows cols depth : nat) (alpha : Z)
    (A : mem) (lda : nat) (B : mem) (ldb : nat) (beta : Z) (mA0 mB0 : mem) (ldc : nat) (s : st) : option st :=
  if (rows == 0) || (cols == 0) then Some s else
  let s := iscal beta rows cols ldc s in
  if (depth == 0) || Z.eqb alpha 0 then Some s else
  let K := if Z.eqb alpha 1 then One else if Z.eqb alpha (-1) then Mone else Other in
  igemm_colmajor vs bf tA tB K rows cols depth alpha A lda B ldb mA0 mB0 ldc s.

(** l.166-181 [igemm_], row major: the operands change places. *)
Definition igemm_row (vs : nat) (bf : nat -> nat -> option (nat * nat)) (tA tB : bool) (M N K : nat) (alpha : Z)
    (A : mem) (lda : nat) (B : mem) (ldb : nat) (beta : Z) (mA0 mB0 : mem) (ldc : nat) (s : st) : option st :=
  igemm vs bf tB tA N M K alpha B ldb A lda beta mA0 mB0 ldc s.

(** fflas_fgemv.inl l.367-385, SSE4.1 on x86_64: the vector is a matrix with one column.  m: length of Y, n: length of X. *)
Definition fgemv_int64 (vs : nat) (bf : nat -> nat -> option (nat * nat)) (ta : bool) (M N : nat) (alpha : Z)
    (A : mem) (lda : nat) (X : mem) (incX : nat) (beta : Z) (mA0 mB0 : mem) (incY : nat) (s : st) : option st :=
  if ta then igemm_row vs bf ta false N 1 M alpha A lda X incX beta mA0 mB0 incY s
  else igemm_row vs bf ta false M 1 N alpha A lda X incX beta mA0 mB0 incY s.

(** fflas_fgemv.inl l.386-407, the other processors; overflow is not looked at. *)
Definition fgemv_int64_scalar (ta : bool) (M N : nat) (alpha : Z) (A : mem) (lda : nat) (X : mem) (incX : nat) (beta : Z) (incY : nat) (Y : mem) : mem :=
  iteri (if ta then N else M) (fun i Y =>
    let Y := upd1 Y (i * incY) (Y (i * incY)%N * (beta * Y (i * incY)%N))%Z in
    iteri (if ta then M else N) (fun j Y =>
      upd1 Y (i * incY) (Y (i * incY)%N + alpha * (if ta then A (i + j * lda)%N else A (i * lda + j)%N) * X (j * incX)%N)%Z) Y) Y.

(** fgemm_classical.inl l.293-325 [fgemm_clas] over ZRing<int64_t> when recLevel is not 0 (overflow is not looked at). *)
Definition fgemm_int64_scalar (ta tb : bool) (m n k : nat) (alpha : Z) (A : mem) (lda : nat) (B : mem) (ldb : nat) (beta : Z) (ldc : nat) (C : mem) : mem :=
  iteri m (fun i C =>
    let C := iteri n (fun j C => upd1 C (i * ldc + j) (C (i * ldc + j)%N * beta)%Z) C in
    iteri k (fun l C =>
      let a := (alpha * (if ta then A (i + l * lda)%N else A (i * lda + l)%N))%Z in
      iteri n (fun j C => upd1 C (i * ldc + j) (C (i * ldc + j)%N + a * (if tb then B (l + j * ldb)%N else B (l * ldb + j)%N))%Z) C) C) C.
