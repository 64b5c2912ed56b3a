(** * Model of delayed modular reduction over floating-point storage

    Floating-point numbers holding integers are modelled by [Z] with an
    explicit rounding function; sums computed by the BLAS are arbitrary
    parenthesisations of the terms with a rounding at every node. *)
From Coq Require Import ZArith List Lia Bool.
Import ListNotations.
Open Scope Z_scope.

(** ** Rounding *)

(** Round-to-nearest, ties to even, of an integer to [prec] significant bits
    (IEEE-754 binary32: prec = 24, binary64: prec = 53; exponent range is not
    modelled: every value stays far below the overflow threshold). *)
Definition rnd_pos (prec : Z) (z : Z) : Z :=
  if z <=? 2 ^ prec then z else
  let e := Z.log2 z + 1 - prec in
  let u := 2 ^ e in
  let q := z / u in
  let r := z mod u in
  if (2 * r <? u) then q * u
  else if (u <? 2 * r) then (q + 1) * u
  else if Z.even q then q * u else (q + 1) * u.

Definition rnd (prec : Z) (z : Z) : Z :=
  if z <? 0 then - rnd_pos prec (- z) else rnd_pos prec z.

(** ** BLAS summation in an unspecified order *)

(** [Fma z t] is a fused multiply-add of the product [z] onto [t]. *)
Inductive tree := Nil | Leaf (z : Z) | Node (l r : tree) | Fma (z : Z) (t : tree).

Fixpoint eval (prec : Z) (t : tree) : Z :=
  match t with
  | Nil => 0
  | Leaf z => rnd prec z
  | Node l r => rnd prec (eval prec l + eval prec r)
  | Fma z t => rnd prec (z + eval prec t)
  end.

Fixpoint leaves (t : tree) : list Z :=
  match t with
  | Nil => []
  | Leaf z => [z]
  | Node l r => leaves l ++ leaves r
  | Fma z t => z :: leaves t
  end.

(** An execution picks, for every BLAS call (numbered) and list of terms, a
    parenthesisation of some permutation of these terms. *)
Definition order := nat -> list Z -> tree.

(** The simplest order: left to right. *)
Definition ltr : order := fun _ l => fold_left (fun t z => Node t (Leaf z)) l Nil.

(** ** Prime fields stored in floating point *)

(** Givaro representation (external): elements of Z/p are the integers in
    [lo, lo+p-1]; Modular has lo = 0, ModularBalanced lo = (p/2) - p + 1. *)
Record fld := mkfld { fp : Z; flo : Z }.
Definition fhi (F : fld) := flo F + fp F - 1.
Definition modular (p : Z) := mkfld p 0.
Definition balanced (p : Z) := mkfld p (p / 2 - p + 1).

(** F.init / F.reduce of Givaro: canonical representative. *)
Definition canon (F : fld) (z : Z) : Z := flo F + (z - flo F) mod fp F.

(** max(-F.minElement(), F.maxElement()) *)
Definition absmax (F : fld) : Z := Z.max (- flo F) (fhi F).

(** Modular inverse (Givaro F.inv, external): first x in [0,p) with a x = 1. *)
Definition zinv (p a : Z) : Z :=
  match find (fun x => (a * Z.of_nat x) mod p =? 1) (seq 0 (Z.to_nat p)) with
  | Some x => Z.of_nat x
  | None => 0
  end.
(** F.div *)
Definition fdiv (F : fld) (b a : Z) : Z := canon F (b * zinv (fp F) a).

(** utils/flimits.h:122-134, limits<float|double>::max(): 2^mant - 1 *)
Definition max_storable (prec : Z) : Z := 2 ^ prec - 1.

(** ** fdot : fflas/fflas_fdot.inl *)

(** Products of [len] consecutive strided elements starting at position [off]. *)
Definition prods (x y : nat -> Z) (off len : nat) : list Z :=
  map (fun i => x i * y i) (seq off len).

(** fflas_fdot.inl:37-55: fdot in DefaultTag over the field: axpyin loop with
    a reduction at each step.  The vectors are given with their strides
    applied: [x i] is the element x[i*incx]. *)
Definition fdot_default (F : fld) (N : nat) (x y : nat -> Z) : Z :=
  fold_left (fun d i => canon F (x i * y i + d)) (seq 0 N) (canon F 0).

(** fflas_fdot.inl:77-85: loop on blocks of delayedDim elements, then the
    last block.  [i] is the index i of the code minus delayedDim, i.e. the
    number of elements already treated. *)
Fixpoint fdot_loop (fuel : nat) (F : fld) (prec : Z) (ord : order)
   (N dd i : nat) (x y : nat -> Z) (d : Z) : option Z :=
  match fuel with
  | O => None
  | S fuel =>
    if (i + dd <? N)%nat then
      let dp := canon F (eval prec (ord i (prods x y i dd))) in
      fdot_loop fuel F prec ord N dd (i + dd) x y (canon F (d + dp))
    else
      let dp := canon F (eval prec (ord i (prods x y i (N - i)))) in
      Some (canon F (d + dp))
  end.

(** fflas_fdot.inl:57-86: DelayedTag.  The two floating-point divisions
    (MaxStorableValue / AbsMax) / AbsMax truncated to an integer are modelled
    as the exact floor of MaxStorableValue / AbsMax^2. *)
Definition fdot_delayed (F : fld) (prec : Z) (ord : order)
   (N : nat) (x y : nat -> Z) : option Z :=
  let r := max_storable prec / (absmax F * absmax F) in
  let dd := Z.to_nat r in
  if (dd =? 0)%nat then Some (fdot_default F N x y)
  else fdot_loop (S N) F prec ord N dd 0 x y (canon F 0).

(** ** fgemm, classical, delayed : fgemm_classical.inl:46-175 *)

(** fflas_helpers.inl:172-195, MaxDelayedDim.  [Am], [Bm], [Cm] are
    max(-Xmin, Xmax); floating-point quotient modelled as exact floor.
    The infinite-precision case (MaxStorableValue < 0) is not modelled, nor is
    a zero AB (reduced operands have Am, Bm >= 1). *)
Definition max_delayed_dim (M Am Bm Cm beta : Z) : nat :=
  let diff := M - Z.abs beta * Cm in
  let AB := Am * Bm in
  if (diff <? 0) || (AB <? 0) then 0%nat
  else Z.to_nat (diff / AB).

(** One cblas_?gemm on one entry of C: alpha * sum a_l b_l + beta * c, for the
    [len] indices l starting at [off] (fgemm_classical.inl:264, 287).  With
    beta = 0 the BLAS does not read C. *)
Definition blas_entry (prec : Z) (ord : order) (call : nat)
    (alpha : Z) (a b : nat -> Z) (off len : nat) (beta c : Z) : Z :=
  let ts := map (fun l => alpha * (a l * b l)) (seq off len) in
  eval prec (ord call (if beta =? 0 then ts else ts ++ [beta * c])).

(** fgemm_classical.inl:139-148: the loop over the full blocks. *)
Fixpoint lazy_loop (n i : nat) (F : fld) (prec : Z) (ord : order)
    (alpha : Z) (a b : nat -> Z) (k2 : nat) (c : Z) : Z :=
  match n with
  | O => c
  | S n =>
    lazy_loop n (S i) F prec ord alpha a b k2
      (blas_entry prec ord (S i) alpha a b (i * k2) k2 1 (canon F c))
  end.

(** fgemm_classical.inl:108-148 on one entry of C (the entries of C are
    computed independently), reduced operands, kmax > 0.
    [a l] = op(A)[i,l], [b l] = op(B)[l,j]; k >= 1 is checked by the callers
    (fflas_fgemm.inl:338, 384). *)
Definition lazy_entry (F : fld) (prec : Z) (ord : order) (kmax : nat)
    (alphadf : Z) (a b : nat -> Z) (k : nat) (betadf c : Z) : Z :=
  let k2 := Nat.min k kmax in
  let nblock := (k / kmax)%nat in
  let rem := (k mod kmax)%nat in
  let '(rem, nblock) := if (rem =? 0)%nat then (kmax, (nblock - 1)%nat) else (rem, nblock) in
  let c := blas_entry prec ord 0 alphadf a b (nblock * k2) rem betadf c in
  lazy_loop nblock 0 F prec ord alphadf a b k2 c.

(** fflas_helpers.inl:198-214, setOutBounds. *)
Definition set_out_bounds (k alpha beta Amin Amax Bmin Bmax Cmin Cmax : Z) : Z * Z :=
  let '(omin, omax) :=
    if beta <? 0 then (beta * Cmax, beta * Cmin) else (beta * Cmin, beta * Cmax) in
  if 0 <? alpha then
    (omin + k * alpha * Z.min (Amin * Bmax) (Amax * Bmin),
     omax + k * alpha * Z.max (Amin * Bmin) (Amax * Bmax))
  else
    (omin + k * alpha * Z.max (Amin * Bmin) (Amax * Bmax),
     omax + k * alpha * Z.min (Amin * Bmax) (Amax * Bmin)).

(** Output bounds left in the helper by the lazy product: those of its last
    BLAS call (fgemm_classical.inl:132-146, 241-245, 171-172). *)
Definition lazy_out_bounds (F : fld) (kmax k : nat) (alphadf betadf : Z) : Z * Z :=
  let lo := flo F in let hi := fhi F in
  let nblock := if (k mod kmax =? 0)%nat then (k / kmax - 1)%nat else (k / kmax)%nat in
  let rem := if (k mod kmax =? 0)%nat then kmax else (k mod kmax)%nat in
  if (nblock =? 0)%nat
  then set_out_bounds (Z.of_nat rem) alphadf betadf lo hi lo hi lo hi
  else set_out_bounds (Z.of_nat (Nat.min k kmax)) alphadf 1 lo hi lo hi lo hi.

(** fgemm_classical.inl:180-229: the generic product over the field, on one
    entry, every operation followed by a reduction. *)
Definition default_entry (F : fld) (alpha : Z) (a b : nat -> Z) (k : nat) (beta c : Z) : Z :=
  let c0 := if beta =? 0 then 0 else canon F (fdiv F beta alpha * c) in
  let s := fold_left (fun d l => canon F (a l * b l + d)) (seq 0 k) c0 in
  canon F (alpha * s).

(** fflas_fgemm.inl:215-234, ScalAndReduce on one entry. *)
Definition scal_and_reduce (F : fld) (prec : Z) (alpha omin omax c : Z) : Z :=
  if (canon F 1 =? alpha) || (canon F (-1) =? alpha) then canon F c
  else
    if max_storable prec / Z.abs alpha <? Z.max (- omin) omax
    then canon F (alpha * canon F c)
    else canon F (rnd prec (alpha * c)).

(** fflas_fgemm.inl:367-438 (DelayedTag driver) with the conversions to other
    fields (l.407-418) and the Winograd recursion (fgemm_winograd.inl, level
    0) left out: this is the path taken by Modular<float|double> and
    ModularBalanced<float|double> on small dimensions. [alpha], [beta] are
    reduced field elements, alpha <> 0. *)
Definition gemm_entry (F : fld) (prec : Z) (ord : order)
    (alpha : Z) (a b : nat -> Z) (k : nat) (beta c : Z) : Z :=
  let one := canon F 1 in let mone := canon F (-1) in
  let general := negb (alpha =? one) && negb (alpha =? mone) in
  let alpha_ := if general then one else alpha in
  let beta_ := if general then fdiv F beta alpha else beta in
  let m := absmax F in
  let alphadf := if alpha_ =? mone then -1 else 1 in
  let betadf := if beta_ =? mone then -1 else beta_ in
  let kmax := max_delayed_dim (max_storable prec) m m m betadf in
  if (kmax =? 0)%nat then
    scal_and_reduce F prec alpha (flo F) (fhi F) (default_entry F alpha_ a b k beta_ c)
  else
    let '(omin, omax) := lazy_out_bounds F kmax k alphadf betadf in
    scal_and_reduce F prec alpha omin omax (lazy_entry F prec ord kmax alphadf a b k betadf c).

(** The whole product on matrices; fflas_fgemm.inl:336-346, 382-387:
    degenerate cases.  [ord i j] is the order used for entry (i,j). *)
Definition fgemm_delayed (F : fld) (prec : Z) (ord : nat -> nat -> order)
    (m n k : nat) (alpha : Z) (A B : nat -> nat -> Z) (beta : Z) (C : nat -> nat -> Z)
    : nat -> nat -> Z :=
  fun i j =>
    if ((i <? m) && (j <? n))%nat then
      if (k =? 0)%nat || (alpha =? 0) then canon F (beta * C i j)
      else gemm_entry F prec (ord i j) alpha (A i) (fun l => B l j) k beta (C i j)
    else C i j.

(** ** fgemv : fflas_fgemv.inl:118-183, 191-222, 225-333 *)

(** fgemv_default on one entry (l.191-222): scale by beta/alpha, add the dot
    product, scale by alpha. *)
Definition gemv_default_entry (F : fld) (alpha : Z) (a x : nat -> Z) (k : nat) (beta y : Z) : Z :=
  let y0 := if beta =? 0 then 0 else canon F (fdiv F beta alpha * y) in
  canon F (alpha * canon F (y0 + fdot_default F k a x)).

Definition gemv_entry (F : fld) (prec : Z) (ord : order)
    (alpha : Z) (a x : nat -> Z) (k : nat) (beta y : Z) : Z :=
  let one := canon F 1 in let mone := canon F (-1) in
  let general := negb (alpha =? one) && negb (alpha =? mone) in
  let alpha_ := if general then one else alpha in
  let beta_ := if general then fdiv F beta alpha else beta in
  let m := absmax F in
  let alphadf := if alpha_ =? mone then -1 else 1 in
  let betadf := if beta_ =? mone then -1 else beta_ in
  let kmax := max_delayed_dim (max_storable prec) m m m betadf in
  if (kmax =? 0)%nat then
    scal_and_reduce F prec alpha (flo F) (fhi F) (gemv_default_entry F alpha_ a x k beta_ y)
  else
    let '(omin, omax) := lazy_out_bounds F kmax k alphadf betadf in
    scal_and_reduce F prec alpha omin omax (lazy_entry F prec ord kmax alphadf a x k betadf y).

(** fflas_fgemv.inl:118-183 and 345-364: Y <- alpha op(A) X + beta Y, A is M x N.
    Conversions to float/double (l.144-167) are left out. *)
Definition fgemv (F : fld) (prec : Z) (ord : nat -> order) (trans : bool)
    (M N : nat) (alpha : Z) (A : nat -> nat -> Z) (X : nat -> Z) (beta : Z) (Y : nat -> Z)
    : nat -> Z :=
  if (M =? 0)%nat then Y else
  let ydim := if trans then N else M in
  let xdim := if trans then M else N in
  if (xdim =? 0)%nat || (alpha =? 0) then
    fun i => if (i <? ydim)%nat then canon F (if beta =? 0 then 0 else beta * Y i) else Y i
  else
    fun i => if (i <? ydim)%nat
             then gemv_entry F prec (ord i) alpha
                    (fun l => if trans then A l i else A i l) X xdim beta (Y i)
             else Y i.

(** ** Interval bookkeeping of the Winograd pre-additions : fflas_fgemm.inl:99-192 *)

(** Bounds [Out], [Op1], [Op2] and the returned flag. Lazy mode. *)
Definition need_pre_add (F : fld) (M l1 h1 l2 h2 : Z) : bool * (Z * Z) :=
  if (M - h1 <? h2) || (M + l1 <? - l2)
  then (true, (2 * flo F, 2 * fhi F))
  else (false, (l1 + l2, h1 + h2)).

Definition need_pre_sub (F : fld) (M l1 h1 l2 h2 : Z) : bool * (Z * Z) :=
  if (M - h1 <? - l2) || (M - h2 <? - l1)
  then (true, (flo F - fhi F, - (flo F - fhi F)))
  else (false, (l1 - h2, h1 - l2)).

Definition need_double_pre_add (F : fld) (M l1 h1 l2 h2 beta : Z) : bool * (Z * Z) :=
  let omin := Z.min (beta * l2) (beta * h2) in
  let omax := Z.max (beta * l2) (beta * h2) in
  if (M - omax <? h1) || (M + omin <? - l1)
  then (true, (omin + flo F, omax + fhi F))
  else (false, (omin + l1, omax + h1)).
