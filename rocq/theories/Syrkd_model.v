(** * Model of fsyrk with delayed reductions: fflas/fflas_fsyrk.inl

    Same conventions as Delayed_model: entries are integers in floating-point
    storage. *)
From Coq Require Import ZArith List Bool.
From Verif Require Import Delayed_model.
Open Scope Z_scope.

(** Is (i,j) in the triangle designated by UpLo? *)
Definition in_tri (upper : bool) (i j : nat) : bool := if upper then (i <=? j)%nat else (j <=? i)%nat.

(** fflas_fsyrk.inl:117-168 on one entry: mulin by beta, axpyin of alpha and
    the dot product (fdot of a field with delayed reduction; it always returns,
    C06, so the default is never used). *)
Definition syrk_default_entry (F : fld) (prec : Z) (ord : order)
    (alpha : Z) (a b : nat -> Z) (k : nat) (beta c : Z) : Z :=
  let d := match fdot_delayed F prec ord k a b with Some d => d | None => 0 end in
  canon F (alpha * d + canon F (beta * c)).

(** fflas_fsyrk.inl:224-261 (DelayedTag) and 264-390 (LazyTag) on one entry of
    the triangle.  A is reduced (the checks of its interval, l.313-327, keep it
    unchanged); cblas_?syrk is the same unspecified summation as cblas_?gemm. *)
Definition syrk_entry (F : fld) (prec : Z) (ord : order)
    (alpha : Z) (a b : nat -> Z) (k : nat) (beta c : Z) : Z :=
  let one := canon F 1 in let mone := canon F (-1) in
  let general := negb (alpha =? one) && negb (alpha =? mone) in
  let alpha_ := if general then one else alpha in
  let beta_ := if general then fdiv F beta alpha else beta in
  let m := absmax F in
  let alphadf := if alpha_ =? mone then -1 else 1 in
  let betadf := if beta_ =? mone then -1 else beta_ in
  let kmax := max_delayed_dim (max_storable prec) m m m betadf in
  if (kmax =? 0)%nat then
    scal_and_reduce F prec alpha (flo F) (fhi F) (syrk_default_entry F prec ord alpha_ a b k beta_ c)
  else
    let '(omin, omax) := lazy_out_bounds F kmax k alphadf betadf in
    scal_and_reduce F prec alpha omin omax (lazy_entry F prec ord kmax alphadf a b k betadf c).

(** fflas_fsyrk.inl:201-222, ScalAndReduce, on an entry of the other triangle:
    freduce is restricted to UpLo, fscalin is not. *)
Definition syrk_other_entry (F : fld) (prec : Z) (alpha : Z) (k : nat) (beta c : Z) : Z :=
  let one := canon F 1 in let mone := canon F (-1) in
  let general := negb (alpha =? one) && negb (alpha =? mone) in
  if negb general then c else
  let beta_ := fdiv F beta alpha in
  let m := absmax F in
  let betadf := if beta_ =? mone then -1 else beta_ in
  let kmax := max_delayed_dim (max_storable prec) m m m betadf in
  let '(omin, omax) := if (kmax =? 0)%nat then (flo F, fhi F) else lazy_out_bounds F kmax k (if one =? mone then -1 else 1) betadf in
  if max_storable prec / Z.abs alpha <? Z.max (- omin) omax
  then canon F (alpha * c)
  else rnd prec (alpha * c).

(** fflas_fsyrk.inl:78-98 and 238-242: the K = 0 and alpha = 0 cases scale the
    whole N x N block.  [A i] is row i of op(A). *)
Definition fsyrk_delayed (F : fld) (prec : Z) (ord : nat -> nat -> order) (upper : bool)
    (n k : nat) (alpha : Z) (A : nat -> nat -> Z) (beta : Z) (C : nat -> nat -> Z) : nat -> nat -> Z :=
  fun i j =>
    if ((i <? n) && (j <? n))%nat then
      if (k =? 0)%nat || (alpha =? 0) then canon F (beta * C i j)
      else if in_tri upper i j then syrk_entry F prec (ord i j) alpha (A i) (A j) k beta (C i j)
      else syrk_other_entry F prec alpha k beta (C i j)
    else C i j.
