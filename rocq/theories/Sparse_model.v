(** * Model of the sparse formats and of their products

    fflas/fflas_sparse.inl, fflas/fflas_sparse/{csr,coo,ell,hyb_zo,sell}.
    Arrays are functions of the index; index types are unbounded.  Machine
    numbers are integers of [Z] rounded to [prec] bits (float, double). *)
From Coq Require Import ZArith List Bool.
From Verif Require Import Delayed_model.
Import ListNotations.
Open Scope Z_scope.

(** One entry of the arrays row, col, dat given to sparse_init. *)
Record trip := T3 { ro : nat; co : nat; va : Z }.
Definition t0 := T3 0 0 0.

Definition upd {T} (f : nat -> T) (i : nat) (v : T) : nat -> T :=
  fun j => if (j =? i)%nat then v else f j.

(** ** Bounds *)

(** fflas_bounds.inl:42-72: [half] for ModularBalanced<float|double>. *)
Definition factor (half : bool) (F : fld) : Z := if half then (fp F - 1) / 2 else fp F - 1.

(** fflas_bounds.inl:74-108, DotProdBoundClassic(F, F.one) for float and double. *)
Definition dotbound (half : bool) (F : fld) (prec : Z) : nat :=
  let c := factor half F in
  let kmax := (max_storable prec + 1 - c) / (c * c) in
  if kmax <=? 1 then 1%nat else Z.to_nat (Z.min kmax (2 ^ 31)).

(** ** Construction *)

(** csr_utils.inl:195-197 and the same loop in the other formats *)
Definition count_rows (ts : list trip) : nat -> nat :=
  fold_left (fun rows t => upd rows (ro t) (S (rows (ro t)))) ts (fun _ => 0%nat).

(** std::max_element(first, last, comp): [None] for an empty range, whose
    result must not be dereferenced. *)
Definition max_element {T} (comp : T -> T -> bool) (l : list T) : option T :=
  match l with
  | [] => None
  | a :: l => Some (fold_left (fun largest b => if comp largest b then b else largest) l a)
  end.

(** csr_utils.inl:199 *)
Definition max_row (m : nat) (rows : nat -> nat) : option nat :=
  max_element Nat.ltb (map rows (seq 0 m)).

Record csr := Csr { cm : nat; ckmax : nat; cmaxrow : nat; cdelayed : bool;
                    ccol : nat -> nat; cst : nat -> nat; cdat : nat -> Z }.

(** csr_utils.inl:213-216: st[0] = 0; st[i] = st[i-1] + rows[i-1] *)
Fixpoint starts (rows : nat -> nat) (i : nat) : nat :=
  match i with O => O | S i => (starts rows i + rows i)%nat end.

(** csr_utils.inl:187-220 *)
Definition csr_init (half : bool) (F : fld) (prec : Z) (m : nat) (ts : list trip) : option csr :=
  let kmax := dotbound half F prec in
  let rows := count_rows ts in
  match max_row m rows with
  | None => None
  | Some maxrow =>
    Some (Csr m kmax maxrow (maxrow <? kmax)%nat
      (fun i => co (nth i ts t0)) (starts rows) (fun i => va (nth i ts t0)))
  end.

(** csr_utils.inl:222-248: st counted in place, then summed in place.  kmax is
    not set and there are no values. *)
Definition csr_zo_init (m : nat) (ts : list trip) : option csr :=
  match max_row m (count_rows ts) with
  | None => None
  | Some maxrow =>
    let st := fold_left (fun st t => upd st (S (ro t)) (S (st (S (ro t))))) ts (fun _ => 0%nat) in
    let st := fold_left (fun st i => upd st i (st i + st (i - 1))%nat) (seq 1 m) st in
    Some (Csr m 0 maxrow true (fun i => co (nth i ts t0)) st (fun _ => 0))
  end.

(** coo_utils.inl:43-66 *)
Record coo := Coo { oo_ts : list trip; oo_kmax : nat; oo_delayed : bool; oo_m : nat }.
Definition coo_init (half : bool) (F : fld) (prec : Z) (m : nat) (ts : list trip) : option coo :=
  let kmax := dotbound half F prec in
  match max_row m (count_rows ts) with
  | None => None
  | Some maxrow => Some (Coo ts kmax (maxrow <? kmax)%nat m)
  end.

(** ell_utils.inl:42-78 (and 80-111 for ELL_ZO, which has no dat).  With
    nnz = 0 the code reads row[0]: [None]. *)
Record ell := Ell { em : nat; eld : nat; ekmax : nat; edelayed : bool;
                    ecol : nat -> nat; edat : nat -> Z }.
(** l.68-77 *)
Fixpoint ell_fill (ld : nat) (ts : list trip) (currow it : nat)
    (col : nat -> nat) (dat : nat -> Z) : (nat -> nat) * (nat -> Z) :=
  match ts with
  | [] => (col, dat)
  | t :: ts =>
    let it := if (ro t =? currow)%nat then it else 0%nat in
    ell_fill ld ts (ro t) (S it) (upd col (ro t * ld + it)%nat (co t))
             (upd dat (ro t * ld + it)%nat (va t))
  end.
Definition ell_init (half : bool) (F : fld) (prec : Z) (m : nat) (ts : list trip) : option ell :=
  let kmax := dotbound half F prec in
  match max_row m (count_rows ts), ts with
  | Some maxrow, t :: _ =>
    let '(col, dat) := ell_fill maxrow ts (ro t) 0 (fun _ => 0%nat) (fun _ => 0) in
    Some (Ell m maxrow kmax (maxrow <? kmax)%nat col dat)
  | _, _ => None
  end.

(** F.isOne, F.isMOne on reduced elements *)
Definition is_one (F : fld) (a : Z) : bool := a =? canon F 1.
Definition is_mone (F : fld) (a : Z) : bool := a =? canon F (-1).

(** hyb_zo_utils.inl:43-124: [Some None] is a null pointer. *)
Record hyb := Hyb { hone : option csr; hmone : option csr; hdat : option csr; hm : nat }.
Definition hyb_init (half : bool) (F : fld) (prec : Z) (m : nat) (ts : list trip) : option hyb :=
  let ones := filter (fun t => is_one F (va t)) ts in
  let mones := filter (fun t => negb (is_one F (va t)) && is_mone F (va t)) ts in
  let others := filter (fun t => negb (is_one F (va t)) && negb (is_mone F (va t))) ts in
  let part (l : list trip) (i : option csr) : option (option csr) :=
    match l with [] => Some None | _ => match i with None => None | Some a => Some (Some a) end end in
  match part ones (csr_zo_init m ones), part mones (csr_zo_init m mones),
        part others (csr_init half F prec m others) with
  | Some a, Some b, Some c => Some (Hyb a b c m)
  | _, _, _ => None
  end.

(** ** Loops of the kernels *)

(** for (; j < j + n; ++j) y = f(j, y) *)
Fixpoint from {Y} (n j : nat) (f : nat -> Y -> Y) (y : Y) : Y :=
  match n with O => y | S n => from n (S j) f (f j y) end.

(** for (; j < 4 n; j += 4): four accumulators *)
Fixpoint quad (n j : nat) (f : nat -> Z -> Z) (y1 y2 y3 y4 : Z) : Z * Z * Z * Z :=
  match n with
  | O => (y1, y2, y3, y4)
  | S n => quad n (j + 4) f (f j y1) (f (j + 1)%nat y2) (f (j + 2)%nat y3) (f (j + 3)%nat y4)
  end.

(** csr_spmv.inl:43-62: [diff] terms from [start], accumulated four by four. *)
Definition row4 (diff start : nat) (f : nat -> Z -> Z) (fin : Z -> Z -> Z -> Z -> Z) : Z :=
  let q := (diff / 4)%nat in
  let '(y1, y2, y3, y4) := quad q start f 0 0 0 0 in
  fin (from (diff - q * 4) (start + q * 4) f y1) y2 y3 y4.

(** csr_spmv.inl:201-217, ell_spmv.inl:98-111: blocks of kmax terms. *)
Fixpoint blocks {Y} (n j kmax : nat) (f : nat -> Y -> Y) (red : Y -> Y) (y : Y) : Y :=
  match n with
  | O => y
  | S n => blocks n (j + kmax) kmax f red (red (from kmax j f y))
  end.
Definition row_kmax {Y} (diff start kmax : nat) (f : nat -> Y -> Y) (red : Y -> Y) (y : Y) : Y :=
  let b := (diff / kmax)%nat in
  red (from (diff - b * kmax) (start + b * kmax) f (blocks b start kmax f red y)).

Section Kernels.
Variables (F : fld) (prec : Z) (fma : bool).

(** y += d * x on float or double: two roundings, or one if contracted *)
Definition madd (y d x : Z) : Z :=
  if fma then rnd prec (y + d * x) else rnd prec (y + rnd prec (d * x)).
(** y += x, y -= x *)
Definition mplus (y x : Z) : Z := rnd prec (y + x).
Definition msub (y x : Z) : Z := rnd prec (y - x).
(** F.axpyin, F.addin, F.subin, on elements of arbitrary size (GenericTag) *)
Definition axpyin (y d x : Z) : Z := canon F (y + d * x).
Definition addin (y x : Z) : Z := canon F (y + x).
Definition subin (y x : Z) : Z := canon F (y - x).

(** For every row i < m: y[i] = g i y[i]. *)
Definition rows_do (m : nat) (g : nat -> Z -> Z) (y : nat -> Z) : nat -> Z :=
  from m 0 (fun i y => upd y i (g i (y i))) y.

(** freduce(F, m, y, 1) *)
Definition freduce_vec (m : nat) (y : nat -> Z) : nat -> Z := rows_do m (fun _ => canon F) y.

(** *** CSR *)
Section Csr.
Variables (A : csr) (x : nat -> Z).
Definition rlen (i : nat) : nat := (cst A (S i) - cst A i)%nat.
Definition cx (j : nat) : Z := x (ccol A j).

(** csr_spmv.inl:33-64 *)
Definition csr_generic : (nat -> Z) -> nat -> Z :=
  rows_do (cm A) (fun i y =>
    row4 (rlen i) (cst A i) (fun j acc => axpyin acc (cdat A j) (cx j))
         (fun y1 y2 y3 y4 => addin (addin (addin (addin y y1) y2) y3) y4)).

(** csr_spmv.inl:101-127 *)
Definition csr_unparam : (nat -> Z) -> nat -> Z :=
  rows_do (cm A) (fun i y =>
    row4 (rlen i) (cst A i) (fun j acc => madd acc (cdat A j) (cx j))
         (fun y1 y2 y3 y4 => mplus y (mplus (mplus (mplus y1 y2) y3) y4))).

(** csr_spmv.inl:192-218 *)
Definition csr_kmax (kmax : nat) : (nat -> Z) -> nat -> Z :=
  rows_do (cm A) (fun i y =>
    row_kmax (rlen i) (cst A i) kmax (fun j acc => madd acc (cdat A j) (cx j)) (canon F) y).

(** fflas_sparse.inl:122-130 (ModularTag, not ZO) *)
Definition csr_modular (y : nat -> Z) : nat -> Z :=
  if cdelayed A then freduce_vec (cm A) (csr_unparam y) else csr_kmax (ckmax A) y.

(** csr_spmv.inl:220-244 and 246-270 *)
Definition csr_one_generic : (nat -> Z) -> nat -> Z :=
  rows_do (cm A) (fun i y =>
    row4 (rlen i) (cst A i) (fun j acc => addin acc (cx j))
         (fun y1 y2 y3 y4 => addin y (y1 + y2 + y3 + y4))).
Definition csr_mone_generic : (nat -> Z) -> nat -> Z :=
  rows_do (cm A) (fun i y =>
    row4 (rlen i) (cst A i) (fun j acc => addin acc (cx j))
         (fun y1 y2 y3 y4 => subin y (y1 + y2 + y3 + y4))).

(** csr_spmv.inl:272-296 and 298-322 *)
Definition csr_one_unparam : (nat -> Z) -> nat -> Z :=
  rows_do (cm A) (fun i y =>
    row4 (rlen i) (cst A i) (fun j acc => mplus acc (cx j))
         (fun y1 y2 y3 y4 => mplus y (mplus (mplus (mplus y1 y2) y3) y4))).
Definition csr_mone_unparam : (nat -> Z) -> nat -> Z :=
  rows_do (cm A) (fun i y =>
    row4 (rlen i) (cst A i) (fun j acc => mplus acc (cx j))
         (fun y1 y2 y3 y4 => msub y (mplus (mplus (mplus y1 y2) y3) y4))).
End Csr.

(** fflas_sparse.inl:156-170: ZO matrix with constant [k], GenericTag; the
    scaled copy x1 of x is computed and not used. *)
Definition csr_zo_generic (k : Z) (A : csr) (x y : nat -> Z) : nat -> Z :=
  if k =? 1 then csr_one_generic A x y
  else if k =? -1 then csr_mone_generic A x y
  else csr_one_generic A x y.

(** fflas_sparse.inl:172-186, UnparametricTag, and 219-225, ModularTag *)
Definition csr_zo_unparam (k : Z) (A : csr) (x y : nat -> Z) : nat -> Z :=
  if k =? 1 then csr_one_unparam A x y
  else if k =? -1 then csr_mone_unparam A x y
  else csr_one_unparam A x y.
Definition csr_zo_modular (k : Z) (A : csr) (x y : nat -> Z) : nat -> Z :=
  freduce_vec (cm A) (csr_zo_unparam k A x y).

(** *** COO *)
Section Coo.
Variables (A : coo) (x : nat -> Z).

(** coo_spmv.inl:32-50 *)
Definition coo_generic (y : nat -> Z) : nat -> Z :=
  fold_left (fun y t => upd y (ro t) (axpyin (y (ro t)) (va t) (x (co t)))) (oo_ts A) y.

(** coo_spmv.inl:52-70 *)
Definition coo_unparam (y : nat -> Z) : nat -> Z :=
  fold_left (fun y t => upd y (ro t) (madd (y (ro t)) (va t) (x (co t)))) (oo_ts A) y.

(** coo_spmv.inl:110-147; F.axpyin(e,d,x) on float and double: e + d*x,
    rounded, then reduced.  F.assign does not reduce. *)
Fixpoint coo_kmax_loop (kmax : nat) (ts : list trip) (larow : nat) (e : Z) (accu : nat)
    (y : nat -> Z) : nat -> Z :=
  match ts with
  | [] => upd y larow e
  | t :: ts =>
    if (ro t =? larow)%nat then
      if (accu <? kmax)%nat
      then coo_kmax_loop kmax ts larow (madd e (va t) (x (co t))) (S accu) y
      else coo_kmax_loop kmax ts larow (canon F (madd e (va t) (x (co t)))) 0 y
    else
      let y := upd y larow e in
      coo_kmax_loop kmax ts (ro t) (madd (y (ro t)) (va t) (x (co t))) 1 y
  end.
Definition coo_kmax (kmax : nat) (y : nat -> Z) : nat -> Z :=
  coo_kmax_loop kmax (oo_ts A) 0 (y 0%nat) 0 y.

(** fflas_sparse.inl:122-130 *)
Definition coo_modular (y : nat -> Z) : nat -> Z :=
  if oo_delayed A then freduce_vec (oo_m A) (coo_unparam y) else coo_kmax (oo_kmax A) y.
End Coo.

(** *** ELL *)
Section Ell.
Variables (A : ell) (x : nat -> Z).
Definition ex (j : nat) : Z := x (ecol A j).

(** ell_spmv.inl:32-62 *)
Definition ell_generic : (nat -> Z) -> nat -> Z :=
  rows_do (em A) (fun i y =>
    row4 (eld A) (i * eld A) (fun j acc => axpyin acc (edat A j) (ex j))
         (fun y1 y2 y3 y4 => addin (addin (addin (addin y y1) y2) y3) y4)).

(** ell_spmv.inl:64-87 *)
Definition ell_unparam : (nat -> Z) -> nat -> Z :=
  rows_do (em A) (fun i y =>
    row4 (eld A) (i * eld A) (fun j acc => madd acc (edat A j) (ex j))
         (fun y1 y2 y3 y4 => mplus y (mplus (mplus (mplus y1 y2) y3) y4))).

(** ell_spmv.inl:89-113 *)
Definition ell_kmax (kmax : nat) : (nat -> Z) -> nat -> Z :=
  rows_do (em A) (fun i y =>
    row_kmax (eld A) (i * eld A) kmax (fun j acc => madd acc (edat A j) (ex j)) (canon F) y).

Definition ell_modular (y : nat -> Z) : nat -> Z :=
  if edelayed A then freduce_vec (em A) (ell_unparam y) else ell_kmax (ekmax A) y.

(** ELL_ZO: ell_spmv.inl:144-174; the padding entries have column 0. *)
Definition ell_one_generic : (nat -> Z) -> nat -> Z :=
  rows_do (em A) (fun i y =>
    row4 (eld A) (i * eld A) (fun j acc => addin acc (ex j))
         (fun y1 y2 y3 y4 => addin (addin (addin (addin y y1) y2) y3) y4)).
End Ell.

(** *** HYB_ZO: hyb_zo_spmv.inl:33-53 *)
Section Hyb.
Variables (A : hyb) (x : nat -> Z).
Definition opt (f : csr -> (nat -> Z) -> nat -> Z) (a : option csr) (y : nat -> Z) : nat -> Z :=
  match a with None => y | Some a => f a y end.
Definition hyb_generic (y : nat -> Z) : nat -> Z :=
  let y := opt (fun a => csr_one_generic a x) (hone A) y in
  let y := opt (fun a => csr_mone_generic a x) (hmone A) y in
  opt (fun a => csr_generic a x) (hdat A) y.
Definition hyb_unparam (y : nat -> Z) : nat -> Z :=
  let y := opt (fun a => csr_one_unparam a x) (hone A) y in
  let y := opt (fun a => csr_mone_unparam a x) (hmone A) y in
  opt (fun a => csr_unparam a x) (hdat A) y.

(** fflas_sparse.inl:122-127 with A.delayed = true (hyb_zo_utils.inl:50) *)
Definition hyb_modular (y : nat -> Z) : nat -> Z := freduce_vec (hm A) (hyb_unparam y).
End Hyb.

(** ** fspmv: fflas_sparse.inl:36-47 and 840-846 *)
Definition init_y (m : nat) (beta : Z) (y : nat -> Z) : nat -> Z :=
  if is_one F beta then y
  else if beta =? 0 then rows_do m (fun _ _ => 0) y
  else if is_mone F beta then rows_do m (fun _ v => canon F (- v)) y
  else rows_do m (fun _ v => canon F (beta * v)) y.
End Kernels.

(** Formats by name, for the statements on fspmv as a whole. *)
Inductive fmt := fCSR | fCOO | fELL | fHYB.
Inductive tag := Generic | Modular_.

(** sparse_init followed by fspmv; [None] when the construction is undefined. *)
Definition fspmv (f : fmt) (g : tag) (half : bool) (F : fld) (prec : Z) (fma : bool)
    (m : nat) (ts : list trip) (x : nat -> Z) (beta : Z) (y : nat -> Z) : option (nat -> Z) :=
  let y := init_y F m beta y in
  match f with
  | fCSR => match csr_init half F prec m ts with
            | None => None
            | Some A => Some (match g with Generic => csr_generic F A x y
                                         | Modular_ => csr_modular F prec fma A x y end) end
  | fCOO => match coo_init half F prec m ts with
            | None => None
            | Some A => Some (match g with Generic => coo_generic F A x y
                                         | Modular_ => coo_modular F prec fma A x y end) end
  | fELL => match ell_init half F prec m ts with
            | None => None
            | Some A => Some (match g with Generic => ell_generic F A x y
                                         | Modular_ => ell_modular F prec fma A x y end) end
  | fHYB => match hyb_init half F prec m ts with
            | None => None
            | Some A => Some (match g with Generic => hyb_generic F A x y
                                         | Modular_ => hyb_modular F prec fma A x y end) end
  end.

(** The same for CSR_ZO with the constant [k]. *)
Definition fspmv_zo (g : tag) (F : fld) (prec : Z) (k : Z)
    (m : nat) (ts : list trip) (x : nat -> Z) (beta : Z) (y : nat -> Z) : option (nat -> Z) :=
  let y := init_y F m beta y in
  match csr_zo_init m ts with
  | None => None
  | Some A => Some (match g with Generic => csr_zo_generic F k A x y
                               | Modular_ => csr_zo_modular F prec k A x y end)
  end.
