(** * Model of fspmm on a flat memory and of the SELL format

    fflas/fflas_sparse.inl, fflas/fflas_sparse/csr/csr_spmm.inl,
    fflas/fflas_sparse/sell. *)
From Coq Require Import ZArith List Bool.
From Verif Require Import Delayed_model Sparse_model.
Import ListNotations.
Open Scope Z_scope.

(** ** Rows of a matrix in memory *)

(** for (k = 0; k < b; ++k) y[base + k] = g(k, y[base + k]); the loops
    unrolled by 4 and the SIMD loops do the same writes. *)
Definition win (b base : nat) (g : nat -> Z -> Z) (y : nat -> Z) : nat -> Z :=
  from b 0 (fun k y => upd y (base + k)%nat (g k (y (base + k)%nat))) y.

(** fnegin, fflas_level2.inl:300-307 *)
Definition rows_win (m n ld : nat) (g : Z -> Z) (y : nat -> Z) : nat -> Z :=
  from m 0 (fun i y => win n (i * ld) (fun _ => g) y) y.
(** fzero, fflas_level2.inl:68-81; fscalin, fflas_fscal.inl:421-441;
    freduce, fflas_freduce.inl *)
Definition mat_map (m n ld : nat) (g : Z -> Z) (y : nat -> Z) : nat -> Z :=
  if (n =? ld)%nat then win (m * n) 0 (fun _ => g) y else rows_win m n ld g y.

Section Spmm.
Variables (F : fld) (prec : Z) (fma : bool).

(** fflas_sparse.inl:49-61: the last two calls pass 1 for ldy. *)
Definition init_y2 (m n : nat) (beta : Z) (y : nat -> Z) (ldy : nat) : nat -> Z :=
  if is_one F beta then y
  else if beta =? 0 then mat_map m n ldy (fun _ => 0) y
  else if is_mone F beta then rows_win m n 1 (fun v => canon F (- v)) y
  else mat_map m n 1 (fun v => canon F (beta * v)) y.

Variables (A : csr) (b : nat) (x : nat -> Z) (ldx ldy : nat).
Definition xx (j k : nat) : Z := x (ccol A j * ldx + k)%nat.

(** csr_spmm.inl:33-56 *)
Definition spmm_generic : (nat -> Z) -> nat -> Z :=
  from (cm A) 0 (fun i => from (rlen A i) (cst A i) (fun j =>
    win b (i * ldy) (fun k v => axpyin F v (cdat A j) (xx j k)))).

(** csr_spmm.inl:58-83 and the SIMD variants 126-205 *)
Definition spmm_unparam : (nat -> Z) -> nat -> Z :=
  from (cm A) 0 (fun i => from (rlen A i) (cst A i) (fun j =>
    win b (i * ldy) (fun k v => madd prec fma v (cdat A j) (xx j k)))).

(** csr_spmm.inl:207-245 and the SIMD variants 250-409 *)
Definition spmm_kmax (kmax : nat) : (nat -> Z) -> nat -> Z :=
  from (cm A) 0 (fun i => row_kmax (rlen A i) (cst A i) kmax (fun j =>
    win b (i * ldy) (fun k v => madd prec fma v (cdat A j) (xx j k)))
    (win b (i * ldy) (fun _ => canon F))).

(** fflas_sparse.inl:278-306 *)
Definition spmm_modular (y : nat -> Z) : nat -> Z :=
  if cdelayed A then mat_map (cm A) b ldy (canon F) (spmm_unparam y)
  else spmm_kmax (ckmax A) y.

(** csr_spmm.inl:413-435, 437-459 (GenericTag), 463-600 (UnparametricTag) *)
Definition spmm_one_generic : (nat -> Z) -> nat -> Z :=
  from (cm A) 0 (fun i => from (rlen A i) (cst A i) (fun j =>
    win b (i * ldy) (fun k v => addin F v (xx j k)))).
Definition spmm_mone_generic : (nat -> Z) -> nat -> Z :=
  from (cm A) 0 (fun i => from (rlen A i) (cst A i) (fun j =>
    win b (i * ldy) (fun k v => subin F v (xx j k)))).
Definition spmm_one_unparam : (nat -> Z) -> nat -> Z :=
  from (cm A) 0 (fun i => from (rlen A i) (cst A i) (fun j =>
    win b (i * ldy) (fun k v => mplus prec v (xx j k)))).
Definition spmm_mone_unparam : (nat -> Z) -> nat -> Z :=
  from (cm A) 0 (fun i => from (rlen A i) (cst A i) (fun j =>
    win b (i * ldy) (fun k v => msub prec v (xx j k)))).

(** fflas_sparse.inl:309-323: x1 is computed and not used (its own buffer
    overflow, A.m rows instead of A.n, is not modelled). *)
Definition spmm_zo_generic (c : Z) (y : nat -> Z) : nat -> Z :=
  if c =? 1 then spmm_one_generic y
  else if c =? -1 then spmm_mone_generic y else spmm_one_generic y.
(** fflas_sparse.inl:325-358 and 376-383: the dimensions of freduce are
    swapped. *)
Definition spmm_zo_modular (c : Z) (y : nat -> Z) : nat -> Z :=
  mat_map b (cm A) ldy (canon F)
    (if c =? 1 then spmm_one_unparam y
     else if c =? -1 then spmm_mone_unparam y else spmm_one_unparam y).
End Spmm.

(** fspmm, fflas_sparse.inl:848-854, on a CSR matrix *)
Definition fspmm (g : tag) (half : bool) (F : fld) (prec : Z) (fma : bool) (m : nat)
    (ts : list trip) (b : nat) (x : nat -> Z) (ldx : nat) (beta : Z) (y : nat -> Z) (ldy : nat)
    : option (nat -> Z) :=
  match csr_init half F prec m ts with
  | None => None
  | Some A =>
    let y := init_y2 F m b beta y ldy in
    Some (match g with Generic => spmm_generic F A b x ldx ldy y
                     | Modular_ => spmm_modular F prec fma A b x ldx ldy y end)
  end.
(** the same on a CSR_ZO matrix with the constant [c] *)
Definition fspmm_zo (g : tag) (F : fld) (prec : Z) (c : Z) (m : nat)
    (ts : list trip) (b : nat) (x : nat -> Z) (ldx : nat) (beta : Z) (y : nat -> Z) (ldy : nat)
    : option (nat -> Z) :=
  match csr_zo_init m ts with
  | None => None
  | Some A =>
    let y := init_y2 F m b beta y ldy in
    Some (match g with Generic => spmm_zo_generic F A b x ldx ldy c y
                     | Modular_ => spmm_zo_modular F prec A b x ldx ldy c y end)
  end.

(** ** ELL_ZO: ell_utils.inl:80-111 and fspmv_one, ell_spmv.inl:144-174 *)
Definition fspmv_ell_one (half : bool) (F : fld) (prec : Z) (m : nat) (ts : list trip)
    (x : nat -> Z) (y : nat -> Z) : option (nat -> Z) :=
  match ell_init half F prec m ts with
  | None => None
  | Some A => Some (ell_one_generic F A x y)
  end.

(** ** SELL *)

(** sell_utils.inl:54-66 *)
Record info := Info { isize : nat; iperm : nat; ibegin : nat }.
Definition info0 := Info 0 0 0.

Fixpoint set_nth {T} (l : list T) (i : nat) (f : T -> T) : list T :=
  match l, i with
  | [], _ => []
  | a :: l, O => f a :: l
  | a :: l, S i => a :: set_nth l i f
  end.
Definition set_begin (v : nat) (a : info) := Info (isize a) (iperm a) v.
Definition incr (a : info) := Info (S (isize a)) (iperm a) (ibegin a).
Definition set_perm (v : nat) (a : info) := Info (isize a) v (ibegin a).

(** l.130-136 *)
Fixpoint sell_scan (ts : list trip) (i cur : nat) (infos : list info) : list info :=
  match ts with
  | [] => infos
  | t :: ts =>
    let infos := if (ro t =? cur)%nat then infos else set_nth infos (ro t) (set_begin i) in
    sell_scan ts (S i) (ro t) (set_nth infos (ro t) incr)
  end.

(** l.139 and 160: the comparison given to std::max_element and std::sort; it
    is not a strict weak ordering. *)
Definition bysize (a b : info) : bool := (isize b <=? isize a)%nat.

(** std::sort on at most 16 elements in libstdc++ is this insertion sort: a
    new element goes before the ones it compares true with. *)
Fixpoint ins (a : info) (l : list info) : list info :=
  match l with
  | [] => [a]
  | b :: l' => if bysize a b then a :: b :: l' else b :: ins a l'
  end.
Definition isort (l : list info) : list info := fold_left (fun s a => ins a s) l [].

(** sort of the elements a .. b-1 *)
Definition sort_seg (srt : list info -> list info) (a b : nat) (l : list info) : list info :=
  firstn a l ++ srt (firstn (b - a) (skipn a l)) ++ skipn b l.

Record sell := Sell { sm : nat; schunk : nat; snchunks : nat; skmax : nat; smaxrow : nat;
                      sdelayed : bool; sperm : nat -> nat; scsize : nat -> nat; sst : nat -> nat;
                      scol : nat -> nat; sdat : nat -> Z; sinfos : list info }.

(** l.209-214 *)
Definition chunk_sizes (chunk : nat) (infos : list info) (i : nat) : nat :=
  fold_left (fun s j => let z := isize (nth (i * chunk + j) infos info0) in if (s <=? z)%nat then z else s)
    (seq 0 chunk) 0%nat.

(** l.236-258: chunk i, lane k, entry j *)
Definition sell_fill (chunk nch : nat) (ts : list trip) (infos : list info) (sz : nat -> nat)
    : (nat -> nat) * (nat -> Z) :=
  snd (fold_left (fun '(it, cd) i =>
    let cd := fold_left (fun cd k =>
        let a := nth (i * chunk + k) infos info0 in
        fold_left (fun '(col, dat) j =>
            let q := (it + k + j * chunk)%nat in
            let t := nth (ibegin a + j) ts t0 in
            (upd col q (co t), upd dat q (va t))) (seq 0 (isize a)) cd) (seq 0 chunk) cd in
    ((it + sz i * chunk)%nat, cd)) (seq 0 nch) (0%nat, ((fun _ => 0%nat), (fun _ => 0)))).

(** l.99-273; [None]: row[0] is read although nnz = 0, or *max_element of an
    empty range *)
Definition sell_init (srt : list info -> list info) (half : bool) (F : fld) (prec : Z)
    (chunk sigma m : nat) (ts : list trip) : option sell :=
  let sigma := if (sigma =? 0)%nat then m else sigma in
  let kmax := dotbound half F prec in
  let nch := (if m mod chunk =? 0 then m / chunk else m / chunk + 1)%nat in
  match ts with
  | [] => None
  | t :: _ =>
    let infos := repeat info0 (nch * chunk) in
    let infos := set_nth infos (ro t) (set_begin 0) in
    let infos := sell_scan ts 0 (ro t) infos in
    match max_element bysize infos with
    | None => None
    | Some a =>
      let maxrow := isize a in
      let infos := fold_left (fun l i => set_nth l i (set_perm i)) (seq 0 m) infos in
      let infos := fold_left (fun l i => sort_seg srt (i * sigma) (i * sigma + sigma) l)
                             (seq 0 (m / sigma)) infos in
      let it := (m / sigma * sigma)%nat in
      let infos := if (it =? m)%nat then infos else sort_seg srt it (nch * chunk) infos in
      let perm := fold_left (fun p i => upd p (iperm (nth i infos info0)) i) (seq 0 m) (fun _ => 0%nat) in
      let sz := chunk_sizes chunk infos in
      let '(col, dat) := sell_fill chunk nch ts infos sz in
      Some (Sell m chunk nch kmax maxrow (maxrow <? kmax)%nat perm sz
             (starts (fun i => sz i * chunk)%nat) col dat infos)
    end
  end.

Section SellKernels.
Variables (F : fld) (prec : Z) (fma : bool) (A : sell) (x : nat -> Z).
Let chunk := schunk A.
Definition sx (q : nat) : Z := x (scol A q).

(** sell_spmv.inl:34-53 *)
Definition sell_generic : (nat -> Z) -> nat -> Z :=
  from (snchunks A) 0 (fun i => from (scsize A i) 0 (fun j =>
    win chunk (i * chunk) (fun k v =>
      let q := (sst A i + j * chunk + k)%nat in axpyin F v (sdat A q) (sx q)))).

(** sell_spmv.inl:95-120, the build without SIMD: l.115 stops at size instead
    of the chunk length. *)
Definition sell_unparam : (nat -> Z) -> nat -> Z :=
  from (snchunks A) 0 (fun i => from (scsize A i) 0 (fun j =>
    win (Nat.max (chunk / 4 * 4) (scsize A i)) (i * chunk) (fun k v =>
      let q := (sst A i + j * chunk + k)%nat in madd prec fma v (sdat A q) (sx q)))).

(** sell_spmv.inl:57-91: two accumulators per lane, over even and odd j *)
Definition sell_simd : (nat -> Z) -> nat -> Z :=
  from (snchunks A) 0 (fun i =>
    win chunk (i * chunk) (fun k v =>
      let cell j := (sst A i + j * chunk + k)%nat in
      let step j acc := madd prec true acc (sdat A (cell j)) (sx (cell j)) in
      let half := (scsize A i / 2)%nat in
      let y1 := from half 0 (fun l => step (2 * l)%nat) 0 in
      let y2 := from half 0 (fun l => step (2 * l + 1)%nat) 0 in
      let y1 := if (scsize A i mod 2 =? 0)%nat then y1 else step (2 * half)%nat y1 in
      mplus prec v (mplus prec y1 y2))).

(** fflas_sparse.inl:122-127 with A.delayed *)
Definition sell_delayed (simd : bool) (y : nat -> Z) : nat -> Z :=
  freduce_vec F (sm A) (if simd then sell_simd y else sell_unparam y).
End SellKernels.
