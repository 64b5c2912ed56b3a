(** * Routines built on PLUQ: ffpack/ffpack.inl, ffpack_fgetrs.inl,
    ffpack_fgesv.inl, ffpack_rankprofiles.inl

    Level of the mathematical field; the sequential variants.  Freshly
    allocated memory has arbitrary contents, passed as [junk].  Vectors with
    an increment live in a flat memory [nat -> F]: element i is cell i*inc.
    Increments are positive (the code takes them as int or size_t). *)
From mathcomp Require Import all_ssreflect all_algebra.
From Verif Require Import Grid Perm_model Tri_model Pluq_model.
Set Implicit Arguments.
Unset Strict Implicit.
Unset Printing Implicit Defensive.
Import GRing.Theory.
Local Open Scope ring_scope.

Section Api.
Variable F : fieldType.
Implicit Types A B X NS : grid F.
(** Block width of applyP (FFLASFFPACK_PERM_BKSIZE) and base case threshold of
    PLUQ (__FFLASFFPACK_PLUQ_THRESHOLD). *)
Variables (bk thr : nat).

(** fflas/fflas_level2.inl:165-173. *)
Definition fiszero (m n : nat) A : bool := all (fun i => all (fun j => A i j == 0) (iota 0 n)) (iota 0 m).

(** fflas/fflas_level2.inl:188-196 (fzero then ones on the diagonal). *)
Definition fidentity (m n : nat) A : grid F :=
  memo m n (iteri (minn m n) (fun i Z => upd Z i i 1) (fzero m n A)).

(** A routine working on the vector at stride [inc]: it sees element i in
    cell i*inc and leaves the cells between untouched. *)
Definition lift (inc : nat) (f : (nat -> F) -> nat -> F) (mem : nat -> F) : nat -> F :=
  let v := f (fun i => mem (i * inc)%N) in
  fun c => if (inc %| c)%N then v (c %/ inc)%N else mem c.

(** A vector as a matrix with one column (row); the code passes the increment
    as leading dimension, or leading dimension 1 for a contiguous vector. *)
Definition as_col (f : grid F -> grid F) (v : nat -> F) : nat -> F := fun i => f (fun i j => if j == 0%N then v i else 0) i 0%N.
Definition as_row (f : grid F -> grid F) (v : nat -> F) : nat -> F := fun j => f (fun i j => if i == 0%N then v j else 0) 0%N j.

(** ffpack.inl:58-71. *)
Definition Rank (M N : nat) A : nat :=
  if (M == 0%N) && (N == 0%N) then 0%N else resR (PLUQ bk NonUnit thr M N A).

(** ffpack.inl:118-157.  The arrays P and Q are the caller's or allocated. *)
Definition Det (N : nat) A : F :=
  if N == 0%N then 1 else
  let: Pluq X P Q R := PLUQ bk NonUnit thr N N A in
  if (R < N)%N then 0 else
  let det := iteri N (fun i d => d * X i i) 1 in
  let cnt := iteri N (fun i c => let c := if P i != i then c.+1 else c in
                                 if Q i != i then c.+1 else c) 0%N in
  if odd cnt then - det else det.

(** ffpack.inl:169-198.  x is returned unchanged when A is singular; b and x
    do not overlap. *)
Definition Solve (M : nat) A (incx : nat) (x : nat -> F) (incb : nat) (b : nat -> F) : nat -> F :=
  let: Pluq X rowP P R := PLUQ bk NonUnit thr M M A in
  if (R < M)%N then x else
  let x := lift incx (fun v i => if (i < M)%N then b (i * incb)%N else v i) x in
  let x := lift incx (as_col (applyP bk SLeft NoTrans 1 0 M rowP)) x in
  let x := lift incx (ftrsv Lower NoTrans Unit M X) x in
  let x := lift incx (ftrsv Upper NoTrans NonUnit M X) x in
  lift incx (as_col (applyP bk SLeft Trans 1 0 M P)) x.

(** fgemv(F, NoTrans, M, N, alpha, A, X, incX, beta, Y, incY), by its result
    (its delayed form is in Delayed_model). *)
Definition fgemv (t : transp) (M N : nat) (alpha : F) A (x : nat -> F) (beta : F) (y : nat -> F) : nat -> F :=
  let: (m, n) := if t is Trans then (N, M) else (M, N) in
  fun i => if (i < m)%N then alpha * rsum n (fun k => optr t A i k * x k) + beta * y i else y i.

(** ffpack.inl:215-291.  [g i] is the value drawn for element i.  The last
    applyP is given leading dimension 1, whatever incX (lines 254, 289). *)
Definition RandomNullSpaceVector (s : side) (M N : nat) A (g : nat -> F) (incX : nat) (x : nat -> F) : nat -> F :=
  let: Pluq X P Q R := PLUQ bk NonUnit thr M N A in
  match s with
  | SRight =>
    if N == R then lift incX (fun v i => if (i < N)%N then 0 else v i) x else
    let x := lift incX (fun v i => if (R <= i < N)%N then g i else v i) x in
    if R == 0%N then x else
    let x := lift incX (fun v => fgemv NoTrans R (N - R) (-1) (sub 0 R X) (fun k => v (R + k)%N) 0 v) x in
    let x := lift incX (ftrsv Upper NoTrans NonUnit R X) x in
    lift 1 (as_col (applyP bk SLeft Trans 1 0 N Q)) x
  | SLeft =>
    if M == R then lift incX (fun v i => if (i < M)%N then 0 else v i) x else
    let x := lift incX (fun v i => if (R <= i < M)%N then g i else v i) x in
    if R == 0%N then x else
    let x := lift incX (fun v => fgemv Trans (M - R) R (-1) (sub R 0 X) (fun k => v (R + k)%N) 0 v) x in
    let x := lift incX (ftrsv Lower Trans Unit R X) x in
    lift 1 (as_row (applyP bk SRight NoTrans 1 0 M P)) x
  end.

(** ffpack.inl:293-369: the basis (None for a null pointer), and its
    dimension NSdim; the leading dimension ldn is NSdim (right), M (left). *)
Definition NullSpaceBasis (s : side) (M N : nat) A (junk : grid F) : option (grid F) * nat :=
  let: Pluq X P Q R := PLUQ bk NonUnit thr M N A in
  match s with
  | SRight =>
    let dim := (N - R)%N in
    if dim == 0%N then (None, dim) else
    if R == 0%N then (Some (fidentity N dim junk), dim) else
    let NS := fassign R dim (sub 0 R X) junk in
    let NS := ftrsm SLeft Upper NoTrans NonUnit R dim (-1) X NS in
    let NS := at_ R 0 (fidentity dim dim) NS in
    (Some (applyP bk SLeft Trans dim 0 N Q NS), dim)
  | SLeft =>
    let dim := (M - R)%N in
    if dim == 0%N then (None, dim) else
    if R == 0%N then (Some (fidentity dim M junk), dim) else
    let NS := fassign dim R (sub R 0 X) junk in
    let NS := ftrsm SRight Lower NoTrans Unit dim R (-1) X NS in
    let NS := at_ 0 R (fidentity dim dim) NS in
    (Some (applyP bk SRight NoTrans dim 0 M P NS), dim)
  end.

(** ffpack_fgetrs.inl:36-82: in place, square A (M x M on the left, N x N on
    the right).  Returns B and info. *)
Definition fgetrs_inplace (s : side) (M N R : nat) X (P Q : nat -> nat) B : grid F * bool :=
  match s with
  | SLeft =>
    let B := applyP bk SLeft NoTrans N 0 M P B in
    let B := ftrsm SLeft Lower NoTrans Unit R N 1 X B in
    let B := at_ R 0 (fgemm NoTrans NoTrans (M - R) N R (-1) (sub R 0 X) B 1) B in
    let info := ~~ fiszero (M - R) N (sub R 0 B) in
    let B := ftrsm SLeft Upper NoTrans NonUnit R N 1 X B in
    (applyP bk SLeft Trans N 0 M Q B, info)
  | SRight =>
    let B := applyP bk SRight Trans M 0 N Q B in
    let B := ftrsm SRight Upper NoTrans NonUnit M R 1 X B in
    let B := at_ 0 R (fgemm NoTrans NoTrans M (N - R) R (-1) B (sub 0 R X) 1) B in
    let info := ~~ fiszero M (N - R) (sub 0 R B) in
    let B := ftrsm SRight Lower NoTrans Unit M R 1 X B in
    (applyP bk SRight NoTrans M 0 N P B, info)
  end.

(** ffpack_fgetrs.inl:84-208: B is kept, the solution goes to Z; [junk] is the
    allocated work space W. *)
Definition fgetrs (s : side) (M N nrhs R : nat) X (P Q : nat -> nat) (Z B junk : grid F) : grid F * bool :=
  match s with
  | SLeft =>
    if (N < M)%N then
      let W := fassign M nrhs B junk in
      let W := applyP bk SLeft NoTrans nrhs 0 M P W in
      let W := ftrsm SLeft Lower NoTrans Unit R nrhs 1 X W in
      let W := at_ R 0 (fgemm NoTrans NoTrans (M - R) nrhs R (-1) (sub R 0 X) W 1) W in
      let info := ~~ fiszero (M - R) nrhs (sub R 0 W) in
      let W := ftrsm SLeft Upper NoTrans NonUnit R nrhs 1 X W in
      let Z := fassign R nrhs W Z in
      let Z := at_ R 0 (fzero (N - R) nrhs) Z in
      (applyP bk SLeft Trans nrhs 0 N Q Z, info)
    else
      let Z := fassign M nrhs B Z in
      let Z := applyP bk SLeft NoTrans nrhs 0 M P Z in
      let Z := ftrsm SLeft Lower NoTrans Unit R nrhs 1 X Z in
      let Z := at_ R 0 (fgemm NoTrans NoTrans (M - R) nrhs R (-1) (sub R 0 X) Z 1) Z in
      let info := ~~ fiszero (M - R) nrhs (sub R 0 Z) in
      let Z := ftrsm SLeft Upper NoTrans NonUnit R nrhs 1 X Z in
      let Z := at_ M 0 (fzero (N - M) nrhs) Z in
      (applyP bk SLeft Trans nrhs 0 N Q Z, info)
  | SRight =>
    if (M < N)%N then
      let W := fassign nrhs N B junk in
      let W := applyP bk SRight Trans nrhs 0 N Q W in
      let W := ftrsm SRight Upper NoTrans NonUnit nrhs R 1 X W in
      let W := at_ 0 R (fgemm NoTrans NoTrans nrhs (N - R) R (-1) W (sub 0 R X) 1) W in
      let info := ~~ fiszero nrhs (N - R) (sub 0 R W) in
      let W := ftrsm SRight Lower NoTrans Unit nrhs R 1 X W in
      let Z := fassign nrhs R W Z in
      let Z := at_ 0 R (fzero nrhs (M - R)) Z in
      (applyP bk SRight NoTrans nrhs 0 M P Z, info)
    else
      let Z := fassign nrhs N B Z in
      let Z := applyP bk SRight Trans nrhs 0 N Q Z in
      let Z := ftrsm SRight Upper NoTrans NonUnit nrhs R 1 X Z in
      let Z := at_ 0 R (fgemm NoTrans NoTrans nrhs (N - R) R (-1) Z (sub 0 R X) 1) Z in
      let info := ~~ fiszero nrhs (N - R) (sub 0 R Z) in
      let Z := ftrsm SRight Lower NoTrans Unit nrhs R 1 X Z in
      let Z := at_ 0 N (fzero nrhs (M - N)) Z in
      (applyP bk SRight NoTrans nrhs 0 M P Z, info)
  end.

(** ffpack_fgesv.inl:37-61 and 63-84: factor then solve; also return the
    rank. *)
Definition fgesv_inplace (s : side) (M N : nat) A B : grid F * bool * nat :=
  let Na := if s is SLeft then M else N in
  let: Pluq X P Q R := PLUQ bk NonUnit thr Na Na A in
  (fgetrs_inplace s M N R X P Q B, R).
Definition fgesv (s : side) (M N nrhs : nat) A (Z B junk : grid F) : grid F * bool * nat :=
  let: Pluq X P Q R := PLUQ bk NonUnit thr M N A in
  (fgetrs s M N nrhs R X P Q Z B junk, R).

(** ffpack_rankprofiles.inl:122-140, tags other than FfpackSlabRecursive: apply
    the exchanges to 0..N-1, keep the first R, sort.  [std::sort] by its
    result. *)
Definition RankProfileFromLU (Q : nat -> nat) (N R : nat) : seq nat :=
  let RP := iteri N (fun i RP => if Q i != i then memo1 N (swap1 RP i (Q i)) else RP) (fun i => i) in
  sort leq [seq RP i | i <- iota 0 R].

(** ffpack_rankprofiles.inl:53-76 and 99-119 with a Tile tag. *)
Definition RowRankProfile_tile (M N : nat) A : seq nat * nat :=
  let: Pluq X P Q R := PLUQ bk NonUnit thr M N A in (RankProfileFromLU P M R, R).
Definition ColumnRankProfile_tile (M N : nat) A : seq nat * nat :=
  let: Pluq X P Q R := PLUQ bk NonUnit thr M N A in (RankProfileFromLU Q N R, R).

(** ffpack_rankprofiles.inl:142-167: RRP, CRP and the rank of the leading
    LSm x LSn sub-matrix. *)
Definition LeadingSubmatrixRankProfiles (M N R LSm LSn : nat) (P Q : nat -> nat) : seq nat * seq nat * nat :=
  let MP := lapack2math id P M in
  let MQ := lapack2math id Q N in
  let sel := [seq i <- iota 0 R | (MP i < LSm)%N && (MQ i < LSn)%N] in
  (sort leq [seq MP i | i <- sel], sort leq [seq MQ i | i <- sel], size sel).

End Api.
