(** * Echelon forms and matrix inverse: ffpack/ffpack_echelonforms.inl,
      ffpack/ffpack_invert.inl

    Level of the mathematical field, sequential variants.  Index arrays P and
    Q come with arbitrary contents. *)
From mathcomp Require Import all_ssreflect all_algebra.
From Verif Require Import Grid Perm_model Tri_model Pluq_model Api_model Ludiv_model.
Set Implicit Arguments.
Unset Strict Implicit.
Unset Printing Implicit Defensive.
Import GRing.Theory.
Local Open Scope ring_scope.

(** ffpack.h:57-63 FFPACK_LU_TAG, the tags used here. *)
Inductive lutag := Slab | Tile | GJSlab | GJTile.

Section Ech.
Variable F : fieldType.
Implicit Types A X T : grid F.
(** Block width of applyP, base case thresholds of PLUQ, ftrtri and
    GaussJordan (__FFLASFFPACK_GAUSSJORDAN_BASECASE = 256). *)
Variables (bk thr tthr bc : nat).

(** ffpack_echelonforms.inl:61-81; the result holds P and Qt in [resP] and
    [resQ].  PLUQ writes both arrays completely. *)
Definition ColumnEchelonForm (tag : lutag) (transform : bool) (M N : nat) A (P Q : nat -> nat) : pluq_res F :=
  let: Pluq X P Q r := if tag is Slab then LUdivine bk NonUnit NoTrans false M N A P Q
                       else let: Pluq X Q P r := PLUQ bk NonUnit thr M N A in Pluq X P Q r in
  if transform then
    let X := ftrtri r Upper NonUnit tthr r X in
    Pluq (at_ 0 r (ftrmm SLeft Upper NoTrans NonUnit r (N - r) (-1) X) X) P Q r
  else Pluq X P Q r.

(** ffpack_echelonforms.inl:109-129. *)
Definition RowEchelonForm (tag : lutag) (transform : bool) (M N : nat) A (P Q : nat -> nat) : pluq_res F :=
  let: Pluq X P Q r := if tag is Slab then LUdivine bk NonUnit Trans false M N A P Q
                       else PLUQ bk Unit thr M N A in
  if transform then
    let X := ftrtri r Lower NonUnit tthr r X in
    Pluq (at_ r 0 (ftrmm SRight Lower NoTrans NonUnit (M - r) r (-1) X) X) P Q r
  else Pluq X P Q r.

(** ffpack_echelonforms.inl:156-186. *)
Definition ReducedColumnEchelonForm (tag : lutag) (transform : bool) (M N : nat) A (P Q : nat -> nat) : pluq_res F :=
  let: Pluq X P Q r := ColumnEchelonForm tag transform M N A P Q in
  let X := if tag is Slab then
      iteri r (fun i X => if (i < Q i)%N then fswap_row i (Q i) i X else X) X
    else X in
  let X := memo M N X in
  if transform then
    let X := ftrtri r Lower Unit tthr r X in
    let X := at_ r 0 (ftrmm SRight Lower NoTrans Unit (M - r) r 1 X) X in
    Pluq (ftrtrm r SLeft NonUnit r X) P Q r
  else Pluq (at_ r 0 (ftrsm SRight Lower NoTrans Unit (M - r) r 1 X) X) P Q r.

(** ffpack_echelonforms.inl:216-246 without the GaussJordan branch. *)
Definition redrow (tag : lutag) (transform : bool) (M N : nat) A (P Q : nat -> nat) : pluq_res F :=
  let Q := iteri N (fun i q => upd1 q i i) Q in
  let P := iteri M (fun i q => upd1 q i i) P in
  let: Pluq X P Q r := RowEchelonForm tag transform M N A P Q in
  let X := if tag is Slab then
      iteri r (fun i X => if (i < Q i)%N then fswap_col i (Q i) i X else X) X
    else X in
  let X := memo M N X in
  if transform then
    let X := ftrtri r Upper Unit tthr r X in
    let X := at_ 0 r (ftrmm SLeft Upper NoTrans Unit r (N - r) 1 X) X in
    Pluq (ftrtrm r SLeft Unit r X) P Q r
  else Pluq (at_ 0 r (ftrsm SLeft Upper NoTrans Unit r (N - r) 1 X) X) P Q r.

(** ffpack_echelonforms.inl:249-437 GaussJordan.  [slab] is LuTag ==
    FfpackGaussJordanSlab; [n] is fuel.  P is the array of the current row
    slice, Q is indexed by absolute column. *)
Definition gj_base (slab : bool) (M colbeg rowbeg colsize : nat) A (P Q : nat -> nat) : pluq_res F :=
  let: Pluq W P Q1 R := redrow (if slab then Slab else Tile) true (M - rowbeg) colsize (sub rowbeg colbeg A)
                          P (fun x => Q (colbeg + x)%N) in
  let A := at_ rowbeg colbeg (fun=> W) A in
  let Q := at1 colbeg (fun q => fun x => if (x < colsize)%N then Q1 x else q x) Q in
  let Q := iteri colsize (fun i q => upd1 q (colbeg + i) (q (colbeg + i) + colbeg)%N) Q in
  let Q := if slab then iteri (colsize - R) (fun i q => upd1 q (colbeg + (R + i)) (colbeg + (R + i))%N) Q else Q in
  let A := applyP bk SRight Trans rowbeg colbeg (colbeg + colsize) Q A in
  let A := at_ 0 (colbeg + R) (fgemm NoTrans NoTrans rowbeg (colsize - R) R (-1)
             (sub 0 colbeg A) (sub rowbeg (colbeg + R) A) 1) A in
  let tmp := sub 0 colbeg A in
  let A := at_ 0 colbeg (fgemm NoTrans NoTrans rowbeg R R (-1) tmp (sub rowbeg colbeg A) 0) A in
  Pluq A P Q R.

(** Lines 334-365: the second slice [cols] wide at column c2, after r1 pivots
    in the slice at column c1. *)
Definition gj_update (M rowbeg c1 c2 cols r1 maxp : nat) (P : nat -> nat) A : grid F :=
  let A := at_ rowbeg c2 (applyP bk SLeft NoTrans cols 0 maxp P) A in
  let A := at_ 0 c2 (fgemm NoTrans NoTrans rowbeg cols r1 1 (sub 0 c1 A) (sub rowbeg c2 A) 1) A in
  let A := at_ (rowbeg + r1) c2 (fgemm NoTrans NoTrans (M - rowbeg - r1) cols r1 1
             (sub (rowbeg + r1) c1 A) (sub rowbeg c2 A) 1) A in
  let tmp := sub rowbeg c2 A in
  at_ rowbeg c2 (fgemm NoTrans NoTrans r1 cols r1 1 (sub rowbeg c1 A) tmp 0) A.

(** Lines 388-401: the transformation of the first slice. *)
Definition gj_merge (M rowbeg c1 c2 r1 r2 : nat) A : grid F :=
  let A := at_ 0 c1 (fgemm NoTrans NoTrans (rowbeg + r1) r1 r2 1 (sub 0 c2 A) (sub (rowbeg + r1) c1 A) 1) A in
  let A := at_ (rowbeg + r1 + r2) c1 (fgemm NoTrans NoTrans (M - rowbeg - r1 - r2) r1 r2 1
             (sub (rowbeg + r1 + r2) c2 A) (sub (rowbeg + r1) c1 A) 1) A in
  let tmp := sub (rowbeg + r1) c1 A in
  at_ (rowbeg + r1) c1 (fgemm NoTrans NoTrans r2 r1 r2 1 (sub (rowbeg + r1) c2 A) tmp 0) A.

(** Lines 403-434: pivots of the second slice before the other columns of the
    first.  The overlapping fassign copies each row forwards. *)
Definition gj_rotate (M N rowbeg colbeg recsize r1 r2 : nat) A (Q : nat -> nat) : grid F * (nat -> nat) :=
  let ncol := (recsize - r1)%N in let nrow := (rowbeg + r1)%N in
  let nz := (colbeg + r1)%N in
  let tmp := sub 0 nz A in
  let A1 := iteri M (fun i X => iteri r2 (fun j X => upd X i (nz + j) (X i (colbeg + recsize + j)%N)) X) A in
  let A2 := at_ 0 (nz + r2) (fassign nrow ncol tmp) A1 in
  let A3 := at_ nrow (nz + r2) (fzero (M - rowbeg - r1) (recsize - r1)) A2 in
  let MQ := memo1 N (lapack2math id Q N) in
  let tq := fun j => MQ (nz + j)%N in
  let MQ := iteri r2 (fun i q => upd1 q (nz + i) (q (colbeg + recsize + i)%N)) MQ in
  let MQ := iteri ncol (fun j q => upd1 q (nz + r2 + j) (tq j)) MQ in
  (A3, memo1 N (math2lapack Q MQ N)).

Fixpoint gj (n : nat) (slab : bool) (M N colbeg rowbeg colsize : nat) A (P Q : nat -> nat) : pluq_res F :=
  if n is n'.+1 then
    if rowbeg == M then Pluq A P Q 0
    else if (colsize <= bc)%N then
      let: Pluq A P Q R := gj_base slab M colbeg rowbeg colsize A P Q in Pluq (memo M N A) P Q R
    else
      let recsize := colsize./2 in let cols := (colsize - recsize)%N in
      let c2 := (colbeg + recsize)%N in
      let: Pluq A P Q r1 := gj n' slab M N colbeg rowbeg recsize A P Q in
      let A := memo M N (gj_update M rowbeg colbeg c2 cols r1 (if slab then r1 else (M - rowbeg)%N) P A) in
      let: Pluq A P2 Q r2 := gj n' slab M N c2 (rowbeg + r1) cols A id Q in
      let A := at_ (rowbeg + r1) colbeg (applyP bk SLeft NoTrans r1 0 (if slab then r2 else (M - rowbeg - r1)%N) P2) A in
      let P := if slab then iteri r2 (fun i p => upd1 p (i + r1) (P2 i + r1)%N) P
               else composeLLL id P P2 r1 (M - rowbeg) in
      let A := memo M N (gj_merge M rowbeg colbeg c2 r1 r2 A) in
      let: (A, Q) := if (r1 < recsize)%N && (0 < r2)%N then gj_rotate M N rowbeg colbeg recsize r1 r2 A Q
                     else (A, Q) in
      Pluq (memo M N A) (memo1 (M - rowbeg) P) Q (r1 + r2)
  else Pluq A P Q 0.

(** ffpack_echelonforms.inl:216-246. *)
Definition ReducedRowEchelonForm (tag : lutag) (transform : bool) (M N : nat) A (P Q : nat -> nat) : pluq_res F :=
  match tag, transform with
  | GJSlab, true | GJTile, true =>
    let Q := iteri N (fun i q => upd1 q i i) Q in
    let P := iteri M (fun i q => upd1 q i i) P in
    gj N.+1 (if tag is GJSlab then true else false) M N 0 0 N A P Q
  | _, _ => redrow tag transform M N A P Q
  end.

(** ** Accessors *)

(** ffpack_echelonforms.inl:446-489 getTriangular, out of place. *)
Definition getTriangular (u : uplo) (d : diag) (M N R : nat) A T (only : bool) : grid F :=
  match u with
  | Upper =>
    let T := iteri R (fun i T =>
      let T := at_ i 0 (fzero 1 i) T in
      if d is NonUnit then at_ i i (fassign 1 (N - i) (sub i i A)) T
      else at_ i i.+1 (fassign 1 (N - i - 1) (sub i i.+1 A)) (upd T i i 1)) T in
    if only then T else at_ R 0 (fzero (M - R) N) T
  | Lower =>
    let maxcol := if only then R else N in
    let T := iteri R (fun i T =>
      let T := if d is NonUnit then at_ i 0 (fassign 1 i.+1 (sub i 0 A)) T
               else upd (at_ i 0 (fassign 1 i (sub i 0 A)) T) i i 1 in
      at_ i i.+1 (fzero 1 (maxcol - i - 1)) T) T in
    let T := at_ R 0 (fassign (M - R) R (sub R 0 A)) T in
    if only then T else at_ R R (fzero (M - R) (N - R)) T
  end.

(** ffpack_echelonforms.inl:490-514, in place. *)
Definition getTriangular_in (u : uplo) (d : diag) (M N R : nat) A : grid F :=
  match u with
  | Upper =>
    let A := iteri R (fun i A =>
      let A := at_ i 0 (fzero 1 i) A in
      if d is Unit then upd A i i 1 else A) A in
    at_ R 0 (fzero (M - R) N) A
  | Lower =>
    let A := iteri R (fun i A =>
      let A := if d is Unit then upd A i i 1 else A in
      at_ i i.+1 (fzero 1 (N - i - 1)) A) A in
    at_ R R (fzero (M - R) (N - R)) A
  end.

(** ffpack_echelonforms.inl:516-530; [out0] is the array received. *)
Definition PLUQtoEchelonPermutation (N R : nat) (P out0 : nat -> nat) : nat -> nat :=
  let MP := memo1 N (lapack2math id P N) in
  let invMP := memo1 N (iteri N (fun i q => upd1 q (MP i) i) id) in
  let srt := sort leq [seq MP i | i <- iota 0 R] in
  let MP := memo1 R (fun i => invMP (nth 0%N srt i)) in
  memo1 R (math2lapack out0 MP R).

(** ffpack_echelonforms.inl:532-590 getEchelonForm, out of place. *)
Definition getEchelonForm (u : uplo) (d : diag) (M N R : nat) (P : nat -> nat) A T (only : bool) (tag : lutag) : grid F :=
  match tag, u with
  | Tile, Lower =>
    let T := getTriangular u d M N R A T only in
    let T := applyP bk SLeft Trans (if only then R else N) 0 M P T in
    applyP bk SRight Trans M 0 R (PLUQtoEchelonPermutation M R P id) T
  | Tile, Upper =>
    let T := getTriangular u d M N R A T only in
    let T := applyP bk SRight NoTrans (if only then R else M) 0 N P T in
    applyP bk SLeft NoTrans N 0 R (PLUQtoEchelonPermutation N R P id) T
  | _, Upper =>
    let T := iteri R (fun i T =>
      let piv := P i in
      let T := at_ i 0 (fzero 1 piv) T in
      if d is NonUnit then at_ i piv (fassign 1 (N - piv) (sub i piv A)) T
      else at_ i piv.+1 (fassign 1 (N - piv - 1) (sub i piv.+1 A)) (upd T i piv 1)) T in
    if only then T else at_ R 0 (fzero (M - R) N) T
  | _, Lower =>
    let T := iteri R (fun i T =>
      let piv := P i in
      let T := at_ 0 i (fzero piv 1) T in
      if d is NonUnit then at_ piv i (fassign (M - piv) 1 (sub piv i A)) T
      else at_ piv.+1 i (fassign (M - piv - 1) 1 (sub piv.+1 i A)) (upd T piv i 1)) T in
    if only then T else at_ 0 R (fzero M (N - R)) T
  end.

(** ffpack_echelonforms.inl:591-640, in place. *)
Definition getEchelonForm_in (u : uplo) (d : diag) (M N R : nat) (P : nat -> nat) A (tag : lutag) : grid F :=
  match tag, u with
  | Tile, Lower =>
    let A := getTriangular_in u d M N R A in
    let A := applyP bk SLeft Trans N 0 M P A in
    applyP bk SRight Trans M 0 R (PLUQtoEchelonPermutation M R P id) A
  | Tile, Upper =>
    let A := getTriangular_in u d M N R A in
    let A := applyP bk SRight NoTrans M 0 N P A in
    applyP bk SLeft NoTrans N 0 R (PLUQtoEchelonPermutation N R P id) A
  | _, Upper =>
    let A := iteri R (fun i A =>
      let piv := P i in
      let A := at_ i 0 (fzero 1 piv) A in
      if d is Unit then upd A i piv 1 else A) A in
    at_ R 0 (fzero (M - R) N) A
  | _, Lower =>
    let A := iteri R (fun i A =>
      let piv := P i in
      let A := at_ 0 i (fzero piv 1) A in
      if d is Unit then upd A piv i 1 else A) A in
    at_ 0 R (fzero M (N - R)) A
  end.

(** ffpack_echelonforms.inl:642-691 getEchelonTransform. *)
Definition getEchelonTransform (u : uplo) (d : diag) (M N R : nat) (P Q : nat -> nat) A T (tag : lutag) : grid F :=
  let Tdim := if u is Upper then M else N in
  let mp := if tag is Tile then Tdim else R in
  match u with
  | Lower =>
    let T := getTriangular Upper (odiag d) M N R A T true in
    let T := at_ R R (fidentity (Tdim - R) (Tdim - R)) T in
    let T := at_ R 0 (fzero (Tdim - R) R) T in
    let T := applyP bk SLeft Trans Tdim 0 mp P T in
    if tag is Tile then applyP bk SRight Trans N 0 R (PLUQtoEchelonPermutation M R Q id) T else T
  | Upper =>
    let T := getTriangular Lower (odiag d) M N R A T true in
    let T := at_ R R (fidentity (Tdim - R) (Tdim - R)) T in
    let T := at_ 0 R (fzero R (Tdim - R)) T in
    let T := applyP bk SRight NoTrans Tdim 0 mp P T in
    if tag is Tile then applyP bk SLeft NoTrans M 0 R (PLUQtoEchelonPermutation N R Q id) T else T
  end.

(** ffpack_echelonforms.inl:692-739 getReducedEchelonForm, out of place. *)
Definition getReducedEchelonForm (u : uplo) (M N R : nat) (P : nat -> nat) A T (only : bool) (tag : lutag) : grid F :=
  let mp := if tag is Slab then R else if u is Upper then N else M in
  let T := fidentity R R T in
  match u with
  | Upper =>
    let T := at_ 0 R (fassign R (N - R) (sub 0 R A)) T in
    let T := applyP bk SRight NoTrans R 0 mp P T in
    let T := if only then T else at_ R 0 (fzero (M - R) N) T in
    match tag with
    | Tile | GJTile => applyP bk SLeft NoTrans N 0 R (PLUQtoEchelonPermutation N R P id) T
    | _ => T end
  | Lower =>
    let T := at_ R 0 (fassign (M - R) R (sub R 0 A)) T in
    let T := applyP bk SLeft Trans R 0 mp P T in
    let T := if only then T else at_ 0 R (fzero M (N - R)) T in
    if tag is Tile then applyP bk SRight Trans M 0 R (PLUQtoEchelonPermutation M R P id) T else T
  end.

(** ffpack_echelonforms.inl:740-781, in place. *)
Definition getReducedEchelonForm_in (u : uplo) (M N R : nat) (P : nat -> nat) A (tag : lutag) : grid F :=
  let mp := if tag is Slab then R else if u is Upper then N else M in
  let A := fidentity R R A in
  match u with
  | Upper =>
    let A := applyP bk SRight NoTrans R 0 mp P A in
    let A := at_ R 0 (fzero (M - R) N) A in
    match tag with
    | Tile | GJTile => applyP bk SLeft NoTrans N 0 R (PLUQtoEchelonPermutation N R P id) A
    | _ => A end
  | Lower =>
    let A := applyP bk SLeft Trans R 0 mp P A in
    let A := at_ 0 R (fzero M (N - R)) A in
    if tag is Slab then A else applyP bk SRight Trans M 0 R (PLUQtoEchelonPermutation M R P id) A
  end.

(** ffpack_echelonforms.inl:783-832 getReducedEchelonTransform. *)
Definition getReducedEchelonTransform (u : uplo) (M N R : nat) (P Q : nat -> nat) A T (tag : lutag) : grid F :=
  let Tdim := if u is Upper then M else N in
  let mp := match tag with Tile | GJTile => Tdim | _ => R end in
  let T := at_ R R (fidentity (Tdim - R) (Tdim - R)) T in
  match u with
  | Lower =>
    let T := fassign R N A T in
    let T := at_ R 0 (fzero (Tdim - R) R) T in
    let T := applyP bk SLeft Trans Tdim 0 mp P T in
    if tag is Tile then applyP bk SRight Trans Tdim 0 R (PLUQtoEchelonPermutation M R Q id) T else T
  | Upper =>
    let T := fassign M R A T in
    let T := at_ 0 R (fzero R (Tdim - R)) T in
    let T := applyP bk SRight NoTrans Tdim 0 mp P T in
    if tag is Slab then T else applyP bk SLeft NoTrans Tdim 0 R (PLUQtoEchelonPermutation N R Q id) T
  end.

(** ** Inverse *)

(** ffpack_invert.inl:33-58 (the checker only observes): nullity and A. *)
Definition Invert (M : nat) A (P Q : nat -> nat) : nat * grid F :=
  if M == 0%N then (0%N, A)
  else
    let: Pluq X P Q R := ReducedRowEchelonForm GJTile true M M A P Q in
    ((M - R)%N, applyP bk SRight NoTrans M 0 R P X).

(** ffpack_invert.inl:79-135 Invert2: nullity and X, None for NULL. *)
Definition Invert2 (M : nat) A X (P Q : nat -> nat) : nat * option (grid F) :=
  if M == 0%N then (0%N, None)
  else
    let: Pluq A P Q R := LUdivine bk NonUnit NoTrans false M M A P Q in
    if (0 < M - R)%N then ((M - R)%N, None)
    else
      let X := fzero M M X in
      let A := ftrtri M Lower Unit tthr M A in
      let X := iteri M (fun i X => upd (iteri (M - i) (fun j X => upd X i (i + j) 0) X) i i 1) X in
      let X := memo M M (iteri M.-1 (fun k X => at_ k.+1 0 (fassign 1 k.+1 (sub k.+1 0 A)) X) X) in
      let X := ftrsm SLeft Upper NoTrans NonUnit M M 1 A X in
      (0%N, Some (applyP bk SLeft Trans M 0 M P X)).

End Ech.
