(** * Parallel overloads built on the parallel PLUQ

    The wrappers only choose the number of threads; [thr] is
    __FFLASFFPACK_PLUQ_THRESHOLD and the task order is that of Ppluq_model. *)
From mathcomp Require Import all_ssreflect all_algebra.
From Verif Require Import Grid Perm_model Tri_model Pluq_model Api_model Ludiv_model Ech_model Ppluq_model.
Set Implicit Arguments.
Unset Strict Implicit.
Unset Printing Implicit Defensive.
Import GRing.Theory.
Local Open Scope ring_scope.

Section Ppar.
Variable F : fieldType.
Implicit Types A X : grid F.
Variables (bk thr tthr bc : nat).

(** ffpack.inl:42-71 [pRank]. *)
Definition pRank (M N : nat) A : nat :=
  if (M == 0%N) && (N == 0%N) then 0%N else resR (pPLUQ bk NonUnit thr M N A).

(** ffpack.inl:100-157 [pDet]. *)
Definition pDet (N : nat) A : F :=
  if N == 0%N then 1 else
  let: Pluq X P Q R := pPLUQ bk NonUnit thr N N A in
  if (R < N)%N then 0 else
  let det := iteri N (fun i d => d * X i i) 1 in
  let cnt := iteri N (fun i c => let c := if P i != i then c.+1 else c in
                                 if Q i != i then c.+1 else c) 0%N in
  if odd cnt then - det else det.

(** ffpack.inl:169-208 [pSolve]. *)
Definition pSolve (M : nat) A (incx : nat) (x : nat -> F) (incb : nat) (b : nat -> F) : nat -> F :=
  let: Pluq X rowP P R := pPLUQ bk NonUnit thr M M A in
  if (R < M)%N then x else
  let x := lift incx (fun v i => if (i < M)%N then b (i * incb)%N else v i) x in
  let x := lift incx (as_col (applyP bk SLeft NoTrans 1 0 M rowP)) x in
  let x := lift incx (ftrsv Lower NoTrans Unit M X) x in
  let x := lift incx (ftrsv Upper NoTrans NonUnit M X) x in
  lift incx (as_col (applyP bk SLeft Trans 1 0 M P)) x.

(** ffpack_echelonforms.inl:44-81 [pColumnEchelonForm]. *)
Definition pColumnEchelonForm (tag : lutag) (transform : bool) (M N : nat) A (P Q : nat -> nat) : pluq_res F :=
  let: Pluq X P Q r := if tag is Slab then LUdivine bk NonUnit NoTrans false M N A P Q
                       else let: Pluq X Q P r := pPLUQ bk NonUnit thr M N A in Pluq X P Q r in
  if transform then
    let X := ftrtri r Upper NonUnit tthr r X in
    Pluq (at_ 0 r (ftrmm SLeft Upper NoTrans NonUnit r (N - r) (-1) X) X) P Q r
  else Pluq X P Q r.

(** ffpack_echelonforms.inl:92-129 [pRowEchelonForm]. *)
Definition pRowEchelonForm (tag : lutag) (transform : bool) (M N : nat) A (P Q : nat -> nat) : pluq_res F :=
  let: Pluq X P Q r := if tag is Slab then LUdivine bk NonUnit Trans false M N A P Q
                       else pPLUQ bk Unit thr M N A in
  if transform then
    let X := ftrtri r Lower NonUnit tthr r X in
    Pluq (at_ r 0 (ftrmm SRight Lower NoTrans NonUnit (M - r) r (-1) X) X) P Q r
  else Pluq X P Q r.

(** ffpack_echelonforms.inl:141-186 [pReducedColumnEchelonForm]. *)
Definition pReducedColumnEchelonForm (tag : lutag) (transform : bool) (M N : nat) A (P Q : nat -> nat) : pluq_res F :=
  let: Pluq X P Q r := pColumnEchelonForm tag transform M N A P Q in
  let X := if tag is Slab then
      iteri r (fun i X => if (i < Q i)%N then fswap_row i (Q i) i X else X) X
    else X in
  let X := memo M N X in
  if transform then
    let X := ftrtri r Lower Unit tthr r X in
    let X := at_ r 0 (ftrmm SRight Lower NoTrans Unit (M - r) r 1 X) X in
    Pluq (ftrtrm r SLeft NonUnit r X) P Q r
  else Pluq (at_ r 0 (ftrsm SRight Lower NoTrans Unit (M - r) r 1 X) X) P Q r.

(** ffpack_echelonforms.inl:199-246 [pReducedRowEchelonForm]; GaussJordan is sequential. *)
Definition pReducedRowEchelonForm (tag : lutag) (transform : bool) (M N : nat) A (P Q : nat -> nat) : pluq_res F :=
  let Q := iteri N (fun i q => upd1 q i i) Q in
  let P := iteri M (fun i q => upd1 q i i) P in
  match tag, transform with
  | GJSlab, true | GJTile, true => gj bk thr tthr bc N.+1 (if tag is GJSlab then true else false) M N 0 0 N A P Q
  | _, _ =>
    let: Pluq X P Q r := pRowEchelonForm tag transform M N A P Q in
    let X := if tag is Slab then
        iteri r (fun i X => if (i < Q i)%N then fswap_col i (Q i) i X else X) X
      else X in
    let X := memo M N X in
    if transform then
      let X := ftrtri r Upper Unit tthr r X in
      let X := at_ 0 r (ftrmm SLeft Upper NoTrans Unit r (N - r) 1 X) X in
      Pluq (ftrtrm r SLeft Unit r X) P Q r
    else Pluq (at_ 0 r (ftrsm SLeft Upper NoTrans Unit r (N - r) 1 X) X) P Q r
  end.

End Ppar.
