(** * LUdivine, the slab recursive factorisation: ffpack/ffpack_ludivine.inl

    With [t] = Trans the routine works on the transpose of the stored matrix:
    incRow and incCol are exchanged (lines 422-433).  Element accesses are
    written on the view [optr t A]; calls of applyP, ftrsm and fgemm on the
    stored matrix, as in the code. *)
From mathcomp Require Import all_ssreflect all_algebra.
From Verif Require Import Grid Perm_model Tri_model Pluq_model Api_model.
Set Implicit Arguments.
Unset Strict Implicit.
Unset Printing Implicit Defensive.
Import GRing.Theory.
Local Open Scope ring_scope.

Section Ludiv.
Variable F : fieldType.
Implicit Types A X : grid F.

(** Run [f], written for the view, on the stored matrix. *)
Definition onop (t : transp) (f : grid F -> grid F) A : grid F :=
  if t is Trans then tr (f (tr A)) else f A.

(** Run [f] on the stored matrix at pointer A + i*incRow + j*incCol. *)
Definition atop (t : transp) (i j : nat) (f : grid F -> grid F) A : grid F :=
  if t is Trans then at_ j i f A else at_ i j f A.

(** ffpack_ludivine.inl:439-501, MN = 1, on the view. The searches are the
    loops of lines 441-443 and 449-452, [find] returning the length when there
    is none. *)
Definition lud_base (d : diag) (rowDim colDim : nat) (A : grid F) (P Q : nat -> nat) :=
  let ip := find (fun c => A 0%N c != 0) (iota 0 colDim) in
  let Q := upd1 Q 0 0%N in
  if ip == colDim then
    let P := upd1 P 0 0%N in
    if colDim == 1%N then
      let ip := (find (fun r => A r 0%N != 0%R) (iota 1 (rowDim - 1))).+1 in
      if ip == rowDim then (A, P, Q, 0%N)
      else
        let A := if d is NonUnit then
            let invpiv := (A ip 0%N)^-1 in
            let A := if (ip.+1 < rowDim)%N then at_ ip.+1 0 (fscalin (rowDim - ip.+1) 1 invpiv) A else A in
            let A := upd A 0 0 (A ip 0%N) in
            upd A ip 0 0
          else A in
        (A, P, upd1 Q 0 ip, 1%N)
    else (A, P, Q, 0%N)
  else
    let P := upd1 P 0 ip in
    let A := if ip != 0%N then
        let tmp := A 0%N 0%N in upd (upd A 0 0 (A 0%N ip)) 0 ip tmp
      else A in
    let invpiv := (A 0%N 0%N)^-1 in
    let A := match d with
      | Unit => if (1 < colDim)%N then at_ 0 1 (fscalin 1 (colDim - 1) invpiv) A else A
      | NonUnit => if colDim == 1%N then
          if (ip.+1 < rowDim)%N then at_ ip.+1 0 (fscalin (rowDim - ip.+1) 1 invpiv) A else A
        else A
      end in
    (A, P, Q, 1%N).

(** ffpack_ludivine.inl:523-534 (Trans) and 562-571: elimination below the
    first Nup rows, R > 0. *)
Definition lud_elim (bk : nat) (t : transp) (d : diag) (Nup Ndown colDim R : nat) (P : nat -> nat) A : grid F :=
  let A := atop t Nup 0 (if t is Trans then applyP bk SLeft NoTrans Ndown 0 R P
                         else applyP bk SRight Trans Ndown 0 R P) A in
  let A := atop t Nup 0 (if t is Trans then ftrsm SLeft Lower NoTrans d R Ndown 1 A
                         else ftrsm SRight Upper NoTrans d Ndown R 1 A) A in
  if (R < colDim)%N then
    let Ac := subop t 0 R A in let Ar := subop t Nup 0 A in
    atop t Nup R (if t is Trans then fgemm NoTrans NoTrans (colDim - R) Ndown R (-1) Ac Ar 1
                  else fgemm NoTrans NoTrans Ndown (colDim - R) R (-1) Ar Ac 1) A
  else A.

(** ffpack_ludivine.inl:588-612, one iteration (number k) of the loops moving
    the rows of the second half, on the view; [e] is 1 with Unit (j starts at
    R+1 and row j-1 is written), 0 with NonUnit. *)
Definition lud_move (d : diag) (Nup colDim R k : nat) (s : grid F * (nat -> nat)) :=
  let: (A, Q) := s in
  let e := if d is Unit then 1%N else 0%N in
  let i := (Nup + k)%N in let r := (R + k)%N in let j := (r + e)%N in
  let A := at_ r j (fassign 1 (colDim - j) (sub i j A)) A in
  let A := at_ i j (fzero 1 (colDim - j)) A in
  (A, swap1 Q r i).

(** ffpack_ludivine.inl:406-617 with a cutoff of 1, the default
    (__FFLASFFPACK_LUDIVINE_THRESHOLD), so that LUdivine_small is never
    called; [sing] is LuTag == FfpackSingular.  [n] is fuel. *)
Fixpoint ludiv (n bk : nat) (t : transp) (d : diag) (sing : bool) (rowDim colDim : nat)
    A (P Q : nat -> nat) : pluq_res F :=
  if n is n'.+1 then
    if (rowDim == 0%N) || (colDim == 0%N) then Pluq A P Q 0
    else if minn rowDim colDim == 1%N then
      let: (W, P, Q, r) := lud_base d rowDim colDim (optr t A) P Q in
      Pluq (memo (if t is Trans then colDim else rowDim) (if t is Trans then rowDim else colDim) (optr t W)) P Q r
    else
      let Nup := rowDim./2 in let Ndown := (rowDim - Nup)%N in
      let: Pluq A P Q R := ludiv n' bk t d sing Nup colDim A P Q in
      if (R == 0%N) && sing then Pluq A P Q 0 else
      let A := if R == 0%N then A else lud_elim bk t d Nup Ndown colDim R P A in
      let A := memo (if t is Trans then colDim else rowDim) (if t is Trans then rowDim else colDim) A in
      let: Pluq W P2 Q2 R2 := ludiv n' bk t d sing Ndown (colDim - R) (subop t Nup R A)
                                (fun x => P (R + x)%N) (fun x => Q (Nup + x)%N) in
      let A := atop t Nup R (fun=> W) A in
      let P := at1 R (fun=> P2) P in
      let Q := at1 Nup (fun=> Q2) Q in
      let P := iteri R2 (fun k p => upd1 p (R + k) (p (R + k) + R)%N) P in
      if (R2 == 0%N) && sing then Pluq A P Q 0 else
      let A := if R2 == 0%N then A else
        (if t is Trans then applyP bk SLeft NoTrans Nup R (R + R2) P
         else applyP bk SRight Trans Nup R (R + R2) P) A in
      let A := memo (if t is Trans then colDim else rowDim) (if t is Trans then rowDim else colDim) A in
      let Q := iteri R2 (fun k q => upd1 q (Nup + k) (q (Nup + k) + Nup)%N) Q in
      let: (V, Q) := if (R < Nup)%N then iteri R2 (lud_move d Nup colDim R) (optr t A, Q)
                     else (optr t A, Q) in
      Pluq (memo (if t is Trans then colDim else rowDim) (if t is Trans then rowDim else colDim) (optr t V))
        (memo1 (R + R2) P) (memo1 (R + R2) Q) (R + R2)
  else Pluq A P Q 0.

(** LUdivine(F, Diag, trans, M, N, A, lda, P, Q, LuTag): P and Q come with
    arbitrary contents. *)
Definition LUdivine (bk : nat) (d : diag) (t : transp) (sing : bool) (M N : nat) A (P Q : nat -> nat) : pluq_res F :=
  let: (rowDim, colDim) := if t is Trans then (N, M) else (M, N) in
  ludiv rowDim.+1 bk t d sing rowDim colDim A P Q.

(** ffpack_rankprofiles.inl:53-76, 99-119 and 122-125 with
    FfpackSlabRecursive, the default tag. *)
Definition RowRankProfile_slab (bk M N : nat) A P Q : seq nat * nat :=
  let: Pluq X P Q R := LUdivine bk NonUnit NoTrans false M N A P Q in
  ([seq Q i | i <- iota 0 R], R).
Definition ColumnRankProfile_slab (bk M N : nat) A P Q : seq nat * nat :=
  let: Pluq X P Q R := LUdivine bk NonUnit Trans false M N A P Q in
  ([seq Q i | i <- iota 0 R], R).

(** ffpack.inl:73-91. *)
Definition IsSingular (bk M N : nat) A P Q : bool :=
  if (M == 0%N) && (N == 0%N) then false
  else if (M == 0%N) || (N == 0%N) then true
  else if M != N then true
  else resR (LUdivine bk NonUnit NoTrans true M N A P Q) == 0%N.

(** ** Index arrays with their allocation

    [None] in a cell is uninitialised storage; a write outside the array or a
    read of an uninitialised or inexistent cell makes the result [None]. *)
Definition arr := seq (option nat).
Definition alloc (n : nat) : arr := nseq n None.
Definition wr (a : arr) (i v : nat) : option arr :=
  if (i < size a)%N then Some (set_nth None a i (Some v)) else None.
Definition rd (a : arr) (i : nat) : option nat := nth None a i.

(** [for (i = 0; i < n; ++i) body(i)]. *)
Definition forn (T : Type) (n : nat) (body : nat -> T -> option T) (x : T) : option T :=
  iteri n (fun i => obind (body i)) (Some x).

(** ffpack_rankprofiles.inl:181-183 and 216-217 (copy of Q), 184-185 and
    219-220 (identity), 186-193 and 222-229 (exchanges). *)
Definition copy_arr (n : nat) (Q : nat -> nat) : arr -> option arr := forn n (fun i a => wr a i (Q i)).
Definition exch_arr (n : nat) (P : nat -> nat) : arr -> option arr :=
  forn n (fun i a => if i != P i then
    obind (fun tmp => obind (fun v => obind (fun a => wr a (P i) tmp) (wr a i v)) (rd a (P i))) (rd a i)
  else Some a).

(** ffpack_rankprofiles.inl:166-199: rowindices has M cells, colindices N. *)
Definition RowRankProfileSubmatrixIndices (bk M N : nat) A P Q : option (arr * arr * nat) :=
  let: Pluq _ P Q R := LUdivine bk NonUnit NoTrans false M N A P Q in
  obind (fun rowindices =>
  obind (fun colindices =>
  obind (fun colindices => Some (rowindices, colindices, R))
    (exch_arr R P colindices)) (copy_arr N id (alloc N))) (copy_arr R Q (alloc M)).

(** ffpack_rankprofiles.inl:201-234: the identity is written in the first N
    cells of rowindices, which has M cells. *)
Definition ColRankProfileSubmatrixIndices (bk M N : nat) A P Q : option (arr * arr * nat) :=
  let: Pluq _ P Q R := LUdivine bk NonUnit Trans false M N A P Q in
  obind (fun colindices =>
  obind (fun rowindices =>
  obind (fun rowindices => Some (rowindices, colindices, R))
    (exch_arr R P rowindices)) (copy_arr N id (alloc M))) (copy_arr R Q (alloc N)).

(** ffpack_rankprofiles.inl:236-259 and 261-282: the sub-matrix itself; the
    indices come from a copy of A. *)
Definition submatrix A (idx : option (arr * arr * nat)) : option (grid F * nat) :=
  obind (fun '(ri, ci, R) =>
    if all (fun i => isSome (rd ri i) && isSome (rd ci i)) (iota 0 R)
    then Some (fun i j => A (odflt 0%N (rd ri i)) (odflt 0%N (rd ci j)), R) else None) idx.
Definition RowRankProfileSubmatrix (bk M N : nat) A P Q :=
  submatrix A (RowRankProfileSubmatrixIndices bk M N A P Q).
Definition ColRankProfileSubmatrix (bk M N : nat) A P Q :=
  submatrix A (ColRankProfileSubmatrixIndices bk M N A P Q).

(** ffpack_rankprofiles.inl:284-313. *)
Definition LQUPtoInverseOfFullRankMinor (thr rank : nat) A (Qt : nat -> nat) X : grid F :=
  let A := iteri rank (fun row A => if Qt row != row then at_ row 0 (fassign 1 row (sub (Qt row) 0 A)) A else A) A in
  let A := ftrtri rank.+1 Lower Unit thr rank A in
  let X := fassign rank rank A X in
  ftrsm SLeft Upper NoTrans NonUnit rank rank 1 A X.

End Ludiv.
