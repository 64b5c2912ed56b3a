(** * Model of the parallel triangular systems, side right (fflas_pftrsm.inl) *)
From mathcomp Require Import all_ssreflect ssralg.
From Verif Require Import Cuts_model Par_model.
Set Implicit Arguments.
Unset Strict Implicit.
Unset Printing Implicit Defensive.
Import GRing.Theory.

(** One row of the sequential ftrsm, side right, upper triangular, not
    transposed, unit diagonal; the other shapes and the blocked algorithm are the
    subject of C02 and C13. *)
Definition subst_row (R : ringType) (N : nat) (A B : view) (i : nat) : cmd R :=
  cseq [seq Upd (cell B i j)
              (fun s => nth 0 s 0 - foldr (fun l acc => nth 0 s l.+1 * nth 0 s (j + l).+1 + acc) 0 (iota 0 j))%R [::]
              (cell B i j :: [seq cell B i l | l <- iota 0 j] ++ [seq cell A l j | l <- iota 0 j])
       | j <- iota 0 N].
(** fflas_ftrsm.inl:175-176: the solution is scaled afterwards, here row by row. *)
Definition scal_row (R : ringType) (al : R) (N : nat) (B : view) (i : nat) : cmd R :=
  if al == 1%R then Done (V := R)
  else cseq [seq Upd (cell B i j) (fun s => al * nth 0 s 0)%R [::] [:: cell B i j] | j <- iota 0 N].
Definition trsm_row (R : ringType) (al : R) (N : nat) (A B : view) (i : nat) : cmd R :=
  Seq (subst_row R N A B i) (scal_row al N B i).

(** One column of the sequential ftrsm, side left, upper triangular, not
    transposed, unit diagonal: back substitution (fflas_ftrsm.inl:122-125). *)
Definition trsm_col_up (R : ringType) (M : nat) (A B : view) (j : nat) : cmd R :=
  cseq [seq Upd (cell B i j)
              (fun s => nth 0 s 0 - foldr (fun l acc => nth 0 s l.+1 * nth 0 s (M - i.+1 + l).+1 + acc) 0 (iota 0 (M - i.+1)))%R [::]
              (cell B i j :: [seq cell A i l | l <- iota i.+1 (M - i.+1)] ++ [seq cell B l j | l <- iota i.+1 (M - i.+1)])
       | i <- rev (iota 0 M)].

(** fflas_pftrsm.inl:59-62, Iterative, side right: the rows of B are cut in
    blocks, one task each. *)
Definition ptrsm_iter_right (R : ringType) (pa : param) (nt M N : nat) (al : R) (A B : view) : option (cmd R) :=
  ptrsm_iter pa nt M (trsm_row al N A B).

(** fflas_pftrsm.inl:98-104, Hybrid, side right: nt_it and nt_rec, [H] being
    PTRSM_HYBRID_THRESHOLD and [cdiv] the rounded up quotients, computed exactly
    (the code goes through double).  [None]: the division by nt_it = 0 is one of
    doubles, and the conversion of its result, infinity or not a number, to int
    is undefined. *)
Definition cdiv (a b : nat) : nat := a %/ b + (a %% b != 0).
Definition hyb_right (H m nt : nat) : option (nat * nat) :=
  if m %/ H < nt then
    let it := cdiv m H in if it == 0 then None else Some (it, cdiv nt it)
  else Some (nt, 1).

(** fflas_pftrsm.inl:108-117: each block is solved by the recursive algorithm
    with its own nt_rec threads, here one row after the other. *)
Definition ptrsm_hyb_right (R : ringType) (pa : param) (H nt M N : nat) (al : R) (A B : view) : option (cmd R) :=
  match hyb_right H M nt with
  | None => None
  | Some (it, _) => ptrsm_iter_right pa it M N al A B
  end.
