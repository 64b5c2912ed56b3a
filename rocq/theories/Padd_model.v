(** * Model of the parallel matrix additions (fflas_fadd.h) *)
From mathcomp Require Import all_ssreflect ssralg.
From Verif Require Import Cuts_model Par_model.
Set Implicit Arguments.
Unset Strict Implicit.
Unset Printing Implicit Defensive.
Import GRing.Theory.

(** One row of fadd or fsub, level 2 (fflas_fadd.h:215-243): the vectorised
    kernels load several entries before storing them, which is C32; the single
    call for contiguous operands visits the same entries.  The loop over the rows
    stops at Ai = A + M lda, hence the leading dimensions of at least N in C78. *)
Definition add_row (R : ringType) (f : R -> R -> R) (N : nat) (A B C : view) (i : nat) : cmd R :=
  cseq [seq Upd (cell C i j) (fun s => f (nth 0 s 0) (nth 0 s 1))%R [::] [:: cell A i j; cell B i j] | j <- iota 0 N].

(** fflas_fadd.h:150-181, pfadd and pfsub: the rows are cut by FORBLOCK1D with
    SPLITTER(numths), one task for each block. *)
Definition pfadd (R : ringType) (nt M N : nat) (A B C : view) : option (cmd R) :=
  ptrsm_iter PThreads nt M (add_row +%R N A B C).
Definition pfsub (R : ringType) (nt M N : nat) (A B C : view) : option (cmd R) :=
  ptrsm_iter PThreads nt M (add_row (fun a b : R => a - b)%R N A B C).
(** fflas_fadd.h:183-211, pfaddin and pfsubin; faddin and fsubin, l.75-105, put C
    second and first. *)
Definition pfaddin (R : ringType) (nt M N : nat) (B C : view) : option (cmd R) := pfadd R nt M N B C C.
Definition pfsubin (R : ringType) (nt M N : nat) (B C : view) : option (cmd R) := pfsub R nt M N C B C.
