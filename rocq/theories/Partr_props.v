(** * Properties of the parallel triangular systems, side right *)
From mathcomp Require Import all_ssreflect ssralg ssrint.
From Verif Require Import Cuts_model Par_model Par_spec Par_props Partr_model Partr_spec Partr_proofs.
Set Implicit Arguments.
Unset Strict Implicit.
Unset Printing Implicit Defensive.
Import GRing.Theory.
Local Open Scope ring_scope.

Theorem C60_pftrsm_right_iterative (V : ringType) pa nt M N (al : V) A B (mu : mem V) : (pa = PGrain -> nt <> 0%N) ->
  vreg A <> vreg B -> (N <= vld B)%N ->
  exists2 P, ptrsm_iter_right pa nt M N al A B = Some P & every_schedule P mu (solved_right M N al A B mu).
Proof. exact: ptrsm_right_solved. Qed.
Print Assumptions C60_pftrsm_right_iterative.

Theorem C60_pftrsm_right_hybrid (V : ringType) pa H nt M N (al : V) A B (mu : mem V) :
  (0 < H)%N -> (pa = PGrain -> nt <> 0%N) -> (0 < M)%N ->
  vreg A <> vreg B -> (N <= vld B)%N ->
  exists2 P, ptrsm_hyb_right pa H nt M N al A B = Some P & every_schedule P mu (solved_right M N al A B mu).
Proof. exact: ptrsm_hyb_right_ok. Qed.
Print Assumptions C60_pftrsm_right_hybrid.

(** No thread is lost when they are shared out between blocks and recursion. *)
Theorem C60_pftrsm_right_threads H m nt it rc : hyb_right H m nt = Some (it, rc) -> (nt <= it * rc)%N.
Proof. exact: hyb_right_threads. Qed.
Print Assumptions C60_pftrsm_right_threads.

Example C60_pftrsm_right_example :
  let A := View [:: 0%N] 0 4 in let B := View [:: 2%N] 0 5 in
  (if ptrsm_iter_right PThreads 2 3 4 (2%:Z : int_Ring) A B is Some P
   then tasks P = 2%N /\ [seq run P ex_mem (cell B 2 j) | j <- iota 0 5] = [:: 2; 0; -2; 18; 1] else False) /\
  (if ptrsm_hyb_right PThreads 2 7 3 4 (2%:Z : int_Ring) A B is Some P
   then tasks P = 2%N /\ [seq run P ex_mem (cell B 2 j) | j <- iota 0 5] = [:: 2; 0; -2; 18; 1] else False) /\
  hyb_right 16 44 8 = Some (3, 3)%N /\ hyb_right 16 440 8 = Some (8, 1)%N.
Proof. by vm_compute. Qed.

(** With no row to solve for, a thread count is infinity converted to int. *)
Theorem C60_pftrsm_right_hybrid_empty_refuted H nt : (0 < nt)%N -> hyb_right H 0 nt = None.
Proof. exact: hyb_right_empty. Qed.
Print Assumptions C60_pftrsm_right_hybrid_empty_refuted.

(** Whatever the shape: tasks that keep to A, to their own columns (or rows) of B
    and to temporaries of their own end like the sequential loop. *)
Theorem C60_pftrsm_left_any (V : Type) pa nt M N A B (tmp : nat -> seq nat) (col : nat -> cmd V) mu :
  (pa = PGrain -> nt <> 0%N) ->
  vreg A <> vreg B -> (N <= vld B)%N -> injective tmp -> (forall j, tmp j <> vreg A) -> (forall j, tmp j <> vreg B) ->
  (forall j, (j < N)%N -> confined (own_col B M tmp j) (fun x => x.1 = vreg A \/ own_col B M tmp j x) (col j)) ->
  exists2 P, ptrsm_iter pa nt N col = Some P & every_schedule P mu (fun mu' => mu' =1 run (solve col 0 N) mu).
Proof. exact: ptrsm_left_any. Qed.
Print Assumptions C60_pftrsm_left_any.

Theorem C60_pftrsm_right_any (V : Type) pa nt M N A B (tmp : nat -> seq nat) (row : nat -> cmd V) mu :
  (pa = PGrain -> nt <> 0%N) ->
  vreg A <> vreg B -> (N <= vld B)%N -> injective tmp -> (forall j, tmp j <> vreg A) -> (forall j, tmp j <> vreg B) ->
  (forall i, (i < M)%N -> confined (own_row B N tmp i) (fun x => x.1 = vreg A \/ own_row B N tmp i x) (row i)) ->
  exists2 P, ptrsm_iter pa nt M row = Some P & every_schedule P mu (fun mu' => mu' =1 run (solve row 0 M) mu).
Proof. exact: ptrsm_right_any. Qed.
Print Assumptions C60_pftrsm_right_any.

Example C60_pftrsm_any_example :
  let A := View [:: 0%N] 0 4 in let B := View [:: 2%N] 0 4 in
  (forall j, confined (own_col B 3 (fun j => [:: 3%N; j]) j) (fun x => x.1 = vreg A \/ own_col B 3 (fun j => [:: 3%N; j]) j x)
     (trsm_col_up int_Ring 3 A B j)) /\
  (if ptrsm_iter PThreads 3 4 (trsm_col_up int_Ring 3 A B) is Some P
   then tasks P = 3%N /\ [seq run P ex_mem (cell B i 3) | i <- iota 0 4] = [:: 4; -5; 1; 1 : int] else False).
Proof. split; [move=> j; exact: confined_col_up|by vm_compute]. Qed.
