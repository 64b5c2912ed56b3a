(** * Properties of the task-parallel routines: C42, C60 *)
From mathcomp Require Import all_ssreflect ssralg ssrint.
From Verif Require Import Cuts_model Par_model Par_spec Par_proofs Par7_proofs Par6_proofs Par8_proofs.
Set Implicit Arguments.
Unset Strict Implicit.
Unset Printing Implicit Defensive.
Import GRing.Theory.
Local Open Scope ring_scope.

(** ** C42: the product does not depend on the schedule *)

Theorem C42_block (V : ringType) T ta tb (alpha : V) nt m n k A B beta C pth mu :
  separate pth n A B C -> nt <> 0%N ->
  exists2 P, pf_block T nt ta tb m n k alpha A B beta C = Some P &
    every_schedule P mu (is_product ta tb m n k alpha A B beta C pth mu).
Proof. exact: sched_block. Qed.
Print Assumptions C42_block.

Theorem C42_2d_adaptive (V : ringType) T ta tb (alpha : V) fuel nt m n k A B beta C pth mu :
  separate pth n A B C ->
  every_schedule (pf_2da T ta tb alpha fuel nt m n k A B beta C) mu (is_product ta tb m n k alpha A B beta C pth mu).
Proof. exact: sched_2da. Qed.
Print Assumptions C42_2d_adaptive.

Theorem C42_2d (V : ringType) T ta tb (alpha : V) fuel nt m n k A B beta C pth mu :
  separate pth n A B C ->
  every_schedule (pf_2d T ta tb alpha fuel nt m n k A B beta C) mu (is_product ta tb m n k alpha A B beta C pth mu).
Proof. exact: sched_2d. Qed.
Print Assumptions C42_2d.

Theorem C42_3d_inplace (V : ringType) df T ta tb (alpha : V) fuel nt m n k A B beta C pth mu :
  separate pth n A B C ->
  every_schedule (pf_3dip df T ta tb alpha fuel nt m n k A B beta C) mu (is_product ta tb m n k alpha A B beta C pth mu).
Proof. exact: sched_3dip. Qed.
Print Assumptions C42_3d_inplace.

Theorem C42_3d (V : ringType) df T ta tb (alpha : V) fuel nt m n k A B beta C pth mu :
  separate pth n A B C ->
  every_schedule (pf_3d df T ta tb alpha fuel pth nt m n k A B beta C) mu (is_product ta tb m n k alpha A B beta C pth mu).
Proof. exact: sched_3d. Qed.
Print Assumptions C42_3d.

(** The adaptive variant, when every call that splits k has m = n. *)
Theorem C42_3d_adaptive_partial (V : ringType) T ta tb (alpha : V) fuel nt m n k A B beta C pth mu :
  separate pth n A B C -> square_k T fuel nt m n k ->
  every_schedule (pf_3da T ta tb alpha fuel pth nt m n k A B beta C) mu (is_product ta tb m n k alpha A B beta C pth mu).
Proof. exact: sched_3da. Qed.
Print Assumptions C42_3d_adaptive_partial.

(** ... and not otherwise, whatever the threshold: in a (T+1) x (T+2) x (T+3)
    product on two threads, the last column of C lacks half of the product,
    and the row after the last one is written. *)
Theorem C42_3d_adaptive_refuted T : exists m n k A B C, separate [:: 3%N] n A B C /\
  every_schedule (pf_3da T false false (1 : int) 2 [:: 3%N] 2 m n k A B 1 C) ones
    (fun mu' => mu' (cell C 0 n.-1) <> product false false k (1 : int) A B 1 C ones 0 n.-1 /\
                mu' (cell C m 0) <> ones (cell C m 0)).
Proof.
  exists (T + 1)%N, (T + 2)%N, (T + 3)%N, (View [:: 0%N] 0 (T + 3)), (View [:: 1%N] 0 (T + 2)), (View [:: 2%N] 0 (T + 2)).
  split; first by split=> // -[s o] /eqP /=; case: s => [|a s] //= [->].
  have -> : (T + 2).-1%N = (T + 1)%N by rewrite addn2 addn1. exact: pf_3da_fails.
Qed.
Print Assumptions C42_3d_adaptive_refuted.

(** A 3 x 5 x 4 product cut in three dimensions over eight threads: the result
    of a schedule, entry (2,4); the operands are a(i,l) = 4i+l, b(l,j) = 5l+j. *)
Definition ex_mem : mem int := fun a => if a.1 == [:: 2%N] then 1 else a.2%:Z.
Fixpoint tasks V (p : cmd V) : nat := match p with Done => 0 | Upd _ _ _ _ => 0 | Seq p q => tasks p + tasks q | Par p q => (1 + tasks p + tasks q)%N end.
Example C42_3d_example :
  let A := View [:: 0%N] 0 4 in let B := View [:: 1%N] 0 5 in let C := View [:: 2%N] 0 5 in
  let P := pf_3d true 1 false false (2 : int) 8 [:: 3%N] 8 3 5 4 A B (-1) C in
  [/\ separate [:: 3%N] 5 A B C, tasks P = 96%N, run P ex_mem (cell C 2 4) = 923 &
      every_schedule P ex_mem (fun mu' => mu' (cell C 2 4) = 923)].
Proof.
  move=> A B C P. have S : separate [:: 3%N] 5 A B C by split=> // -[s o] /eqP /=; case: s => [|a s] //= [->].
  split; [exact: S|vm_compute; reflexivity|vm_compute; reflexivity|].
  have [H1 H2 H3] := @sched_3d _ true 1 false false (2 : int) 8 8 3 5 4 A B (-1) C _ ex_mem S.
  split; [exact: H1|exact: H2|]. move=> mu' /H3 [E _]. rewrite E; [|by []|by []]. rewrite /product !big_ord_recl big_ord0. vm_compute. reflexivity.
Qed.
Example C42_square_example : square_k 1 4 4 6 6 9 = true /\ square_k 1 4 4 9 6 6 = false.
Proof. by vm_compute. Qed.

(** ** C60: parallel level 1 and 2 routines, triangular systems *)

Theorem C60_pfgemv_row (V : ringType) (alpha : V) pa nt ta m n A X beta Y pth mu :
  separate pth 1 A X Y -> (pa = PGrain -> nt <> 0%N) ->
  exists2 P, pgemv_row pa nt ta m n alpha A X beta Y = Some P &
    every_schedule P mu (is_product ta false (if ta then n else m) 1 (if ta then m else n) alpha A X beta Y pth mu).
Proof. by move=> S; apply: sched_gemv_row. Qed.
Print Assumptions C60_pfgemv_row.

Example C60_pfgemv_row_example :
  let A := View [:: 0%N] 0 4 in let X := View [:: 1%N] 0 1 in let Y := View [:: 2%N] 0 2 in
  if pgemv_row PThreads 3 true 3 4 (1 : int) A X 1 Y is Some P
  then tasks P = 3%N /\ [seq run P ex_mem (cell Y i 0) | i <- iota 0 5] = [:: 21; 24; 27; 30; 1] else False.
Proof. by vm_compute. Qed.

Theorem C60_pfgemv_recursive_notrans (V : ringType) (alpha : V) nt m n A X beta Y pth mu :
  separate pth 1 A X Y -> nt <> 0%N ->
  exists2 P, pgemv_rec nt nt false m n alpha A X beta Y = Some P &
    every_schedule P mu (is_product false false m 1 n alpha A X beta Y pth mu).
Proof. by move=> S; apply: sched_gemv_rec. Qed.
Print Assumptions C60_pfgemv_recursive_notrans.

Example C60_pfgemv_recursive_example :
  let A := View [:: 0%N] 0 4 in let X := View [:: 1%N] 0 1 in let Y := View [:: 2%N] 0 2 in
  if pgemv_rec 3 3 false 3 4 (1 : int) A X 1 Y is Some P
  then tasks P = 4%N /\ [seq run P ex_mem (cell Y i 0) | i <- iota 0 4] = [:: 15; 39; 63; 1] else False.
Proof. by vm_compute. Qed.

(** The transposed case advances A by the whole dimension instead of half. *)
Theorem C60_pfgemv_recursive_trans_refuted : exists nt m n A X Y mu, separate [:: 3%N] 1 A X Y /\ n = 4%N /\
  exists2 P, pgemv_rec nt nt true m n (1 : int) A X 0 Y = Some P &
  every_schedule P mu (fun mu' => mu' (cell Y 2 0) <> product true false m (1 : int) A X 0 Y mu 2 0).
Proof.
  exists 2%N, 3%N, 4%N, (View [:: 0%N] 0 4), (View [:: 1%N] 0 1), (View [:: 2%N] 0 1), gemv_mem.
  split; first by split=> // -[s o] /eqP /=; case: s => [|a s] //= [->].
  split; first by []. exact: pgemv_trans_fails.
Qed.
Print Assumptions C60_pfgemv_recursive_trans_refuted.

(** With no thread the transposed recursion does not end. *)
Theorem C60_pfgemv_nothread_refuted (V : ringType) fuel m n (alpha : V) A X beta Y : (1 < m)%N ->
  pgemv_rec fuel 0 true m n alpha A X beta Y = None.
Proof. by move=> H; apply: pgemv_nothread. Qed.
Print Assumptions C60_pfgemv_nothread_refuted.

Theorem C60_pfdot_threads (V : ringType) rs N x y z d (mu : mem V) : (0 < rs)%N ->
  vreg z <> vreg x -> vreg z <> vreg y -> d.1 <> vreg z -> d.1 <> vreg x -> d.1 <> vreg y ->
  exists2 P, pfdot V PThreads rs N x y z d = Some P & every_schedule P mu (dotted rs N x y z d mu).
Proof. exact: pfdot_threads. Qed.
Print Assumptions C60_pfdot_threads.

Example C60_pfdot_example :
  if pfdot int_Ring PThreads 3 7 (View [:: 0%N] 0 1) (View [:: 1%N] 0 2) (View [:: 2%N] 0 0) ([:: 3%N], 0%N) is Some P
  then tasks P = 3%N /\ run P (fun a => a.2%:Z) ([:: 3%N], 0%N) = 182 else False.
Proof. by vm_compute. Qed.

(** With a fixed block size there are more blocks than partial results: the
    second half of the sum is lost, and stored past the end of the vector. *)
Theorem C60_pfdot_fixed_refuted : exists x y z d (mu : mem int),
  exists2 P, pfdot int_Ring PFixed 1 512 x y z d = Some P &
  every_schedule P mu (fun mu' => mu' d <> mu d + (\sum_(i < 512) mu (cell x i 0) * mu (cell y i 0)) /\
                                  mu' (cell z 0 1) <> mu (cell z 0 1)).
Proof.
  exists (View [:: 0%N] 0 1), (View [:: 1%N] 0 1), (View [:: 2%N] 0 0), ([:: 3%N], 0%N), (fun=> 1).
  have [P -> [H1 H2 H3]] := pfdot_fixed_fails. exists P; first by []. split; [exact: H1|exact: H2|].
  move=> mu' /H3 [-> ->]. split; last by []. by rewrite mulr1 sumr_const card_ord.
Qed.
Print Assumptions C60_pfdot_fixed_refuted.

Theorem C60_pfzero (V : ringType) bs m n C mu : bs <> 0%N -> (0 < m)%N -> (0 < n)%N -> (n <= vld C)%N ->
  (m %% minn m bs <= m %/ minn m bs)%N -> (n %% minn n bs <= n %/ minn n bs)%N ->
  exists2 P, pfzero V bs m n C = Some P & every_schedule P mu (zeroed m n C mu).
Proof. exact: pfzero_ok. Qed.
Print Assumptions C60_pfzero.

(** Otherwise some entry keeps its value. *)
Theorem C60_pfzero_refuted (V : ringType) bs m n C mu : bs <> 0%N -> (0 < m)%N -> (0 < n)%N -> (n <= vld C)%N ->
  ~~ ((m %% minn m bs <= m %/ minn m bs) && (n %% minn n bs <= n %/ minn n bs))%N ->
  exists i j, [/\ (i < m)%N, (j < n)%N & exists2 P, pfzero V bs m n C = Some P &
    every_schedule P mu (fun mu' => mu' (cell C i j) = mu (cell C i j))].
Proof. exact: pfzero_misses. Qed.
Print Assumptions C60_pfzero_refuted.

Example C60_pfzero_example :
  let C := View [:: 2%N] 0 7 in
  (if pfzero int_Ring 3 4 7 C is Some P then [seq run P ones (cell C 3 j) | j <- iota 0 8] = [:: 0; 0; 0; 0; 0; 0; 0; 1] else False) /\
  (if pfzero int_Ring 3 5 7 C is Some P then [seq run P ones (cell C i 0) | i <- iota 0 5] = [:: 0; 0; 0; 0; 1] else False).
Proof. by vm_compute. Qed.

Theorem C60_pftrsm_iterative (V : ringType) pa nt M N A B (mu : mem V) : (pa = PGrain -> nt <> 0%N) ->
  vreg A <> vreg B -> (N <= vld B)%N ->
  exists2 P, ptrsm_iter pa nt N (trsm_col V M A B) = Some P & every_schedule P mu (solved M N A B mu).
Proof. exact: ptrsm_iter_solved. Qed.
Print Assumptions C60_pftrsm_iterative.

Example C60_pftrsm_example :
  let A := View [:: 0%N] 0 3 in let B := View [:: 2%N] 0 4 in
  if ptrsm_iter PThreads 3 4 (trsm_col int_Ring 3 A B) is Some P
  then tasks P = 3%N /\ [seq run P ex_mem (cell B i 3) | i <- iota 0 3] = [:: 1; -2; 9] else False.
Proof. by vm_compute. Qed.

Theorem C60_pftrsm_hybrid (V : ringType) pa H nt M N A B (mu : mem V) : pa <> PGrain -> (0 < N)%N ->
  vreg A <> vreg B -> (N <= vld B)%N ->
  exists2 P, ptrsm_hyb_left pa H nt N (trsm_col V M A B) = Some P & every_schedule P mu (solved M N A B mu).
Proof. exact: ptrsm_hyb_ok. Qed.
Print Assumptions C60_pftrsm_hybrid.

(** The loop that shares the threads out does not end when B has no column. *)
Theorem C60_pftrsm_hybrid_empty_refuted fuel H nt : hyb_loop fuel H 0 nt = None.
Proof. exact: hyb_loop_zero. Qed.
Print Assumptions C60_pftrsm_hybrid_empty_refuted.
