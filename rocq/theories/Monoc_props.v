(** * C76: the other monotonic compressions *)
From mathcomp Require Import all_ssreflect all_algebra.
From Verif Require Import Grid Lit Perm_model Perm_spec Tri_model Pluq_model Mono_model Mono_spec Monoc_model Monoc_proofs Monoc_pluq.
Set Implicit Arguments.
Unset Strict Implicit.
Unset Printing Implicit Defensive.

(** C76. Both apply the permutation they are given, for any permutation. *)
Theorem C76_cycles : forall (T : Type) n M mp, is_perm n mp -> forall A : grid T,
  exists2 B, MonotonicCompressCycles n M mp A = Some B & rows_moved false n M mp A B.
Proof. exact compress_cyclesE. Qed.
Print Assumptions C76_cycles.

Theorem C76_more_pivots : forall (T : Type) n M mp, is_perm n mp -> forall R (A : grid T), R <= n ->
  exists2 B, MonotonicCompressMorePivots n M R mp A = Some B & rows_moved false n M mp A B.
Proof. exact compress_moreE. Qed.
Print Assumptions C76_more_pivots.

(** C76. With either of them MonotonicApplyP is applyP when P is monotonic after R. *)
Theorem C76_applyP : forall (T : Type) v bk bk' sd t M n P R (A : grid T), 0 < bk -> 0 < bk' -> R <= n ->
  (forall i, i < n -> P i < n) ->
  (forall i j, R <= i -> i < j -> j < n -> sigma P 0 n i < sigma P 0 n j) ->
  exists2 B, MonotonicApplyP_v v bk sd t M 0 n P R A = Some B &
  forall i j, B i j = applyP bk' sd t M 0 n P A i j.
Proof. exact Monotonic_v_applyP. Qed.
Print Assumptions C76_applyP.

(** C76. The lists that PLUQ returns, with their rank, are of this kind: defining
    MONOTONIC_APPLYP (ffpack_pluq.inl:510-577) does not change what is computed. *)
Theorem C76_PLUQ : forall (F : fieldType) bk d thr M N (A : grid F), 0 < bk ->
  let: Pluq X P Q R := PLUQ bk d thr M N A in
  forall (T : Type) bk' sd t K (B : grid T), 0 < bk' ->
  (exists2 C, MonotonicApplyP bk' sd t K 0 M P R B = Some C & forall i j, C i j = applyP bk sd t K 0 M P B i j) /\
  (exists2 C, MonotonicApplyP bk' sd t K 0 N Q R B = Some C & forall i j, C i j = applyP bk sd t K 0 N Q B i j) /\
  forall v,
  (exists2 C, MonotonicApplyP_v v bk' sd t K 0 M P R B = Some C & forall i j, C i j = applyP bk sd t K 0 M P B i j) /\
  (exists2 C, MonotonicApplyP_v v bk' sd t K 0 N Q R B = Some C & forall i j, C i j = applyP bk sd t K 0 N Q B i j).
Proof. exact pluq_mono. Qed.
Print Assumptions C76_PLUQ.

(** C76. Otherwise the choice of the macro changes the result: the other two
    follow the end of the list, the default one does not... *)
Definition Pn : nat -> nat := nth 0 [:: 3; 1; 5; 3; 4; 5].
Theorem C76_macro_refuted : exists n P R (A : grid nat) B B', is_lapack n P /\ R <= n /\
  MonotonicApplyP 32 SLeft NoTrans 1 0 n P R A = Some B /\
  (forall v, exists2 B0, MonotonicApplyP_v v 32 SLeft NoTrans 1 0 n P R A = Some B0 & B0 4 0 = B') /\ B 4 0 <> B'.
Proof.
exists 6, Pn, 3, (fun i _ => i).
set B := MonotonicApplyP _ _ _ _ _ _ _ _ _.
have : if B is Some X then X 4 0 = 2 else False by vm_compute.
case: B => // X e; exists X, 4; split; first by do 6 (case => //).
split=> //; split=> //; split; last by rewrite e.
move=> v; have : if MonotonicApplyP_v v 32 SLeft NoTrans 1 0 6 Pn 3 (fun i _ => i) is Some X then X 4 0 = 4 else False.
  by case: v; vm_compute.
by case: (MonotonicApplyP_v _ _ _ _ _ _ _ _ _ _) => // Y eY; exists Y.
Qed.
Print Assumptions C76_macro_refuted.

(** ... but only when one of the R first pivots moves. *)
Theorem C76_fixed_refuted : exists n P R (A : grid nat), is_lapack n P /\ R <= n /\
  forall v, MonotonicApplyP_v v 32 SLeft NoTrans 1 0 n P R A = Some A /\
  A 1 0 <> applyP 32 SLeft NoTrans 1 0 n P A 1 0.
Proof.
exists 3, (nth 0 [:: 0; 2; 2]), 1, (fun i _ => i); split; first by do 3 (case => //).
by split=> // v; split; vm_compute.
Qed.
Print Assumptions C76_fixed_refuted.

(** Cycles (0 3 2 5), (1 6) and the fixed point 4 on 7 rows, 2 columns of 3. *)
Definition Pc : nat -> nat := nth 0 [:: 3; 6; 5; 2; 4; 0; 1].
Definition Gc (i j : nat) := 10 * i + j.
Definition rowsc (oB : option (grid nat)) := if oB is Some B then [seq [seq B i j | j <- iota 0 3] | i <- iota 0 8] else [::].
Example C76_case : let want := [:: [:: 30; 31; 2]; [:: 60; 61; 12]; [:: 50; 51; 22]; [:: 20; 21; 32];
     [:: 40; 41; 42]; [:: 0; 1; 52]; [:: 10; 11; 62]; [:: 70; 71; 72]] in
  rowsc (MonotonicCompressCycles 7 2 Pc Gc) = want /\
  rowsc (MonotonicCompressMorePivots 7 2 3 Pc Gc) = want /\ rowsc (MonotonicCompressMorePivots 7 2 7 Pc Gc) = want /\
  (forall i, i < 7 -> Pc i < 7).
Proof.
split; first by vm_compute.
split; first by vm_compute.
split; first by vm_compute.
by do 7 (case => //).
Qed.
Example C76_case_monotonic : let P := nth 0 [:: 2; 2; 2; 3] in
  (forall i, i < 4 -> P i < 4) /\ (forall i j, 1 <= i -> i < j -> j < 4 -> sigma P 0 4 i < sigma P 0 4 j) /\
  forall v, rowsc (MonotonicApplyP_v v 2 SLeft NoTrans 3 0 4 P 1 Gc) =
    [:: [:: 20; 21; 22]; [:: 0; 1; 2]; [:: 10; 11; 12]; [:: 30; 31; 32];
        [:: 40; 41; 42]; [:: 50; 51; 52]; [:: 60; 61; 62]; [:: 70; 71; 72]].
Proof.
split; first by do 4 (case => //).
by split; [move=> [|[|[|[|i]]]] [|[|[|[|j]]]] | case; vm_compute].
Qed.

(** 4 x 3, rank 2. *)
Definition rP := @PLUQ [fieldType of 'F_7] 1 Unit 1 4 3 (gl 7 [:: [:: 0; 0; 0]; [:: 0; 0; 2]; [:: 0; 0; 1]; [:: 3; 0; 5]]%N).
Example C76_case_PLUQ :
  (resR rP, [seq resP rP i | i <- iota 0 4], [seq resQ rP i | i <- iota 0 3]) = (2, [:: 1; 3; 3; 3], [:: 2; 2; 2]) /\
  rowsc (MonotonicApplyP 2 SLeft NoTrans 3 0 4 (resP rP) (resR rP) Gc) =
    [:: [:: 10; 11; 12]; [:: 30; 31; 32]; [:: 0; 1; 2]; [:: 20; 21; 22];
        [:: 40; 41; 42]; [:: 50; 51; 52]; [:: 60; 61; 62]; [:: 70; 71; 72]].
Proof. by vm_compute. Qed.
