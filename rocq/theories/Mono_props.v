(** * C74: monotonic permutations *)
From mathcomp Require Import all_ssreflect.
From Verif Require Import Grid Perm_model Perm_spec Mono_model Mono_spec Mono_proofs.
Set Implicit Arguments.
Unset Strict Implicit.
Unset Printing Implicit Defensive.

(** Only the R first pivots count: the lines are permuted by the permutation
    with these R first values and the others in increasing order, whatever the
    rest of P says.  Every access is inside the window, and nothing else is written. *)
Theorem C74_monotonic : forall (T : Type) bk sd t M ib ie P R (A : grid T), 0 < bk -> R <= ie - ib ->
  (forall i, i < ie - ib -> P i < ie - ib) ->
  exists2 s, monotonic (ie - ib) R (sigma P 0 (ie - ib)) s &
  exists2 B, MonotonicApplyP bk sd t M ib ie P R A = Some B &
  match sd with
  | SLeft => rows_moved (if t is Trans then true else false) (ie - ib) M s A B
  | SRight => rows_moved (if t is Trans then false else true) (ie - ib) M s (tr A) (tr B)
  end.
Proof. exact MonotonicApplyPE. Qed.
Print Assumptions C74_monotonic.

(** There is only one such permutation. *)
Theorem C74_unique : forall n R q s s', R <= n -> monotonic n R q s -> monotonic n R q s' ->
  forall i, i < n -> s i = s' i.
Proof. exact mono_uniq. Qed.
Print Assumptions C74_unique.

(** When P is monotonic after R, this is applyP. *)
Theorem C74_applyP : forall (T : Type) bk bk' sd t M n P R (A : grid T), 0 < bk -> 0 < bk' -> R <= n ->
  (forall i, i < n -> P i < n) ->
  (forall i j, R <= i -> i < j -> j < n -> sigma P 0 n i < sigma P 0 n j) ->
  exists2 B, MonotonicApplyP bk sd t M 0 n P R A = Some B &
  forall i j, B i j = applyP bk' sd t M 0 n P A i j.
Proof. exact Monotonic_applyP. Qed.
Print Assumptions C74_applyP.

(** With ibeg > 0 it is not: the lines [ibeg, iend) are not the ones moved. *)
Theorem C74_ibeg_refuted : exists n P R (A B : grid nat), is_lapack n P /\
  MonotonicApplyP 32 SLeft NoTrans 1 1 n P R A = Some B /\
  B 0 0 <> applyP 32 SLeft NoTrans 1 1 n P A 0 0.
Proof.
exists 3, (nth 0 [:: 1; 1; 2]), 1, (fun i _ => i).
set B := MonotonicApplyP _ _ _ _ _ _ _ _ _.
have : if B is Some X then X 0 0 = 1 else False by vm_compute.
case: B => // X e; exists X; split; first by do 3 (case => //).
by split=> //; rewrite e.
Qed.
Print Assumptions C74_ibeg_refuted.

(** Pivots 3, 1, 5 of 6; 8 columns in blocks of 3. *)
Definition P6 : nat -> nat := nth 0 [:: 3; 1; 5; 3; 4; 5].
Definition G (i j : nat) := 10 * i + j.
Definition rows (oB : option (grid nat)) := if oB is Some B then [seq [seq B i j | j <- [:: 0; 4; 7; 8]] | i <- iota 0 7] else [::].
Example C74_case_compress : rows (MonotonicApplyP 3 SLeft NoTrans 8 0 6 P6 3 G) =
  [:: [:: 30; 34; 37; 8]; [:: 10; 14; 17; 18]; [:: 50; 54; 57; 28]; [:: 0; 4; 7; 38];
      [:: 20; 24; 27; 48]; [:: 40; 44; 47; 58]; [:: 60; 64; 67; 68]].
Proof. by vm_compute. Qed.
Example C74_case_expand : rows (MonotonicApplyP 3 SLeft Trans 8 0 6 P6 3 G) =
  [:: [:: 30; 34; 37; 8]; [:: 10; 14; 17; 18]; [:: 40; 44; 47; 28]; [:: 0; 4; 7; 38];
      [:: 50; 54; 57; 48]; [:: 20; 24; 27; 58]; [:: 60; 64; 67; 68]].
Proof. by vm_compute. Qed.
(** The transpositions alone give another order of the last rows. *)
Example C74_case_applyP : [seq applyP 3 SLeft NoTrans 8 0 6 P6 G i 0 | i <- iota 0 6] = [:: 30; 10; 50; 0; 40; 20].
Proof. by vm_compute. Qed.
(** A monotonic list. *)
Definition Pm : nat -> nat := nth 0 [:: 2; 2; 2; 3].
Example C74_case_hyp : (forall i, i < 4 -> Pm i < 4) /\
  (forall i j, 1 <= i -> i < j -> j < 4 -> sigma Pm 0 4 i < sigma Pm 0 4 j) /\ sigma Pm 0 4 0 = 2.
Proof. by split; [do 4 (case => //)|split=> //; move=> [|[|[|[|i]]]] [|[|[|[|j]]]]]. Qed.
