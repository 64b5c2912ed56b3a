(** * C04, C05: splitting of one- and two-dimensional iteration spaces *)
From Coq Require Import Arith List.
From Verif Require Import Cuts_model Cuts_spec Cuts_proofs.
Import ListNotations.

(** C04.  For every length, every strategy parameter and every number of
    threads (nonzero for Grain, which divides by it), the iterator terminates
    and visits every index of [0,n) exactly once and nothing else. *)
Theorem C04_split1d_exact : forall pa n t fuel,
  (pa = PGrain -> t <> 0) -> n <= fuel ->
  exists l, for1d pa n t fuel = Some l /\ covers_once1 n l.
Proof. exact for1d_ok. Qed.
Print Assumptions C04_split1d_exact.

Example C04_case : for1d PThreads 11 4 11 = Some [(0, 3); (3, 6); (6, 9); (9, 11)].
Proof. reflexivity. Qed.
Example C04_case_grain : for1d PGrain 11 4 11 = Some [(0, 6); (6, 11)].
Proof. reflexivity. Qed.
(** With fewer indices than threads there are as many blocks as indices. *)
Example C04_case_few : for1d PThreads 3 8 3 = Some [(0, 1); (1, 2); (2, 3)].
Proof. reflexivity. Qed.

(** The Grain strategy with zero threads divides by zero. *)
Theorem C04_grain_zero_undefined : forall n fuel, for1d PGrain n 0 fuel = None.
Proof. reflexivity. Qed.
Print Assumptions C04_grain_zero_undefined.

(** C05, as stated, is false: with the Fixed strategy (block 256) a 600 x 1
    rectangle is split in such a way that row 599 is never visited; likewise
    Grain 300 on 1000 rows. *)
Theorem C05_split2d_fixed_refuted : exists c pa m n t fuel l,
  t <> 0 /\ m * n <= fuel /\ for2d c pa m n t fuel = Some l /\ visits2 599 0 l = 0 /\ 599 < m /\ 0 < n.
Proof.
  exists CRow, PFixed, 600, 1, 4, 600. eexists. repeat apply conj; try (vm_compute; reflexivity).
  all: first [discriminate | apply Nat.leb_le; reflexivity].
Qed.
Print Assumptions C05_split2d_fixed_refuted.

Theorem C05_split2d_grain_refuted : exists m n t fuel l,
  t <> 0 /\ m * n <= fuel /\ for2d CBlock PGrain m n t fuel = Some l /\ visits2 9 0 l = 0 /\ 9 < m /\ 0 < n.
Proof.
  exists 10, 10, 6, 100. eexists. repeat apply conj; try (vm_compute; reflexivity).
  all: first [discriminate | apply Nat.leb_le; reflexivity].
Qed.
Print Assumptions C05_split2d_grain_refuted.

(** C05 for the Threads strategies (the default): every cell exactly once.
    Missing from the full statement: Fixed and Grain (refuted above). *)
Theorem C05_split2d_threads_partial : forall c m n t fuel,
  t <> 0 -> m * n <= fuel ->
  exists l, for2d c PThreads m n t fuel = Some l /\ covers_once2 m n l.
Proof. exact for2d_threads_ok. Qed.
Print Assumptions C05_split2d_threads_partial.

(** C05, every strategy: no cell is visited twice and none outside. *)
Theorem C05_split2d_disjoint : forall c pa m n t fuel,
  t <> 0 -> m * n <= fuel ->
  exists l, for2d c pa m n t fuel = Some l /\ inside_disjoint2 m n l.
Proof. exact for2d_safe. Qed.
Print Assumptions C05_split2d_disjoint.

(** C05, every strategy: exact coverage characterised by the block sizes. *)
Theorem C05_split2d_exact_iff : forall c pa m n t fuel rb cb,
  t <> 0 -> m * n <= fuel -> 0 < m -> 0 < n ->
  block_sizes c pa m n t = Some (rb, cb) ->
  (exists l, for2d c pa m n t fuel = Some l /\ covers_once2 m n l) <->
  (m mod rb <= m / rb /\ n mod cb <= n / cb).
Proof. exact for2d_exact_iff. Qed.
Print Assumptions C05_split2d_exact_iff.

Example C05_case : for2d CBlock PThreads 5 7 4 35 =
  Some [(0, 3, 0, 4); (0, 3, 4, 7); (3, 5, 0, 4); (3, 5, 4, 7)].
Proof. reflexivity. Qed.
