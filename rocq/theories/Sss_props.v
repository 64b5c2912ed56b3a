(** * C68, C69: sequentially semi-separable matrices *)
From mathcomp Require Import all_ssreflect all_algebra.
From Verif Require Import Grid Perm_spec Sss_model Sss_spec Sssgen_model Sss_ex.
Set Implicit Arguments.
Unset Strict Implicit.
Unset Printing Implicit Defensive.
Import GRing.Theory.
Local Open Scope ring_scope.

(** C68. productSSSxTS computes alpha A B + beta C for the matrix A that the
    generator stands for, in the N x t window of C and nowhere else, whatever
    the scratch arrays held. *)
Theorem C68_productSSSxTS_partial : forall (F : fieldType) N t s (alpha beta : F) (P Q R U V W D B C T1 T2 : grid F),
  (0 < s)%N -> (s <= N)%N ->
  exists C', productSSSxTS N t s alpha P Q R U V W D B beta C T1 T2 = Some C' /\
  forall x c, C' x c = if (x < N)%N && (c < t)%N
    then alpha * (\sum_(j < N) sss_entry s P Q R U V W D x j * B j c) + beta * C x c else C x c.
Proof. exact product_api. Qed.
Print Assumptions C68_productSSSxTS_partial.

(** SSSToDense writes that matrix, in its N x N window. *)
Theorem C68_SSSToDense : forall (F : fieldType) N s (P Q R U V W D A T1 T2 : grid F), (0 < s)%N -> (0 < N)%N ->
  exists A', SSSToDense N s P Q R U V W D A T1 T2 = Some A' /\
  forall x j, A' x j = if (x < N)%N && (j < N)%N then sss_entry s P Q R U V W D x j else A x j.
Proof. exact dense_api. Qed.
Print Assumptions C68_SSSToDense.

(** A matrix smaller than the block size: the product reads before the start of V. *)
Theorem C68_small_refuted : exists N t s (P Q R U V W D B C T1 T2 : grid 'F_7),
  (0 < N)%N /\ (0 < s)%N /\ productSSSxTS N t s 1 P Q R U V W D B 1 C T1 T2 = None.
Proof. exact small_witness. Qed.
Print Assumptions C68_small_refuted.

(** The empty matrix: both functions leave their arrays. *)
Theorem C68_empty_refuted : exists t s (P Q R U V W D B C T1 T2 A : grid 'F_7),
  (0 < s)%N /\ productSSSxTS 0 t s 1 P Q R U V W D B 1 C T1 T2 = None /\ SSSToDense 0 s P Q R U V W D A T1 T2 = None.
Proof. exact empty_witness. Qed.
Print Assumptions C68_empty_refuted.

(** C69. DenseToSSS stays inside of its scratch blocks exactly when every
    off-diagonal block cut at a multiple of s has rank at most s ... *)
Theorem C69_DenseToSSS_defined : forall (F : fieldType) bk thr N s (A : grid F) g T T', (0 < bk)%N -> (0 < s)%N ->
  (exists g', DenseToSSS bk thr N s g A T T' = Some g') <-> hankel_le s N A.
Proof. exact gen_api. Qed.
Print Assumptions C69_DenseToSSS_defined.

(** ... and then its generator stands for A ... *)
Theorem C69_DenseToSSS_entry : forall (F : fieldType) bk thr N s (A : grid F) g T T' g', (0 < bk)%N -> (0 < s)%N ->
  DenseToSSS bk thr N s g A T T' = Some g' -> forall x j, (x < N)%N -> (j < N)%N ->
  sss_entry s (gP g') (gQ g') (gR g') (gU g') (gV g') (gW g') (gD g') x j = A x j.
Proof. exact entry_api. Qed.
Print Assumptions C69_DenseToSSS_entry.

(** ... so that SSSToDense gives A back ... *)
Theorem C69_roundtrip : forall (F : fieldType) bk thr N s (A : grid F) g T T' g' A0 T1 T2, (0 < bk)%N -> (0 < s)%N -> (0 < N)%N ->
  DenseToSSS bk thr N s g A T T' = Some g' ->
  exists A', SSSToDense N s (gP g') (gQ g') (gR g') (gU g') (gV g') (gW g') (gD g') A0 T1 T2 = Some A' /\
    forall x j, A' x j = if (x < N)%N && (j < N)%N then A x j else A0 x j.
Proof. exact round_api. Qed.
Print Assumptions C69_roundtrip.

(** ... and productSSSxTS multiplies by A. *)
Theorem C69_product : forall (F : fieldType) bk thr N s (A : grid F) g T T' g' t alpha B beta C T1 T2,
  (0 < bk)%N -> (0 < s)%N -> (s <= N)%N -> DenseToSSS bk thr N s g A T T' = Some g' ->
  exists C', productSSSxTS N t s alpha (gP g') (gQ g') (gR g') (gU g') (gV g') (gW g') (gD g') B beta C T1 T2 = Some C' /\
    forall x c, C' x c = if (x < N)%N && (c < t)%N then alpha * (\sum_(j < N) A x j * B j c) + beta * C x c else C x c.
Proof. exact prod_api. Qed.
Print Assumptions C69_product.
