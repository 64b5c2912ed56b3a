(** * Sequentially semi-separable matrices: statements over the program, examples and witnesses *)
From mathcomp Require Import all_ssreflect all_algebra zify.
From Verif Require Import Grid Lit Perm_model Perm_spec Tri_model Sss_model Sss_spec Sss_prod Sss_dense Sssgen_model Sssgen_thm Sssgen_conv.
Set Implicit Arguments.
Unset Strict Implicit.
Unset Printing Implicit Defensive.
Import GRing.Theory.
Local Open Scope ring_scope.

Section Api.
Variable F : fieldType.
Implicit Types P Q R U V W D A B C : grid F.

Lemma product_api N t s (alpha beta : F) P Q R U V W D B C T1 T2 : (0 < s)%N -> (s <= N)%N ->
  exists C', productSSSxTS N t s alpha P Q R U V W D B beta C T1 T2 = Some C' /\
  forall x c, C' x c = if (x < N)%N && (c < t)%N then alpha * (\sum_(j < N) sss_entry s P Q R U V W D x j * B j c) + beta * C x c else C x c.
Proof. by move=> s0 sN; exact: productE. Qed.

Lemma dense_api N s P Q R U V W D A T1 T2 : (0 < s)%N -> (0 < N)%N ->
  exists A', SSSToDense N s P Q R U V W D A T1 T2 = Some A' /\
  forall x j, A' x j = if (x < N)%N && (j < N)%N then sss_entry s P Q R U V W D x j else A x j.
Proof. by move=> s0 N0; exact: denseE. Qed.

Lemma gen_api bk thr N s A g T T' : (0 < bk)%N -> (0 < s)%N ->
  (exists g', DenseToSSS bk thr N s g A T T' = Some g') <-> hankel_le s N A.
Proof.
move=> bk0 s0; split=> [[g' E]|h]; first exact: DenseToSSS_some E.
by have [g' [E _]] := DenseToSSS_entry thr bk0 s0 g T T' h; exists g'.
Qed.

Lemma entry_api bk thr N s A g T T' g' : (0 < bk)%N -> (0 < s)%N -> DenseToSSS bk thr N s g A T T' = Some g' ->
  forall x j, (x < N)%N -> (j < N)%N -> sss_entry s (gP g') (gQ g') (gR g') (gU g') (gV g') (gW g') (gD g') x j = A x j.
Proof.
move=> bk0 s0 E; have h := DenseToSSS_some bk0 s0 E.
by have [g1 [E1]] := DenseToSSS_entry thr bk0 s0 g T T' h; move: E1; rewrite E => -[<-].
Qed.

Lemma round_api bk thr N s A g T T' g' A0 T1 T2 : (0 < bk)%N -> (0 < s)%N -> (0 < N)%N ->
  DenseToSSS bk thr N s g A T T' = Some g' ->
  exists A', SSSToDense N s (gP g') (gQ g') (gR g') (gU g') (gV g') (gW g') (gD g') A0 T1 T2 = Some A' /\
    forall x j, A' x j = if (x < N)%N && (j < N)%N then A x j else A0 x j.
Proof.
move=> bk0 s0 N0 E; have h := DenseToSSS_some bk0 s0 E.
have [g1 [A' [E1 E2 hA]]] := DenseToSSS_dense thr bk0 s0 g T T' A0 T1 T2 N0 h.
by move: E1; rewrite E => -[e]; exists A'; rewrite e.
Qed.

Lemma prod_api bk thr N s A g T T' g' t alpha B beta C T1 T2 : (0 < bk)%N -> (0 < s)%N -> (s <= N)%N ->
  DenseToSSS bk thr N s g A T T' = Some g' ->
  exists C', productSSSxTS N t s alpha (gP g') (gQ g') (gR g') (gU g') (gV g') (gW g') (gD g') B beta C T1 T2 = Some C' /\
    forall x c, C' x c = if (x < N)%N && (c < t)%N then alpha * (\sum_(j < N) A x j * B j c) + beta * C x c else C x c.
Proof.
move=> bk0 s0 sN E; have h := DenseToSSS_some bk0 s0 E.
have [g1 [C' [E1 E2 hC]]] := DenseToSSS_product thr bk0 s0 g T T' t alpha B beta C T1 T2 sN h.
by move: E1; rewrite E => -[e]; exists C'; rewrite e.
Qed.

End Api.

Definition z7 : grid 'F_7 := fun _ _ => 0.
Definition one7 : grid 'F_7 := fun _ _ => 1.
Definition bad7 : grid 'F_7 := fun i j => (3 * i + j + 1)%:R.
Definition gbad : sss_gen [fieldType of 'F_7] := SssGen bad7 bad7 bad7 bad7 bad7 bad7 bad7.

(** Five blocks of order 2, the last one of one line; here some off-diagonal
    blocks have rank 3. *)
Definition A9s : grid 'F_7 := fun i j =>
  if (i < j)%N then ((i + 1) * (j + 2) + i * i * j * j * j + 1)%:R
  else if (j < i)%N then (2 * (i + 3) * j * j + (j + 1) * i * i + 5 * i)%:R else (i * i + 3)%:R.
(** Blocks of rank at most 2. *)
Definition A9 : grid 'F_7 := fun i j =>
  if (i < j)%N then ((i + 1) * (j + 2) + i * i * j * j * j)%:R
  else if (j < i)%N then (2 * (i + 3) * j * j + (j + 1) * i * i)%:R else (i * i + 3)%:R.

Definition B9 : grid 'F_7 := fun i j => (i * (j + 1) + 2)%:R.

(** The round trip and the product agree with the dense matrix; with blocks of
    rank 3 the function runs out of Temp. *)
Example ex_sss :
  let g := DenseToSSS 32 8 9 2 gbad A9 z7 z7 in
  let h := odflt gbad g in
  [/\ isSome g,
      omap (out 9 9) (SSSToDense 9 2 (gP h) (gQ h) (gR h) (gU h) (gV h) (gW h) (gD h) bad7 bad7 bad7) = Some (out 9 9 A9),
      omap (out 9 3) (productSSSxTS 9 3 2 3%:R (gP h) (gQ h) (gR h) (gU h) (gV h) (gW h) (gD h) B9 2%:R bad7 bad7 bad7)
        = Some (out 9 3 (fgemm NoTrans NoTrans 9 3 9 3%:R A9 B9 2%:R bad7)) &
      isSome (DenseToSSS 32 8 9 2 gbad A9s z7 z7) = false].
Proof. by split; vm_compute. Qed.

Lemma small_witness : exists N t s (P Q R U V W D B C T1 T2 : grid 'F_7),
  (0 < N)%N /\ (0 < s)%N /\ productSSSxTS N t s 1 P Q R U V W D B 1 C T1 T2 = None.
Proof. by exists 1%N, 1%N, 2%N, z7, z7, z7, z7, z7, z7, one7, one7, z7, z7, z7; split. Qed.

Lemma empty_witness : exists t s (P Q R U V W D B C T1 T2 A : grid 'F_7),
  (0 < s)%N /\ productSSSxTS 0 t s 1 P Q R U V W D B 1 C T1 T2 = None /\ SSSToDense 0 s P Q R U V W D A T1 T2 = None.
Proof. by exists 1%N, 2%N, z7, z7, z7, z7, z7, z7, one7, one7, z7, z7, z7, z7; split. Qed.
