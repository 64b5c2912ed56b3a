(** * Entries of the matrices returned by the accessors, continued *)
From mathcomp Require Import all_ssreflect all_algebra zify.
From Verif Require Import Grid Perm_model Perm_spec Perm_proofs Tri_model Tri_spec Tri_proofs.
From Verif Require Import Pluq_model Pluq_spec Pluq_proofs Pluq_rank Api_model Api_proofs Ludiv_model Ludiv_spec Ludiv_proofs Ech_model Ech_spec Ech_proofs Ech_steps Ech_acc.
Set Implicit Arguments.
Unset Strict Implicit.
Unset Printing Implicit Defensive.
Import GRing.Theory.
Local Open Scope ring_scope.

Section Acc.
Variable F : fieldType.
Implicit Types A B X Y T E V : grid F.
Variable bk : nat.
Hypothesis bk0 : (0 < bk)%N.

(** Order in which the rows (columns) are returned, and the permutation of the
    other side. *)
Definition tau (tag : lutag) (N R : nat) (Q : nat -> nat) : nat -> nat :=
  match tag with Tile | GJTile => epi N R Q | _ => id end.
Definition perm_of (tag : lutag) (N R : nat) (Q : nat -> nat) : nat -> nat :=
  match tag with Tile | GJTile => sigma Q 0 N | _ => sigma Q 0 R end.

(** ** Echelon forms *)

Lemma echU_tile M N R Q X T (only : bool) i l : (R <= M)%N -> (R <= N)%N -> (forall k, (k < N)%N -> (Q k < N)%N) ->
  (i < if only then R else M)%N -> (l < N)%N ->
  getEchelonForm bk Upper Unit M N R Q X T only Tile i (sigma Q 0 N l) = if (i < R)%N then Up Unit X (epi N R Q i) l else 0.
Proof.
move=> RM RN hQ iM lN; have [h1 h2 _ _] := epi_ok RN hQ; rewrite /getEchelonForm.
rewrite pL_NoTrans //; last by apply: sigma_lt.
have e : (epi N R Q i < if only then R else M)%N.
  by case: (ltnP i R) => iR; [have := h1 i iR; case: (only); lia | rewrite h2].
rewrite -/(epi N R Q) pR_NoTrans // getTriangularU //.
by case: (ltnP i R) => iR; [rewrite h1 | rewrite h2 // ltnNge iR].
Qed.

Lemma echU_slab M N R Q X T (only : bool) i c : (R <= M)%N -> (forall k, (k < R)%N -> (Q k < N)%N) ->
  (i < if only then R else M)%N -> (c < N)%N ->
  getEchelonForm bk Upper Unit M N R Q X T only Slab i c = if (i < R)%N then CL NonUnit (tr X) Q c i else 0.
Proof.
move=> RM hQ iM cN; rewrite /getEchelonForm; set T1 := iteri R _ T.
have T1E a b : (b < N)%N -> T1 a b = if (a < R)%N then CL NonUnit (tr X) Q b a else T a b.
  move=> bN; rewrite /T1 (iter_rows (g := fun a b v => if (b < N)%N then CL NonUnit (tr X) Q b a else v)) => [|j S p q jR].
    by rewrite bN.
  have := hQ j jR; rewrite at_cE /upd at_zE /CL /tr => Qj; have [->|ne] := eqVneq p j; last by rewrite !ifF //; lia.
  by case: (ltngtP q (Q j)) => qi; do ! [case: ifP => //]; lia.
case: only iM => /= iM; first by rewrite T1E // iM.
by rewrite at_zE T1E //; case: (ltnP i R) => iR //=; rewrite ifT //; lia.
Qed.

Lemma echL_tile M N R P X T (only : bool) i l : (R <= M)%N -> (R <= N)%N -> (forall k, (k < M)%N -> (P k < M)%N) ->
  (i < if only then R else N)%N -> (l < M)%N ->
  getEchelonForm bk Lower Unit M N R P X T only Tile (sigma P 0 M l) i = if (i < R)%N then Up Unit (tr X) (epi M R P i) l else 0.
Proof.
move=> RM RN hP iN lM; have [h1 h2 _ _] := epi_ok RM hP; rewrite /getEchelonForm.
rewrite pR_Trans //; last by apply: sigma_lt.
have e : (epi M R P i < if only then R else N)%N.
  by case: (ltnP i R) => iR; [have := h1 i iR; case: (only); lia | rewrite h2].
rewrite -/(epi M R P) pL_Trans // getTriangularL //.
by case: (ltnP i R) => iR; [rewrite h1 | rewrite h2 // ltnNge iR].
Qed.

Lemma echL_slab M N R P X T (only : bool) i c : (R <= N)%N -> (forall k, (k < R)%N -> (P k < M)%N) ->
  (i < if only then R else N)%N -> (c < M)%N ->
  getEchelonForm bk Lower Unit M N R P X T only Slab c i = if (i < R)%N then CL NonUnit X P c i else 0.
Proof.
move=> RM hQ iM cN; rewrite /getEchelonForm; set T1 := iteri R _ T.
have T1E a b : (a < M)%N -> T1 a b = if (b < R)%N then CL NonUnit X P a b else T a b.
  move=> bN; rewrite /T1 (iter_cols (g := fun a b v => if (b < M)%N then CL NonUnit X P b a else v)) => [|j S p q jR].
    by rewrite bN.
  have := hQ j jR; rewrite at_cE /upd at_zE /CL => Qj; have [->|ne] := eqVneq q j; last by rewrite !ifF //; lia.
  by case: (ltngtP p (P j)) => qi; do ! [case: ifP => //]; lia.
case: only iM => /= iM; first by rewrite T1E // iM.
by rewrite at_zE T1E //; case: (ltnP i R) => iR /=; rewrite ?andbF // ifT //; lia.
Qed.

(** In place. *)
Lemma echU_tile_in M N R Q X i l : (R <= M)%N -> (R <= N)%N -> (forall k, (k < N)%N -> (Q k < N)%N) ->
  (i < M)%N -> (l < N)%N ->
  getEchelonForm_in bk Upper Unit M N R Q X Tile i (sigma Q 0 N l) = if (i < R)%N then Up Unit X (epi N R Q i) l else 0.
Proof.
move=> RM RN hQ iM lN; have [h1 h2 _ _] := epi_ok RN hQ; rewrite /getEchelonForm_in.
rewrite pL_NoTrans //; last by apply: sigma_lt.
have e : (epi N R Q i < M)%N by apply: (epi_perm RN hQ RM).1.
rewrite -/(epi N R Q) pR_NoTrans // getTriangularU_in //.
by case: (ltnP i R) => iR; [rewrite h1 | rewrite h2 // ltnNge iR].
Qed.

Lemma echU_slab_in M N R Q X i c : (R <= M)%N -> (forall k, (k < R)%N -> (Q k < N)%N) ->
  (i < M)%N -> (c < N)%N ->
  getEchelonForm_in bk Upper Unit M N R Q X Slab i c = if (i < R)%N then CL NonUnit (tr X) Q c i else 0.
Proof.
move=> RM hQ iM cN; rewrite /getEchelonForm_in at_zE.
rewrite (iter_rows (g := fun a b v => if (b < Q a)%N then 0 else if b == Q a then 1 else v)) => [|j S p q jR]; last first.
  rewrite /upd at_zE; have [->|ne] := eqVneq p j; last by rewrite !ifF //; lia.
  by case: (ltngtP q (Q j)) => qi; do ! [case: ifP => //]; lia.
case: (ltnP i R) => iR /=; last by rewrite ifT //; lia.
by rewrite /CL /tr; case: ltngtP.
Qed.

Lemma echL_tile_in M N R P X i l : (R <= M)%N -> (R <= N)%N -> (forall k, (k < M)%N -> (P k < M)%N) ->
  (i < N)%N -> (l < M)%N ->
  getEchelonForm_in bk Lower Unit M N R P X Tile (sigma P 0 M l) i = if (i < R)%N then Up Unit (tr X) (epi M R P i) l else 0.
Proof.
move=> RM RN hP iN lM; have [h1 h2 _ _] := epi_ok RM hP; rewrite /getEchelonForm_in.
rewrite pR_Trans //; last by apply: sigma_lt.
have e : (epi M R P i < N)%N by apply: (epi_perm RM hP RN).1.
rewrite -/(epi M R P) pL_Trans // getTriangularL_in //.
by case: (ltnP i R) => iR; [rewrite h1 | rewrite h2 // ltnNge iR].
Qed.

Lemma echL_slab_in M N R P X i c : (R <= N)%N -> (forall k, (k < R)%N -> (P k < M)%N) ->
  (i < N)%N -> (c < M)%N ->
  getEchelonForm_in bk Lower Unit M N R P X Slab c i = if (i < R)%N then CL NonUnit X P c i else 0.
Proof.
move=> RM hQ iM cN; rewrite /getEchelonForm_in at_zE.
rewrite (iter_cols (g := fun a b v => if (b < P a)%N then 0 else if b == P a then 1 else v)) => [|j S p q jR]; last first.
  rewrite /upd at_zE; have [->|ne] := eqVneq q j; last by rewrite !ifF //; lia.
  by rewrite andbT leqnn addn1 ltnSn !andbT add0n /=; case: (ltngtP p (P j)).
case: (ltnP i R) => iR /=; rewrite ?andbF //; last by rewrite ifT //; lia.
by rewrite /CL; case: ltngtP.
Qed.

(** ** Transformations *)

(** With the slab factorisation only the first R cells of an array are set. *)
Definition bnd (tag : lutag) (N R : nat) (Q : nat -> nat) : Prop :=
  forall k, (k < if tag is Slab then R else N)%N -> (Q k < N)%N.
Lemma bnd_full tag N R Q : tag <> Slab -> bnd tag N R Q -> forall k, (k < N)%N -> (Q k < N)%N.
Proof. by move=> nt h k kN; apply: h; case: (tag) nt. Qed.
Lemma bnd_R tag N R Q : (R <= N)%N -> bnd tag N R Q -> forall k, (k < R)%N -> (Q k < N)%N.
Proof. by move=> RN h k kR; apply: h; case: (tag) => //; lia. Qed.


Lemma tauM tag N R Q M i : (R <= N)%N -> (R <= M)%N -> bnd tag N R Q -> (i < M)%N -> (tau tag N R Q i < M)%N.
Proof. by move=> RN RM; rewrite /tau; case: tag => // hQ iM; apply: (epi_perm RN (bnd_full _ hQ) RM).1. Qed.

Lemma trsU tag M N R P Q X T i j : (R <= M)%N -> (R <= N)%N -> bnd tag N R Q ->
  bnd tag M R P -> tag = Slab \/ tag = Tile ->
  (i < M)%N -> (j < M)%N ->
  getEchelonTransform bk Upper Unit M N R P Q X T tag i (perm_of tag M R P j) = Tm R (Lo Unit X) (tau tag N R Q i) j.
Proof.
move=> RM RN hQ hP tg iM jM; have tM := tauM RN RM hQ iM.
set G := getTriangular Lower NonUnit M N R X T true; set T2 := at_ R R (fidentity (M - R) (M - R)) G.
have TE a b : (a < M)%N -> (b < M)%N -> at_ 0 R (fzero R (M - R)) T2 a b = Tm R (Lo Unit X) a b.
  move=> aM bM; rewrite at_zE /T2 at_iE /Tm !subnKC // bM !add0n /=; case: (ltnP b R) => bR /=.
    by rewrite !andbF /G getTriangularL ?bR.
  case: (ltnP a R) => aR /=; last by rewrite aM.
  by have -> : (a == b) = false by lia.
case: tg hP hQ tM => -> hP hQ tM; rewrite /getEchelonTransform /perm_of.
  by rewrite pR_NoTrans // TE.
rewrite pL_NoTrans //; last by apply: sigma_lt.
by rewrite -/(epi N R Q) pR_NoTrans // TE.
Qed.

Lemma trsL tag M N R P Q X T i j : (R <= M)%N -> (R <= N)%N -> bnd tag M R Q ->
  bnd tag N R P -> tag = Slab \/ tag = Tile ->
  (i < N)%N -> (j < N)%N ->
  getEchelonTransform bk Lower Unit M N R P Q X T tag (perm_of tag N R P j) i = Tm R (Lo Unit (tr X)) (tau tag M R Q i) j.
Proof.
move=> RM RN hQ hP tg iM jM; have tM := tauM RM RN hQ iM.
set G := getTriangular Upper NonUnit M N R X T true; set T2 := at_ R R (fidentity (N - R) (N - R)) G.
have TE a b : (a < N)%N -> (b < N)%N -> at_ R 0 (fzero (N - R) R) T2 b a = Tm R (Lo Unit (tr X)) a b.
  move=> aM bM; rewrite at_zE /T2 at_iE /Tm !subnKC // aM bM !add0n /=; case: (ltnP b R) => bR /=.
    rewrite /G getTriangularU ?bR //.
    by rewrite /Lo /Up /tr; case: ltngtP => // ->.
  case: (ltnP a R) => aR /=; last by rewrite eq_sym.
  by have -> : (a == b) = false by lia.
case: tg hP hQ tM => -> hP hQ tM; rewrite /getEchelonTransform /perm_of.
  by rewrite pL_Trans // TE.
rewrite pR_Trans //; last by apply: sigma_lt.
by rewrite -/(epi M R Q) pL_Trans // TE.
Qed.

(** ** Reduced forms *)

Definition rperm (tag : lutag) (N R : nat) (Q : nat -> nat) : nat -> nat :=
  if tag is Slab then sigma Q 0 R else sigma Q 0 N.

Lemma rperm_lt tag N R Q l : (R <= N)%N -> bnd tag N R Q -> (l < N)%N -> (rperm tag N R Q l < N)%N.
Proof.
move=> RN hQ lN; rewrite /rperm; case: tag hQ => hQ; apply: sigma_lt => //; by move=> k /andP[_ kR]; apply: hQ.
Qed.

Lemma redU tag M N R Q X T (only : bool) i l : (R <= M)%N -> (R <= N)%N -> bnd tag N R Q ->
  (i < if only then R else M)%N -> (l < N)%N ->
  getReducedEchelonForm bk Upper M N R Q X T only tag i (rperm tag N R Q l) = if (i < R)%N then Er R X (tau tag N R Q i) l else 0.
Proof.
move=> RM RN hQ iM lN; rewrite /getReducedEchelonForm.
set mp := if tag is Slab then R else N.
have rE : rperm tag N R Q = sigma Q 0 mp by rewrite /rperm /mp; case: (tag).
set T1 := applyP _ _ _ _ _ mp _ _.
have T1E a b : (a < R)%N -> (b < N)%N -> T1 a (rperm tag N R Q b) = Er R X a b.
  move=> aR bN; rewrite /T1 rE pR_NoTrans // at_cE fidentityE /Er aR.
  by rewrite subnKC // bN /=; case: (ltnP b R).
set T2 := if only then T1 else _.
have T2E a b : (a < if only then R else M)%N -> (b < N)%N -> T2 a (rperm tag N R Q b) = if (a < R)%N then Er R X a b else 0.
  move=> aM bN; have rN := rperm_lt RN hQ bN; rewrite /T2; case: (only) aM => /= aM.
    by rewrite T1E // aM.
  by rewrite at_zE; case: (ltnP a R) => aR /=; [rewrite T1E | rewrite ifT //; lia].
have fin : tag <> Slab -> applyP bk SLeft NoTrans N 0 R (PLUQtoEchelonPermutation N R Q id) T2 i (rperm tag N R Q l) =
   if (i < R)%N then Er R X (epi N R Q i) l else 0.
  move=> /bnd_full /(_ hQ) fQ; have [h1 h2 _ _] := epi_ok RN fQ.
  rewrite pL_NoTrans //; last exact: rperm_lt.
  rewrite -/(epi N R Q) T2E //.
    by case: (ltnP i R) => iR; [rewrite h1 | rewrite h2 // ltnNge iR].
  by case: (ltnP i R) => iR; [have := h1 i iR; case: (only); lia | rewrite h2].
by have := T2E i l iM lN; rewrite /tau; case: (tag) fin => // ->.
Qed.

Lemma redL tag M N R P X T (only : bool) i l : (R <= M)%N -> (R <= N)%N -> bnd tag M R P ->
  tag = Slab \/ tag = Tile ->
  (i < if only then R else N)%N -> (l < M)%N ->
  getReducedEchelonForm bk Lower M N R P X T only tag (rperm tag M R P l) i = if (i < R)%N then Er R (tr X) (tau tag M R P i) l else 0.
Proof.
move=> RM RN hQ tg iM lN; rewrite /getReducedEchelonForm.
set mp := if tag is Slab then R else M.
have rE : rperm tag M R P = sigma P 0 mp by rewrite /rperm /mp; case: (tag).
set T1 := applyP _ _ _ _ _ mp _ _.
have T1E a b : (a < R)%N -> (b < M)%N -> T1 (rperm tag M R P b) a = Er R (tr X) a b.
  move=> aR bN; rewrite /T1 rE pL_Trans // at_cE fidentityE /Er aR.
  by rewrite subnKC // bN /=; case: (ltnP b R) => //; rewrite eq_sym.
set T2 := if only then T1 else _.
have T2E a b : (a < if only then R else N)%N -> (b < M)%N -> T2 (rperm tag M R P b) a = if (a < R)%N then Er R (tr X) a b else 0.
  move=> aM bN; have rN := rperm_lt RM hQ bN; rewrite /T2; case: (only) aM => /= aM.
    by rewrite T1E // aM.
  by rewrite at_zE; case: (ltnP a R) => aR /=; [rewrite andbF T1E | rewrite ifT //; lia].
have fin : tag <> Slab -> applyP bk SRight Trans M 0 R (PLUQtoEchelonPermutation M R P id) T2 (rperm tag M R P l) i =
   if (i < R)%N then Er R (tr X) (epi M R P i) l else 0.
  move=> /bnd_full /(_ hQ) fQ; have [h1 h2 _ _] := epi_ok RM fQ.
  rewrite pR_Trans //; last exact: rperm_lt.
  rewrite -/(epi M R P) T2E //.
    by case: (ltnP i R) => iR; [rewrite h1 | rewrite h2 // ltnNge iR].
  by case: (ltnP i R) => iR; [have := h1 i iR; case: (only); lia | rewrite h2].
by have := T2E i l iM lN; rewrite /tau; case: tg fin => -> // ->.
Qed.

Lemma redU_in tag M N R Q X i l : (R <= M)%N -> (R <= N)%N -> bnd tag N R Q ->
  (i < M)%N -> (l < N)%N ->
  getReducedEchelonForm_in bk Upper M N R Q X tag i (rperm tag N R Q l) = if (i < R)%N then Er R X (tau tag N R Q i) l else 0.
Proof.
move=> RM RN hQ iM lN; rewrite /getReducedEchelonForm_in.
set mp := if tag is Slab then R else N.
have rE : rperm tag N R Q = sigma Q 0 mp by rewrite /rperm /mp; case: (tag).
set T1 := applyP _ _ _ _ _ mp _ _.
have T1E a b : (a < R)%N -> (b < N)%N -> T1 a (rperm tag N R Q b) = Er R X a b.
  by move=> aR bN; rewrite /T1 rE pR_NoTrans // fidentityE /Er aR.
set T2 := at_ R 0 _ T1.
have T2E a b : (a < M)%N -> (b < N)%N -> T2 a (rperm tag N R Q b) = if (a < R)%N then Er R X a b else 0.
  move=> aM bN; have rN := rperm_lt RN hQ bN; rewrite /T2.
  by rewrite at_zE; case: (ltnP a R) => aR /=; [rewrite T1E | rewrite ifT //; lia].
have fin : tag <> Slab -> applyP bk SLeft NoTrans N 0 R (PLUQtoEchelonPermutation N R Q id) T2 i (rperm tag N R Q l) =
   if (i < R)%N then Er R X (epi N R Q i) l else 0.
  move=> /bnd_full /(_ hQ) fQ; have [h1 h2 _ _] := epi_ok RN fQ.
  rewrite pL_NoTrans //; last exact: rperm_lt.
  rewrite -/(epi N R Q) T2E //; last by apply: (epi_perm RN fQ RM).1.
  by case: (ltnP i R) => iR; [rewrite h1 | rewrite h2 // ltnNge iR].
by have := T2E i l iM lN; rewrite /tau; case: (tag) fin => // ->.
Qed.

Lemma redL_in tag M N R P X i l : (R <= M)%N -> (R <= N)%N -> bnd tag M R P ->
  tag = Slab \/ tag = Tile -> (i < N)%N -> (l < M)%N ->
  getReducedEchelonForm_in bk Lower M N R P X tag (rperm tag M R P l) i = if (i < R)%N then Er R (tr X) (tau tag M R P i) l else 0.
Proof.
move=> RM RN hQ tg iM lN; rewrite /getReducedEchelonForm_in.
set mp := if tag is Slab then R else M.
have rE : rperm tag M R P = sigma P 0 mp by rewrite /rperm /mp; case: (tag).
set T1 := applyP _ _ _ _ _ mp _ _.
have T1E a b : (a < R)%N -> (b < M)%N -> T1 (rperm tag M R P b) a = Er R (tr X) a b.
  by move=> aR bN; rewrite /T1 rE pL_Trans // fidentityE /Er aR andbT eq_sym.
set T2 := at_ 0 R _ T1.
have T2E a b : (a < N)%N -> (b < M)%N -> T2 (rperm tag M R P b) a = if (a < R)%N then Er R (tr X) a b else 0.
  move=> aM bN; have rN := rperm_lt RM hQ bN; rewrite /T2.
  by rewrite at_zE; case: (ltnP a R) => aR /=; [rewrite andbF T1E | rewrite ifT //; lia].
have fin : tag <> Slab -> applyP bk SRight Trans M 0 R (PLUQtoEchelonPermutation M R P id) T2 (rperm tag M R P l) i =
   if (i < R)%N then Er R (tr X) (epi M R P i) l else 0.
  move=> /bnd_full /(_ hQ) fQ; have [h1 h2 _ _] := epi_ok RM fQ.
  rewrite pR_Trans //; last exact: rperm_lt.
  rewrite -/(epi M R P) T2E //; last by apply: (epi_perm RM fQ RN).1.
  by case: (ltnP i R) => iR; [rewrite h1 | rewrite h2 // ltnNge iR].
by have := T2E i l iM lN; rewrite /tau; case: tg fin => -> // ->.
Qed.

(** ** Reduced transformations *)

Definition tperm (tag : lutag) (M R : nat) (P : nat -> nat) : nat -> nat :=
  match tag with Tile | GJTile => sigma P 0 M | _ => sigma P 0 R end.

Lemma rtrsU tag M N R P Q X T i j : (R <= M)%N -> (R <= N)%N -> bnd tag N R Q ->
  bnd tag M R P -> (i < M)%N -> (j < M)%N ->
  getReducedEchelonTransform bk Upper M N R P Q X T tag i (tperm tag M R P j) =
    Tm R X (if tag is Slab then i else epi N R Q i) j.
Proof.
move=> RM RN hQ hP iM jM.
have eM : tag <> Slab -> (epi N R Q i < M)%N by move=> /bnd_full /(_ hQ) fQ; apply: (epi_perm RN fQ RM).1.
rewrite /getReducedEchelonTransform; set T2 := fassign M R X _.
have TE a b : (a < M)%N -> (b < M)%N -> at_ 0 R (fzero R (M - R)) T2 a b = Tm R X a b.
  move=> aM bM; rewrite at_zE /T2 /fassign /fill at_iE /Tm !subnKC // aM bM !add0n /=; case: (ltnP b R) => bR /=.
    by rewrite !andbF.
  case: (ltnP a R) => aR //=.
  by have -> : (a == b) = false by lia.
set mp := match tag with Slab => R | _ => _ end.
have tE : tperm tag M R P = sigma P 0 mp by rewrite /tperm /mp; case: (tag).
have tN : (tperm tag M R P j < M)%N.
  have mM : (mp <= M)%N by rewrite /mp; case: (tag); lia.
  by rewrite tE; apply: sigma_lt => // k /andP[_ km]; apply: hP; move: km; rewrite /mp; case: (tag); lia.
have fin a : (a < M)%N -> applyP bk SRight NoTrans M 0 mp P (at_ 0 R (fzero R (M - R)) T2) a (tperm tag M R P j) = Tm R X a j.
  by move=> aM; rewrite tE pR_NoTrans // TE.
by case: (tag) fin tN eM => fin tN eM; rewrite ?pL_NoTrans // fin // eM.
Qed.

Lemma rtrsL tag M N R P Q X T i j : (R <= M)%N -> (R <= N)%N -> bnd tag M R Q ->
  bnd tag N R P -> tag = Slab \/ tag = Tile -> (i < N)%N -> (j < N)%N ->
  getReducedEchelonTransform bk Lower M N R P Q X T tag (tperm tag N R P j) i = Tm R (tr X) (tau tag M R Q i) j.
Proof.
move=> RM RN hQ hP tg iM jM; have eM := tauM RM RN hQ iM.
rewrite /getReducedEchelonTransform; set T2 := fassign R N X _.
have TE a b : (a < N)%N -> (b < N)%N -> at_ R 0 (fzero (N - R) R) T2 b a = Tm R (tr X) a b.
  move=> aM bM; rewrite at_zE /T2 /fassign /fill at_iE /Tm !subnKC // aM bM !add0n /=; case: (ltnP b R) => bR //=.
  case: (ltnP a R) => aR /=; last by rewrite eq_sym.
  by have -> : (a == b) = false by lia.
set mp := match tag with Slab => R | _ => _ end.
have tE : tperm tag N R P = sigma P 0 mp by rewrite /tperm /mp; case: (tag).
have tN : (tperm tag N R P j < N)%N.
  have mM : (mp <= N)%N by rewrite /mp; case: (tag); lia.
  by rewrite tE; apply: sigma_lt => // k /andP[_ km]; apply: hP; move: km; rewrite /mp; case: (tag); lia.
have fin a : (a < N)%N -> applyP bk SLeft Trans N 0 mp P (at_ R 0 (fzero (N - R) R) T2) (tperm tag N R P j) a = Tm R (tr X) a j.
  by move=> aM; rewrite tE pL_Trans // TE.
by case: tg fin tN eM => -> fin tN eM; rewrite ?pR_Trans // fin.
Qed.

End Acc.
