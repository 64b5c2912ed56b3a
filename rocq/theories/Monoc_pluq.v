(** * The lists of PLUQ are increasing after the rank *)
From mathcomp Require Import all_ssreflect all_algebra zify.
From Verif Require Import Grid Perm_model Perm_spec Perm_proofs Tri_model Pluq_model Pluq_spec Pluq_api_proofs.
From Verif Require Import Mono_model Mono_spec Mono_proofs Monoc_model Monoc_proofs.
Set Implicit Arguments.
Unset Strict Implicit.
Unset Printing Implicit Defensive.

Lemma pluq_mono (F : fieldType) bk d thr M N (A : grid F) : 0 < bk ->
  let: Pluq X P Q R := PLUQ bk d thr M N A in
  forall (T : Type) bk' sd t K (B : grid T), 0 < bk' ->
  (exists2 C, MonotonicApplyP bk' sd t K 0 M P R B = Some C & forall i j, C i j = applyP bk sd t K 0 M P B i j) /\
  (exists2 C, MonotonicApplyP bk' sd t K 0 N Q R B = Some C & forall i j, C i j = applyP bk sd t K 0 N Q B i j) /\
  forall v,
  (exists2 C, MonotonicApplyP_v v bk' sd t K 0 M P R B = Some C & forall i j, C i j = applyP bk sd t K 0 M P B i j) /\
  (exists2 C, MonotonicApplyP_v v bk' sd t K 0 N Q R B = Some C & forall i j, C i j = applyP bk sd t K 0 N Q B i j).
Proof.
move=> bk0; have := @PLUQ_factors F bk d thr M N A bk0; have := @PLUQ_ordered F bk d thr M N A bk0.
case: PLUQ => X P Q R [_ _ oP oQ] [lP lQ _ [_ [RM RN] _ _ _] _] T bk' sd t K B b0.
have bP i : i < M -> P i < M by move=> /lP; lia.
have bQ i : i < N -> Q i < N by move=> /lQ; lia.
have iP i j : R <= i -> i < j -> j < M -> sigma P 0 M i < sigma P 0 M j by move=> h1 h2; apply: oP; rewrite h1.
have iQ i j : R <= i -> i < j -> j < N -> sigma Q 0 N i < sigma Q 0 N j by move=> h1 h2; apply: oQ; rewrite h1.
split; first exact: Monotonic_applyP.
split; first exact: Monotonic_applyP.
by move=> v; split; exact: Monotonic_v_applyP.
Qed.
