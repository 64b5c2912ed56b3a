(** * PLUQ: statements in spec form *)
From mathcomp Require Import all_ssreflect all_algebra.
From Verif Require Import Grid Perm_model Perm_spec Tri_model Tri_spec.
From Verif Require Import Pluq_model Pluq_spec Pluq_combine Pluq_crout Pluq_main Pluq_rank.
Set Implicit Arguments.
Unset Strict Implicit.
Unset Printing Implicit Defensive.
Import GRing.Theory.
Local Open Scope ring_scope.

Section Api.
Variable F : fieldType.
Implicit Type A : grid F.

Lemma ok_factors d M N A r : pluq_ok d M N A r ->
  let: Pluq X P Q R := r in
  [/\ is_lapack M P, is_lapack N Q, frame M N X A,
      factors d M N A X (sigma P 0 M) (sigma Q 0 N) R &
      mx M N A = (Pmx F M P 0 M)^T *m Lmx d M R X *m Umx d R N X *m Pmx F N Q 0 N].
Proof.
case: r => X P Q R [/= lP lQ fr /fac_spec [fa _]]; split=> //.
exact: factors_mx.
Qed.

Lemma ok_rank d M N A r : pluq_ok d M N A r -> resR r = \rank (mx M N A).
Proof. by case: r => X P Q R [/= lP lQ fr /fac_spec [fa _]]; rewrite (factors_rank fa). Qed.

Lemma ok_lead d M N A r i j : pluq_ok d M N A r -> (i <= M)%N -> (j <= N)%N ->
  let: Pluq X P Q R := r in \rank (mx i j A) = npiv (sigma P 0 M) (sigma Q 0 N) R i j.
Proof. by case: r => X P Q R [/= lP lQ fr /fac_spec [fa fo]] iM jN; exact: (lead_rank fa fo). Qed.

Lemma ok_ordered d M N A r : pluq_ok d M N A r ->
  let: Pluq X P Q R := r in ordered d M N X (sigma P 0 M) (sigma Q 0 N) R.
Proof. by case: r => X P Q R [/= lP lQ fr /fac_spec [fa fo]]. Qed.

Lemma PLUQ_factors bk d thr M N A : (0 < bk)%N ->
  let: Pluq X P Q R := PLUQ bk d thr M N A in
  [/\ is_lapack M P, is_lapack N Q, frame M N X A,
      factors d M N A X (sigma P 0 M) (sigma Q 0 N) R &
      mx M N A = (Pmx F M P 0 M)^T *m Lmx d M R X *m Umx d R N X *m Pmx F N Q 0 N].
Proof. by move=> bk0; exact: ok_factors (PLUQ_ok d thr bk0 M N A). Qed.

Lemma PLUQ_rank bk d thr M N A : (0 < bk)%N -> resR (PLUQ bk d thr M N A) = \rank (mx M N A).
Proof. by move=> bk0; exact: ok_rank (PLUQ_ok d thr bk0 M N A). Qed.

Lemma PLUQ_lead_rank bk d thr M N A i j : (0 < bk)%N -> (i <= M)%N -> (j <= N)%N ->
  let: Pluq X P Q R := PLUQ bk d thr M N A in
  \rank (mx i j A) = npiv (sigma P 0 M) (sigma Q 0 N) R i j.
Proof. by move=> bk0; exact: ok_lead (PLUQ_ok d thr bk0 M N A). Qed.

Lemma PLUQ_ordered bk d thr M N A : (0 < bk)%N ->
  let: Pluq X P Q R := PLUQ bk d thr M N A in ordered d M N X (sigma P 0 M) (sigma Q 0 N) R.
Proof. by move=> bk0; exact: ok_ordered (PLUQ_ok d thr bk0 M N A). Qed.

Lemma crout_factors d M N A P0 Q0 :
  let: Pluq X P Q R := crout d M N A P0 Q0 in
  [/\ is_lapack M P, is_lapack N Q, frame M N X A,
      factors d M N A X (sigma P 0 M) (sigma Q 0 N) R &
      mx M N A = (Pmx F M P 0 M)^T *m Lmx d M R X *m Umx d R N X *m Pmx F N Q 0 N].
Proof. exact: (ok_factors (crout_ok d M N A P0 Q0)). Qed.

Lemma crout_rank d M N A P0 Q0 : resR (crout d M N A P0 Q0) = \rank (mx M N A).
Proof. exact: (ok_rank (crout_ok d M N A P0 Q0)). Qed.

Lemma crout_lead_rank d M N A P0 Q0 i j : (i <= M)%N -> (j <= N)%N ->
  let: Pluq X P Q R := crout d M N A P0 Q0 in
  \rank (mx i j A) = npiv (sigma P 0 M) (sigma Q 0 N) R i j.
Proof. exact: (ok_lead (crout_ok d M N A P0 Q0)). Qed.

End Api.
