(** * Parallel PLUQ: statements in spec form, and a wrong rank profile *)
From mathcomp Require Import all_ssreflect all_algebra zify.
From Verif Require Import Grid Lit Perm_model Perm_spec Perm_proofs Tri_model Tri_spec.
From Verif Require Import Pluq_model Pluq_spec Pluq_combine Pluq_main Pluq_rank Api_model Ppluq_model Ppluq_spec Ppluq_proofs.
Set Implicit Arguments.
Unset Strict Implicit.
Unset Printing Implicit Defensive.
Import GRing.Theory.
Local Open Scope ring_scope.

Section Api.
Variable F : fieldType.
Implicit Type A : grid F.

Lemma pPLUQ_factors' bk d thr M N A : (0 < bk)%N ->
  let: Pluq X P Q R := pPLUQ bk d thr M N A in
  [/\ is_lapack M P, is_lapack N Q, frame M N X A,
      factors d M N A X (sigma P 0 M) (sigma Q 0 N) R &
      mx M N A = (Pmx F M P 0 M)^T *m Lmx d M R X *m Umx d R N X *m Pmx F N Q 0 N].
Proof.
move=> bk0; have := pPLUQ_ok d thr bk0 M N A; case: pPLUQ => X P Q R [/= lP lQ fr /facg_spec fa]; split=> //.
exact: factors_mx.
Qed.

Lemma pPLUQ_rank' bk d thr M N A : (0 < bk)%N -> resR (pPLUQ bk d thr M N A) = \rank (mx M N A).
Proof.
move=> bk0; have := pPLUQ_ok d thr bk0 M N A; case: pPLUQ => X P Q R [/= lP lQ fr /facg_spec fa].
by rewrite (factors_rank fa).
Qed.

End Api.

Definition rdisj (v w : rect) : bool :=
  [|| (r_b v <= r_a w)%N, (r_b w <= r_a v)%N, (r_d v <= r_c w)%N | (r_d w <= r_c v)%N].
Lemma rdisjP v w : rdisj v w -> forall i j, ~~ (inr v i j && inr w i j).
Proof. by move=> h i j; move: h; rewrite /rdisj /inr; lia. Qed.

Definition apartb (s t : task) : bool :=
  [&& rdisj (t_w s) (t_w t), all (rdisj (t_w s)) (t_r t) & all (rdisj (t_w t)) (t_r s)].

Lemma all_In T (p : T -> bool) s : all p s -> forall x, List.In x s -> p x.
Proof. by elim: s => //= a s IH /andP[pa /IH h] x [<-|/h]. Qed.

Lemma apartP s t : apartb s t -> apart s t.
Proof.
case/and3P=> h1 h2 h3 i j; split; first exact: rdisjP.
by split=> w wr; apply: rdisjP; [exact: all_In h2 _ wr | exact: all_In h3 _ wr].
Qed.

Lemma all_apartP g : pairwise apartb g -> all_apart g.
Proof.
elim: g => //= t g IH /andP[h /IH h']; split=> // s sg.
by apply: apartP; exact: all_In h _ sg.
Qed.

Lemma groups_apart' M N M2 N2 R1 R2 R3 : (M2 <= M)%N -> (N2 <= N)%N -> (R1 + R2 <= M2)%N -> (R1 + R3 <= N2)%N ->
  (R3 <= M - M2)%N -> (R2 <= N - N2)%N -> forall g, List.In g (groups M N M2 N2 R1 R2 R3) -> all_apart g.
Proof.
move=> h1 h2 h3 h4 h5 h6 g gI; apply: all_apartP; move: gI => /=.
have a1 : (R1 <= M2)%N by lia.
have a2 : (R1 <= N2)%N by lia.
have a3 : (R1 + R2 <= M2 + R3)%N by lia.
clear h1 h2 h5 h6.
by do !(case=> [<-|]) => //; rewrite /apartb /rdisj /= ?a1 ?a2 ?a3 ?h3 ?h4 ?leqnn ?orbT.
Qed.

(** First row of the leading quadrant [0 0 1]: the exchange brings column 1
    before column 0. *)
Definition Wp : grid 'F_7 := gl 7 [:: [:: 0; 0; 1; 0; 0; 0]; [:: 1; 1; 0; 0; 0; 0]]%N.
(** The same at the second level: the last row of the leading quadrant depends
    on the others. *)
Definition Wp4 : grid 'F_7 := gl 7 [:: [:: 1; 0; 0; 0; 0; 0]; [:: 0; 1; 0; 0; 0; 0]; [:: 0; 0; 0; 0; 0; 1];
  [:: 0; 0; 0; 1; 1; 0]; [:: 0; 0; 0; 0; 0; 0]; [:: 0; 0; 0; 0; 0; 0]]%N.
