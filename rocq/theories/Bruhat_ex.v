(** * Bruhat generators: statements over the program, examples and witnesses *)
From mathcomp Require Import all_ssreflect all_algebra zify.
From Verif Require Import Grid Lit Perm_spec Perm_model Perm_proofs Tri_model Tri_spec Tri_proofs Pluq_model.
From Verif Require Import Bruhat_model Bruhat_spec Bruhat_combine Bruhat_proofs Bruhat_rank Bruhat_get.
Set Implicit Arguments.
Unset Strict Implicit.
Unset Printing Implicit Defensive.
Import GRing.Theory.
Local Open Scope ring_scope.

Section Api.
Variable F : fieldType.
Implicit Types A X : grid F.

Lemma LTBruhatGen_bru bk d thr N A P Q : (0 < bk)%N -> (0 < N)%N ->
  exists st, LTBruhatGen bk d thr N A P Q = Some st /\ bru_ok d N A P Q st.
Proof. by move=> bk0 N0; apply: ltbruhat_ok => //; lia. Qed.

Lemma LTBruhatGen_ok bk d thr N A P Q : (0 < bk)%N -> (0 < N)%N ->
  exists X P' Q' r, [/\ LTBruhatGen bk d thr N A P Q = Some (Bruhat X P' Q' r), frame N N X A,
    forall x, (N <= x)%N -> P' x = P x /\ Q' x = Q x, lt_pivots N r P' Q' &
    forall i j, (i + j + 1 < N)%N -> A i j = \sum_(k < r) Lb (odiag d) N P' Q' X i k * Ub d N P' Q' X k j].
Proof.
move=> bk0 N0; have [[X P' Q' r] [E [/= b fr oP oQ]]] := LTBruhatGen_bru d thr A P Q bk0 N0.
exists X, P', Q', r; split=> //; first by move=> x Nx; rewrite oP ?oQ.
  by split; [exact: (b_lt b)|exact: (b_P b)|exact: (b_Q b)].
by move=> i j ij; rewrite (b_law b ij) rsumE.
Qed.

Lemma LTBruhatGen_mx bk d thr N A P Q X P' Q' r (R0 : grid F) (TL TU : nat -> F) : (0 < bk)%N -> (0 < N)%N ->
  LTBruhatGen bk d thr N A P Q = Some (Bruhat X P' Q' r) ->
  let L := mx N N (fun i j => getLT_L (odiag d) N r P' Q' X N TL (i * N + j)%N) in
  let U := mx N N (fun i j => getLT_U d N r P' Q' X N TU (i * N + j)%N) in
  let R := mx N N (getLTBruhatGenR N r P' Q' R0) in
  forall i j : 'I_N, (i + j + 1 < N)%N -> (L *m R^T *m U) i j = A i j.
Proof.
move=> bk0 N0 E L U R i j ij.
have [st [E' [b0 _ _ _]]] := LTBruhatGen_bru d thr A P Q bk0 N0.
have {st E' b0} b : bru d N A X P' Q' r by move: b0; move: E'; rewrite E => -[<-].
rewrite -mulmxA !mxE -(bru_mx b ij); apply: eq_bigr => a _.
rewrite !mxE mulr_sumr; apply: eq_bigr => c _; rewrite !mxE.
rewrite (getL_ok _ _ (b_lt b) (b_Q b)) //; last by exact: clear_N.
rewrite (getU_ok _ _ (b_lt b) (b_P b)) //; last by exact: clear_N.
by rewrite (getR_ok _ (b_P b) (leqnn N)).
Qed.

Lemma LTBruhatGen_rank bk d thr N A P Q X P' Q' r : (0 < bk)%N -> (0 < N)%N ->
  LTBruhatGen bk d thr N A P Q = Some (Bruhat X P' Q' r) ->
  forall m n, (m + n <= N)%N -> \rank (mx m n A) = nlead P' Q' r m n.
Proof.
move=> bk0 N0 E m n mn; have [st [E' [b _ _ _]]] := LTBruhatGen_bru d thr A P Q bk0 N0.
by move: b; move: E'; rewrite E => -[<-] /= b; exact: (bru_rank b).
Qed.

Lemma LTBruhatGen_order bk d thr N A P Q X P' Q' r : (0 < bk)%N -> (0 < N)%N ->
  LTBruhatGen bk d thr N A P Q = Some (Bruhat X P' Q' r) -> LTQSorder N r P' Q' = Some (qs_order N A).
Proof.
move=> bk0 N0 E; have [st [E' [b _ _ _]]] := LTBruhatGen_bru d thr A P Q bk0 N0.
by move: b; move: E'; rewrite E => -[<-] /= b; exact: (LTQSorder_ok b).
Qed.

Lemma ltbruhat0 fuel bk d thr A P Q : ltbruhat fuel bk d thr 0 A P Q = None.
Proof.
elim: fuel A P Q => // n IH A P Q; rewrite ltbruhatS; cbv zeta.
by case: (PLUQ _ _ _ _ _ _) => X1 P1 Q1 r1; rewrite IH.
Qed.

End Api.

(** A 5 x 5 example over Z/7Z. *)
Definition B5 : grid 'F_7 := gl 7 [:: [:: 1; 2; 3; 4; 5]; [:: 2; 4; 1; 0; 6]; [:: 0; 3; 2; 5; 1]; [:: 3; 1; 0; 2; 4]; [:: 5; 2; 1; 1; 3]]%N.
Definition showB (N : nat) (o : option (bruhat_res [fieldType of 'F_7])) :=
  omap (fun st => (out N N (brA st), out1 (brR st) (brP st), out1 (brR st) (brQ st), LTQSorder N (brR st) (brP st) (brQ st))) o.
Example ex_bruhat : showB 5 (LTBruhatGen 64 NonUnit 1 5 B5 id id) =
  Some ([:: [:: 1; 2; 3; 4; 0]; [:: 2; 0; 2; 0; 0]; [:: 0; 3; 0; 0; 0]; [:: 3; 0; 0; 2; 4]; [:: 0; 0; 1; 1; 3]]%N,
        [:: 0; 2; 1]%N, [:: 0; 1; 2]%N, Some 2%N).
Proof. by vm_compute. Qed.

(** With ldt = 5 and N = 4, rows 3 and 4 of the array are not all cleared. *)
Lemma getLT_ldt_witness : exists (P Q : nat -> nat) (T : nat -> 'F_7) i j,
  [/\ (i < 4)%N, (j < 4)%N, lt_pivots 4 1 P Q &
      getLT_U NonUnit 4 1 P Q B5 5 T (i * 5 + j)%N != Umat NonUnit 4 1 P Q B5 i j].
Proof.
exists (fun=> 0%N), (fun=> 0%N), (fun=> 1), 3%N, 3%N; split=> //.
- by split=> [k|j k|j k] //; lia.
- by rewrite /Umat big_ord_recl big_ord0; vm_compute.
Qed.
