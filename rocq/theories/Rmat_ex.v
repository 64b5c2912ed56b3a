(** * Random matrices: statements over the program, examples and witnesses *)
From mathcomp Require Import all_ssreflect all_algebra zify.
From Verif Require Import Grid Lit Perm_model Perm_spec Tri_model Tri_spec Pluq_model Bruhat_spec Rmat_model Rmat_spec Rmat_proofs Rmat_mat Rmat_sym.
Set Implicit Arguments.
Unset Strict Implicit.
Unset Printing Implicit Defensive.
Import GRing.Theory.
Local Open Scope ring_scope.

Lemma subset_api N R x P : (R <= N)%N -> exists P', RandomIndexSubset N R x P = Some P' /\ distinct_below N R P'.
Proof. by move=> RN; have [P' [E [h1 h2 _]]] := RandomIndexSubsetP x P RN; exists P'. Qed.

Lemma perm_api N x P : is_lapack N (RandomPermutation N x P).
Proof. exact: RandomPermutation_lapack. Qed.

Lemma sympiv_api fuel N R x rows cols rows' cols' : (0 < fuel)%N -> (R <= N)%N ->
  RandomSymmetricRankProfileMatrix fuel N R x rows cols = Some (rows', cols') -> sym_pivots N R rows' cols'.
Proof. by move=> f0 RN; have [h _] := RandomSymmetricRankProfileMatrixP x rows cols f0 RN; exact: h. Qed.

Lemma symterm_api N R x rows cols : (R <= N)%N -> ~~ odd R || (R == N) ->
  exists rows' cols', RandomSymmetricRankProfileMatrix 1 N R x rows cols = Some (rows', cols').
Proof.
move=> RN h; have [_ /(_ h)] := RandomSymmetricRankProfileMatrixP x rows cols (ltn0Sn 0) RN.
by case: (RandomSymmetricRankProfileMatrix _ _ _ _ _ _) => [[r c] _|//]; exists r, c.
Qed.

Lemma nlead_all P Q R M N : (forall k, (k < R)%N -> (P k < M)%N /\ (Q k < N)%N) -> nlead P Q R M N = R.
Proof.
move=> h; rewrite /nlead -[RHS](size_iota 0 R); apply/eqP; rewrite -all_count; apply/allP => k.
by rewrite mem_iota add0n => /andP[_ /h[-> ->]].
Qed.

Section Api.
Variable F : fieldType.

Lemma rpm_api M N R x y rows0 cols0 (G : nat -> nat -> F) z GU zU L0 U0 A : (R <= M)%N -> (R <= N)%N ->
  (forall k, z k != 0) -> (forall k, zU k != 0) ->
  exists rows cols, RandomRankProfileMatrix M N R x y rows0 cols0 = Some (rows, cols) /\
  [/\ distinct_below M R rows, distinct_below N R cols &
      let X := RandomMatrixWithRankandRPM M N R rows cols G z GU zU L0 U0 A in
      \rank (mx M N X) = R /\ forall i j, (i <= M)%N -> (j <= N)%N -> \rank (mx i j X) = nlead rows cols R i j].
Proof.
move=> RM RN hz hU; have [r [c [E [h1 h2 h3]]]] := RandomRankProfileMatrixP x y rows0 cols0 RM RN.
exists r, c; split=> //; have H := WithRankandRPM_rank h1 h2 h3 G GU L0 U0 A hz hU.
split; [by split=> // k /h1[]|by split=> // k /h1[]|split].
  by rewrite H // nlead_all.
by move=> i j iM jN; apply: H.
Qed.

Lemma given_api M N R rows cols (G : nat -> nat -> F) z GU zU L0 U0 A : distinct_below M R rows -> distinct_below N R cols ->
  (forall k, z k != 0) -> (forall k, zU k != 0) -> forall i j, (i <= M)%N -> (j <= N)%N ->
  \rank (mx i j (RandomMatrixWithRankandRPM M N R rows cols G z GU zU L0 U0 A)) = nlead rows cols R i j.
Proof.
move=> [h1 h2] [h3 h4] hz hU i j iM jN; apply: WithRankandRPM_rank => // k kR.
by split; [exact: h1 | exact: h3].
Qed.

Lemma sym_api N R rows cols GU zU (L0 U0 A : grid F) : sym_pivots N R rows cols -> (forall k, zU k != 0) ->
  let X := RandomSymmetricMatrixWithRankandRPM N R rows cols GU zU L0 U0 A in
  [/\ forall i j, (i < N)%N -> (j < N)%N -> X i j = X j i, \rank (mx N N X) = R &
      forall i j, (i <= N)%N -> (j <= N)%N -> \rank (mx i j X) = nlead rows cols R i j].
Proof.
move=> [[r1 r2] [c1 c2] sy] hz X.
have h1 k : (k < R)%N -> (rows k < N)%N /\ (cols k < N)%N by move=> kR; split; [exact: r1 | exact: c1].
have H i j : (i <= N)%N -> (j <= N)%N -> \rank (mx i j X) = nlead rows cols R i j by exact: SymRPM_rank.
by split=> //; [exact: SymRPM_sym | rewrite H // nlead_all].
Qed.

Lemma det_api bk n (d : F) GL GU zL zU x y P0 Q0 L0 U0 A : (0 < bk)%N -> (0 < n)%N -> (forall k, zL k != 0) ->
  exists A', RandomMatrixWithDet bk n d GL GU zL zU x y P0 Q0 L0 U0 A = Some A' /\ \det (mx n n A') = d.
Proof. exact: WithDetE. Qed.

Lemma symm_api n G (z : nat -> F) A : (forall k, z k != 0) -> let X := RandomSymmetric n true G z A in
  [/\ forall i j, (i < n)%N -> (j < n)%N -> X i j = X j i, mx n n X \in unitmx & \det (mx n n X) = \prod_(i < n) z i].
Proof.
move=> hz X; have U i : (i < n)%N -> RandomTriangular n n Upper NonUnit true G z A i i = z i.
  by move=> iN; rewrite triUE // ltnn eqxx.
have [|h1 [h2 h3]] := @RandomSymmetricE F n true G z A; first by move=> i iN; rewrite U.
by split=> //; rewrite h3; apply: eq_bigr => i _; rewrite U.
Qed.

Lemma ltqs_api n r rows cols (G : nat -> nat -> F) z GU zU L0 U0 A :
  (forall k, (k < r)%N -> (rows k + cols k < n - 1)%N) -> distinct_below n r rows -> distinct_below n r cols ->
  (forall k, z k != 0) -> (forall k, zU k != 0) ->
  let X := RandomLTQSMatrix n r rows cols G z GU zU L0 U0 A in
  [/\ forall i j, (i < n)%N -> (j < n)%N -> (n - 1 <= i + j)%N -> X i j = 0,
      forall a b, (a + b <= n)%N -> \rank (mx a b X) = nlead rows cols r a b &
      qs_order n X = \max_(i < n) nlead rows cols r i.+1 (n - 1 - i)].
Proof.
move=> h [_ r2] [_ c2] hz hU X; have [h1 h2] := LTQS_rank G GU L0 U0 A h r2 c2 hz hU.
split=> //; rewrite /qs_order; apply: eq_bigr => i _; apply: h2; have := ltn_ord i; lia.
Qed.

Lemma fullrank_api bk m n r (GL GU : grid F) zL zU x y P0 Q0 L0 U0 A : (0 < bk)%N ->
  (forall k, zL k != 0) -> (forall k, zU k != 0) ->
  \rank (mx m n (RandomMatrixWithRank bk m n r GL GU zL zU x y P0 Q0 L0 U0 A)) = minn m n.
Proof. exact: RandomMatrixWithRankE. Qed.

End Api.

(** ** Examples over Z/7Z *)
Definition rx (l : seq nat) : nat -> nat := nth 0%N l.
Definition one7 : nat -> 'F_7 := fun=> 1.
Definition gen7 : grid 'F_7 := fun i j => (2 * i + 3 * j + 1)%:R.
Definition z7 : grid 'F_7 := fun _ _ => 0.

Example ex_subset : omap (out1 3) (RandomIndexSubset 5 3 (rx [:: 7; 2; 11])%N id) = Some [:: 2; 3; 4]%N.
Proof. by vm_compute. Qed.

Example ex_symrp : omap (fun p => (out1 4 p.1, out1 4 p.2)) (RandomSymmetricRankProfileMatrix 5 5 4 (rx [:: 3; 1; 1; 1; 2]%N) id id) =
  Some ([:: 3; 1; 0; 2], [:: 1; 3; 0; 2])%N.
Proof. by vm_compute. Qed.

Example ex_rpm : out 3 4 (RandomMatrixWithRankandRPM 3 4 2 (rx [:: 2; 0]%N) (rx [:: 1; 3]%N) gen7 one7 gen7 one7 z7 z7 z7) =
  [:: [:: 0; 0; 0; 1]; [:: 0; 0; 0; 6]; [:: 0; 1; 2; 0]]%N.
Proof. by vm_compute. Qed.

Example ex_symrpm : out 4 4 (RandomSymmetricMatrixWithRankandRPM 4 3 (rx [:: 2; 0; 1]%N) (rx [:: 0; 2; 1]%N) gen7 one7 z7 z7 z7) =
  [:: [:: 0; 0; 1; 0]; [:: 0; 1; 6; 5]; [:: 1; 6; 4; 6]; [:: 0; 5; 6; 4]]%N.
Proof. by vm_compute. Qed.

Example ex_det : omap (out 3 3) (RandomMatrixWithDet 1 3 5%:R gen7 gen7 one7 one7 (rx [:: 2; 0; 0]%N) (rx [:: 1; 1; 0]%N) id id z7 z7 z7) =
  Some [:: [:: 2; 6; 3]; [:: 4; 0; 5]; [:: 0; 4; 1]]%N.
Proof. by vm_compute. Qed.

Example ex_symm : out 3 3 (RandomSymmetric 3 true gen7 one7 z7) = [:: [:: 1; 4; 0]; [:: 4; 3; 2]; [:: 0; 2; 5]]%N.
Proof. by vm_compute. Qed.

Example ex_ltqs : out 4 4 (RandomLTQSMatrix 4 2 (rx [:: 1; 0]%N) (rx [:: 0; 1]%N) gen7 one7 gen7 one7 z7 z7 z7) =
  [:: [:: 0; 1; 2; 0]; [:: 1; 3; 0; 0]; [:: 0; 0; 0; 0]; [:: 0; 0; 0; 0]]%N.
Proof. by vm_compute. Qed.

Example ex_rank : out 2 2 (RandomMatrixWithRank 1 2 2 1 gen7 gen7 one7 one7 (rx [:: 1]%N) id id id z7 z7 z7) = [:: [:: 4; 1]; [:: 6; 3]]%N.
Proof. by vm_compute. Qed.

(** ** Witnesses *)
Lemma rank_witness : exists m n r (GL GU : grid 'F_7) zL zU x y P0 Q0 L0 U0 A,
  [/\ (r < minn m n)%N, forall k, zL k != 0, forall k, zU k != 0 &
      \rank (mx m n (RandomMatrixWithRank 1 m n r GL GU zL zU x y P0 Q0 L0 U0 A)) = r.+1].
Proof.
exists 2%N, 2%N, 1%N, gen7, gen7, one7, one7, id, id, id, id, z7, z7, z7.
by split=> //; rewrite fullrank_api.
Qed.

Lemma tri_witness : exists m n (G : grid 'F_7) z A i j, (n <= j)%N /\ RandomTriangular m n Lower Unit true G z A i j <> A i j.
Proof. by exists 3%N, 2%N, gen7, one7, z7, 2%N, 2%N; split=> // /(congr1 (@nat_of_ord _)); vm_compute. Qed.

Lemma nosym_witness : exists n (G : grid 'F_7) z A i j, [/\ (i < n)%N, (j < n)%N &
  RandomSymmetric n false G z A i j <> RandomSymmetric n false G z A j i].
Proof.
by exists 2%N, (fun _ j => j%:R), one7, z7, 0%N, 1%N.
Qed.

Lemma det0_witness : exists (d : 'F_7), forall GL GU zL zU x y P0 Q0 L0 U0 A,
  RandomMatrixWithDet 1 0 d GL GU zL zU x y P0 Q0 L0 U0 A = None.
Proof. by exists 1. Qed.

Lemma srp_diag_none fuel k N x rr cc n : (forall l, [seq m <- iota k (N - k) | rr m == cc (RandInt k N l)] = [::]) ->
  srp_diag fuel k N x rr cc n = None.
Proof. by move=> h; elim: fuel n => [//|f IH] n /=; rewrite h. Qed.

Lemma endless_witness : exists N R (x0 : nat -> nat), (R <= N)%N /\
  forall fuel x rows cols, (forall n, (n < 4)%N -> x n = x0 n) -> RandomSymmetricRankProfileMatrix fuel N R x rows cols = None.
Proof.
exists 4%N, 3%N, (rx [:: 2; 3; 1; 1]%N); split=> // fuel x rows cols hx.
have [e0 e1 e2 e3] : [/\ x 0%N = 2%N, x 1%N = 3%N, x 2%N = 1%N & x 3%N = 1%N] by rewrite !hx.
rewrite /RandomSymmetricRankProfileMatrix /= e0 e1.
rewrite {1 2 3 4 5 6 7 8 9 10 11 12}/RandInt /= -[(1.*2.+1 < 3)%N]/false andbF /= srp_diag_none // => l.
have [->|->] : RandInt 1.*2 4 l = 2%N \/ RandInt 1.*2 4 l = 3%N by have := @RandInt_in 2 4 l isT; rewrite -[1.*2]/2%N; lia.
  by rewrite e2 e3; vm_compute.
by rewrite e2 e3; vm_compute.
Qed.
