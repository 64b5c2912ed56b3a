(** * Compact Bruhat generators: statements over the program, examples and witnesses *)
From mathcomp Require Import all_ssreflect all_algebra zify.
From Verif Require Import Grid Lit Perm_spec Perm_model Tri_model Tri_spec Tri_proofs Pluq_model.
From Verif Require Import Bruhat_model Bruhat_spec Bruhat_combine Bruhat_proofs Bruhat_rank Bruhat_get Bruhat_ex.
From Verif Require Import Bidiag_model Bidiag_spec Bidiag_echelon Bidiag_proofs.
Set Implicit Arguments.
Unset Strict Implicit.
Unset Printing Implicit Defensive.
Import GRing.Theory.
Local Open Scope ring_scope.

Section Api.
Variable F : fieldType.
Implicit Types A X : grid F.

Lemma echelon_api N r P Q M0 : lt_pivots N r P Q ->
  let M := bruhat2echelon N r P Q M0 in
  [/\ is_perm N M, forall x, (N <= x)%N -> M x = M0 x,
      forall k, (k < r)%N -> M (Q k) = count (fun j => P j < P k)%N (iota 0 r),
      forall k, (k < r)%N -> (M (Q k) < r)%N &
      forall j k, (j < r)%N -> (k < r)%N -> (M (Q j) < M (Q k))%N = (P j < P k)%N].
Proof.
move=> [lt Pi Qi]; have QN k : (k < r)%N -> (Q k < N)%N by move=> kr; have := lt k kr; lia.
have [h1 h2 h3 h4 h5] := echelon_ok M0 QN Pi Qi.
by split=> // k /h3[].
Qed.

Lemma roundtrip_api up bk N s r P Q A X0 K0 M0 T0 A0 : (0 < bk)%N -> (0 < r)%N ->
  lt_pivots N r P Q -> qs_pivots N s r P Q -> bruhat_shape up N r P Q A ->
  exists X K M T nb, [/\ bd_compress up bk N s r P Q A N X0 K0 M0 T0 = Some (Bidiag X K M T nb),
      ((nb - 1) * s < r <= nb * s)%N,
      forall i c, (if up then (2 * s <= i) || (N <= c) else (N <= i) || (2 * s <= c))%N -> X i c = X0 i c &
      exists2 A1, bd_expand up bk N s r A0 X nb K M T = Some A1 &
        forall i j, (i < N)%N -> (j < N)%N -> A1 i j = A i j].
Proof.
move=> bk0 r0 h1 h2 h3; have [[X K M T nb] [E [e1 e2 e3]]] := roundtrip bk0 r0 h1 h2 h3 M0 X0 K0 T0 A0.
by exists X, K, M, T, nb.
Qed.

Lemma order_piv bk d thr N A P Q X P' Q' r : (0 < bk)%N -> (0 < N)%N ->
  LTBruhatGen bk d thr N A P Q = Some (Bruhat X P' Q' r) -> qs_pivots N (qs_order N A) r P' Q'.
Proof.
move=> bk0 N0 E i iN; rewrite -(LTBruhatGen_rank bk0 N0 E); last by lia.
exact: (leq_bigmax (Ordinal iN)).
Qed.

Lemma pipeline up bk d thr N A P Q X P' Q' r s (TL TU : nat -> F) X0 K0 M0 T0 A0 : (0 < bk)%N -> (0 < N)%N ->
  LTBruhatGen bk d thr N A P Q = Some (Bruhat X P' Q' r) -> (0 < r)%N -> LTQSorder N r P' Q' = Some s ->
  let G : grid F := fun i j => if up then getLT_U d N r P' Q' X N TU (i * N + j)%N
                               else getLT_L (odiag d) N r P' Q' X N TL (i * N + j)%N in
  exists X1 K M T nb A1, [/\ bd_compress up bk N s r P' Q' G N X0 K0 M0 T0 = Some (Bidiag X1 K M T nb),
      bd_expand up bk N s r A0 X1 nb K M T = Some A1 &
      forall i j, (i < N)%N -> (j < N)%N -> A1 i j = G i j].
Proof.
move=> bk0 N0 E r0; rewrite (LTBruhatGen_order bk0 N0 E) => -[<-] G.
have [st [E' [b0 _ _ _]]] := LTBruhatGen_bru d thr A P Q bk0 N0.
have {st E' b0} b : bru d N A X P' Q' r by move: b0; move: E'; rewrite E => -[<-].
have lt : lt_pivots N r P' Q' by split; [exact: (b_lt b)|exact: (b_P b)|exact: (b_Q b)].
have sh : bruhat_shape up N r P' Q' G.
  rewrite /bruhat_shape /G {G} => i j iN jN; case: up.
    rewrite (getU_ok _ _ (b_lt b) (b_P b)) //; last by exact: clear_N.
    move=> nz; have /existsP[k hk] : [exists k : 'I_r, (P' k == i) && (Ub d N P' Q' X k j != 0)].
      apply: contraNT nz => /existsPn h; rewrite /Umat big1 // => k _; case: ifP => // e.
      by have := h k; rewrite e /= negbK => /eqP.
    exists k; move: hk => /andP[/eqP e]; rewrite /Ub; case: ifP => [/and3P[h1 h2 _] _|_]; last by rewrite eqxx.
    by split=> //; lia.
  rewrite (getL_ok _ _ (b_lt b) (b_Q b)) //; last by exact: clear_N.
  move=> nz; have /existsP[k hk] : [exists k : 'I_r, (Q' k == j) && (Lb (odiag d) N P' Q' X i k != 0)].
    apply: contraNT nz => /existsPn h; rewrite /Lmat big1 // => k _; case: ifP => // e.
    by have := h k; rewrite e /= negbK => /eqP.
  exists k; move: hk => /andP[/eqP e]; rewrite /Lb; case: ifP => [/and3P[h1 h2 _] _|_]; last by rewrite eqxx.
  by split=> //; lia.
have [X1 [K [M [T [nb [e1 _ _ [A1 e2 e3]]]]]]] :=
  roundtrip_api X0 K0 M0 T0 A0 bk0 r0 lt (order_piv bk0 N0 E) sh.
by exists X1, K, M, T, nb, A1.
Qed.

End Api.

(** Order 2, five pivots, three blocks: the long first row is folded into the
    second block. *)
Definition P9 (k : nat) : nat := nth 0%N [:: 0; 6; 5; 4; 3]%N k.
Definition Q9 (k : nat) : nat := nth 0%N [:: 0; 1; 2; 3; 4]%N k.
Definition U9 : grid 'F_7 := gl 7 [:: [:: 1; 2; 3; 4; 5; 6; 1; 2; 0]; [::]; [::];
  [:: 0; 0; 0; 0; 3; 0; 0; 0; 0]; [:: 0; 0; 0; 4]; [:: 0; 0; 5]; [:: 0; 6]; [::]; [::]]%N.
Definition z9 : grid 'F_7 := fun _ _ => 0.

Definition rt9 (lda : nat) := obind (fun b => bd_expand true 32 9 2 5 z9 (bdgX b) (bdgN b) (bdgK b) (bdgM b) (bdgT b))
  (bd_compress true 32 9 2 5 P9 Q9 U9 lda z9 id id id).

Example ex_bidiag : omap (out 9 9) (rt9 9) = Some (out 9 9 U9) /\
  omap (fun b => (out1 5 (bdgT b), out1 4 (bdgK b), out1 9 (bdgM b), out 4 9 (bdgX b)))
    (bd_compress true 32 9 2 5 P9 Q9 U9 9 z9 id id id) =
  Some ([:: 2; 1; 2; 3; 4], [:: 0; 2; 4; 9], [:: 0; 5; 6; 4; 3; 2; 1; 7; 8],
    [:: [:: 1; 2; 5; 0; 3; 0; 0; 0; 0]; [:: 0; 6; 0; 4; 0; 0; 0; 0; 0];
        [:: 0; 0; 3; 4; 5; 6; 1; 2; 0]; [:: 0; 0; 0; 0; 0; 0; 0; 0; 0]])%N.
Proof. by vm_compute. Qed.

Lemma lt9 : lt_pivots 9 5 P9 Q9.
Proof.
split=> [k|j k|j k]; first by case: k => [|[|[|[|[|k]]]]].
  by case: j => [|[|[|[|[|j]]]]] // _; case: k => [|[|[|[|[|k]]]]].
by case: j => [|[|[|[|[|j]]]]] // _; case: k => [|[|[|[|[|k]]]]].
Qed.
Lemma qs9 : qs_pivots 9 2 5 P9 Q9.
Proof. by case=> [|[|[|[|[|[|[|[|[|i]]]]]]]]] //; vm_compute. Qed.
Lemma sh9 : bruhat_shape true 9 5 P9 Q9 U9.
Proof.
move=> i j; case: i => [|[|[|[|[|[|[|[|[|i]]]]]]]]] // _; case: j => [|[|[|[|[|[|[|[|[|j]]]]]]]]] // _ //; move=> nz;
  first [by exists 0%N | by exists 1%N | by exists 2%N | by exists 3%N | by exists 4%N
        | by exfalso; move: nz; vm_compute].
Qed.

(** lda = 10: the rows of the copy are not where applyP looks for them. *)
Lemma lda_witness : exists (N s r : nat) P Q (A : grid 'F_7) lda X0 A0 A1 i j,
  [/\ (0 < r)%N /\ (N <= lda)%N, lt_pivots N r P Q /\ qs_pivots N s r P Q, bruhat_shape true N r P Q A,
      obind (fun b => bd_expand true 32 N s r A0 (bdgX b) (bdgN b) (bdgK b) (bdgM b) (bdgT b))
        (bd_compress true 32 N s r P Q A lda X0 id id id) = Some A1 & [/\ (i < N)%N, (j < N)%N & A1 i j != A i j]].
Proof.
exists 9%N, 2%N, 5%N, P9, Q9, U9, 10%N, z9, z9, (odflt z9 (rt9 10)), 4%N, 3%N; split.
- by [].
- by split; [exact: lt9 | exact: qs9].
- exact: sh9.
- by rewrite -/(rt9 10); have : isSome (rt9 10); [vm_compute | case: (rt9 10)].
- by split; vm_compute.
Qed.

(** lda = 7: swaps outside of the copy. *)
Lemma lda_out : exists (N s r : nat) P Q (A : grid 'F_7) lda X0,
  [/\ (0 < r)%N /\ (N <= lda)%N, lt_pivots N r P Q /\ qs_pivots N s r P Q, bruhat_shape true N r P Q A &
      bd_compress true 32 N s r P Q A lda X0 id id id = None].
Proof.
exists 4%N, 1%N, 1%N, (fun=> 2%N), (fun=> 0%N), (gl 7 [:: [::]; [::]; [:: 3]%N; [::]]), 7%N, z9; split.
- by [].
- split; first by split=> [k|j k|j k] //; case: j => // j; case: k.
  by case=> [|[|[|[|i]]]].
- move=> i j; case: i => [|[|[|[|i]]]] // _; case: j => [|[|[|[|j]]]] // _ // nz;
    first [by exists 0%N | by exfalso; move: nz; vm_compute].
- by vm_compute.
Qed.

(** The zero matrix has no pivot: nothing to compress, but the expansion runs
    out of its arrays. *)
Lemma empty_witness : exists b, bd_compress true 32 2 0 0 id id z9 2 z9 id id id = Some b /\ bdgN b = 0%N /\
  bd_expand true 32 2 0 0 z9 (bdgX b) (bdgN b) (bdgK b) (bdgM b) (bdgT b) = None.
Proof.
set o := bd_compress _ _ _ _ _ _ _ _ _ _ _ _ _.
have : omap (@bdgN _) o = Some 0%N by vm_compute.
by case: o => // b [e]; exists b; rewrite e.
Qed.
