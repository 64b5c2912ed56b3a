From mathcomp Require Import all_ssreflect all_algebra zify ring.
From Verif Require Import Grid Perm_model Perm_spec Tri_model Tri_spec Tri_proofs Trmm_proofs Trtri_proofs Sym_model Sym_spec Sym_proofs Sym2_proofs Sym3_proofs.
Set Implicit Arguments.
Unset Strict Implicit.
Unset Printing Implicit Defensive.
Import GRing.Theory.
Local Open Scope ring_scope.

Section Sym.
Variable F : fieldType.
Implicit Types A B C D X : grid F.

(** ** ftrssyr2k *)
Lemma lead_up n1 n2 B : lead Upper (n1 + n2) B =
  block_mx (lead Upper n1 B) (mx n1 n2 (sub 0 n1 B)) (mx n1 n2 (sub 0 n1 B))^T (lead Upper n2 (sub n1 n1 B)).
Proof.
apply/matrixP => i j; rewrite !mxE; case: splitP => i' ->; rewrite !mxE; case: splitP => j' ->; rewrite !mxE //.
- by rewrite /symm /in_tri ifT //; have := ltn_ord i'; lia.
- by rewrite /symm /in_tri ifN //; have := ltn_ord j'; lia.
- by rewrite /symm /in_tri /sub leq_add2l.
Qed.

Lemma lead_lo n1 n2 B : lead Lower (n1 + n2) B =
  block_mx (lead Lower n1 B) (mx n2 n1 (sub n1 0 B))^T (mx n2 n1 (sub n1 0 B)) (lead Lower n2 (sub n1 n1 B)).
Proof.
apply/matrixP => i j; rewrite !mxE; case: splitP => i' ->; rewrite !mxE; case: splitP => j' ->; rewrite !mxE //.
- by rewrite /symm /in_tri ifN //; have := ltn_ord i'; lia.
- by rewrite /symm /in_tri ifT //; have := ltn_ord j'; lia.
- by rewrite /symm /in_tri /sub leq_add2l.
Qed.

Lemma eq_lead u n B C : (forall i j, (i < n)%N -> (j < n)%N -> B i j = C i j) -> lead u n B = lead u n C.
Proof. by move=> E; apply: eq_mx => i j iN jN; rewrite /symm; case: ifP => _; rewrite E. Qed.


Definition ssyr2k_post u dA N A B X : Prop := frame N N X B /\ ssyr2k u dA N A X = lead u N B.

Lemma ssyr2k_up dA n1 n2 A B B1 Y :
  ssyr2k_post Upper dA n1 A B B1 ->
  (forall i j, (i < n1)%N && (j < n1)%N || ~~ ((i < n1 + n2)%N && (j < n1 + n2)%N) || ((n1 <= i) && (j < n1))%N -> Y i j = B1 i j) ->
  (trimx Upper dA n1 A)^T *m mx n1 n2 (sub 0 n1 Y) = mx n1 n2 (sub 0 n1 B) - (trimx Upper NonUnit n1 B1)^T *m mx n1 n2 (sub 0 n1 A) ->
  ssyr2k Upper dA n2 (sub n1 n1 A) (sub n1 n1 Y) =
    lead Upper n2 (sub n1 n1 B) - ((mx n1 n2 (sub 0 n1 A))^T *m mx n1 n2 (sub 0 n1 Y) + (mx n1 n2 (sub 0 n1 Y))^T *m mx n1 n2 (sub 0 n1 A)) ->
  ssyr2k_post Upper dA (n1 + n2) A B Y.
Proof.
move=> [fr1 H1] EY E2 E3; split.
  by move=> i j ij; rewrite EY ?fr1 //; [lia|rewrite ij orbT].
have T1 : trimx Upper NonUnit n1 Y = trimx Upper NonUnit n1 B1.
  by apply: eq_trimx => i j iN jN _; rewrite EY // iN jN.
rewrite /ssyr2k lead_up !trimx_up !T1 !tr_block_mx !mulmx_block !trmx0 !mul0mx !mulmx0 !addr0 add_block_mx.
rewrite /ssyr2k in H1 E3.
have E2' : (trimx Upper dA n1 A)^T *m mx n1 n2 (sub 0 n1 Y) + (trimx Upper NonUnit n1 B1)^T *m mx n1 n2 (sub 0 n1 A) = mx n1 n2 (sub 0 n1 B).
  by rewrite E2 subrK.
congr block_mx => //.
- by rewrite -E2' linearD /= !trmx_mul !trmxK addrC.
- by rewrite addrACA E3 addrC subrK.
Qed.

Lemma ssyr2k_lo dA n1 n2 A B B1 Y :
  ssyr2k_post Lower dA n1 A B B1 ->
  (forall i j, (i < n1)%N && (j < n1)%N || ~~ ((i < n1 + n2)%N && (j < n1 + n2)%N) || ((i < n1) && (n1 <= j))%N -> Y i j = B1 i j) ->
  mx n2 n1 (sub n1 0 Y) *m (trimx Lower dA n1 A)^T = mx n2 n1 (sub n1 0 B) - mx n2 n1 (sub n1 0 A) *m (trimx Lower NonUnit n1 B1)^T ->
  ssyr2k Lower dA n2 (sub n1 n1 A) (sub n1 n1 Y) =
    lead Lower n2 (sub n1 n1 B) - (mx n2 n1 (sub n1 0 A) *m (mx n2 n1 (sub n1 0 Y))^T + mx n2 n1 (sub n1 0 Y) *m (mx n2 n1 (sub n1 0 A))^T) ->
  ssyr2k_post Lower dA (n1 + n2) A B Y.
Proof.
move=> [fr1 H1] EY E2 E3; split.
  by move=> i j ij; rewrite EY ?fr1 //; [lia|rewrite ij orbT].
have T1 : trimx Lower NonUnit n1 Y = trimx Lower NonUnit n1 B1.
  by apply: eq_trimx => i j iN jN _; rewrite EY // iN jN.
rewrite /ssyr2k lead_lo !trimx_lo !T1 !tr_block_mx !mulmx_block !trmx0 !mul0mx !mulmx0 !addr0 add_block_mx.
rewrite /ssyr2k in H1 E3.
have E2' : mx n2 n1 (sub n1 0 Y) *m (trimx Lower dA n1 A)^T + mx n2 n1 (sub n1 0 A) *m (trimx Lower NonUnit n1 B1)^T = mx n2 n1 (sub n1 0 B).
  by rewrite E2 subrK.
congr block_mx => //.
- by rewrite -E2' linearD /= !trmx_mul !trmxK.
- by rewrite -E2' addrC.
- by rewrite addrACA E3 addrC subrK.
Qed.

Lemma ssyr2k_post1 u dA A B : 1 + 1 != 0 :> F -> inv_diag dA 1 A ->
  ssyr2k_post u dA 1 A B (upd B 0 0 (B 0%N 0%N / (if dA is NonUnit then (1 + 1) * A 0%N 0%N else 1 + 1))).
Proof.
move=> two dA1; split.
  by move=> i j ij; rewrite /upd ifN //; lia.
rewrite /ssyr2k; case: u; apply/matrixP => i j; rewrite !ord1 !mxE !big_ord1 !mxE /tri /symm /upd /=.
all: case: dA dA1 => [_|/(_ erefl 0%N isT) a0]; field; rewrite ?two ?a0 //.
Qed.

Lemma ftrssyr2k_ok n u dA N A B : 1 + 1 != 0 :> F -> (N <= n)%N -> inv_diag dA N A ->
  ssyr2k_post u dA N A B (ftrssyr2k n u dA N A B).
Proof.
move=> two; elim: n N A B => [|n IH] N A B.
  by rewrite leqn0 => /eqP-> _; split=> //; apply: mx0N.
move=> Nn dN; rewrite /=; case: eqP => [->|N0]; first by split=> //; apply: mx0N.
case: leqP => N1.
  have E : N = 1%N by lia.
  by subst N; apply: ssyr2k_post1.
have NE : N = (N./2 + (N - N./2))%N by lia.
have L1 : (N./2 <= n)%N by lia.
have L2 : (N - N./2 <= n)%N by lia.
have L3 : (0 < N./2)%N by lia.
move: (N./2) (N - N./2)%N NE L1 L2 L3 => n1 n2 NE L1 L2 L3; subst N.
have d1 : inv_diag dA n1 A by move=> /dN H i iN; apply: H; lia.
have d2 : inv_diag dA n2 (sub n1 n1 A) by apply: inv_diag_sub dN.
have m1 : (-1 : F) != 0 by rewrite oppr_eq0 oner_eq0.
have o1 : (1 : F) != 0 by rewrite oner_eq0.
have P1 := IH n1 A B L1 d1.
have leadU M (C X : grid F) : tri_update u n2 (-1) M 1 C X -> (forall i j, M i j = M j i) -> lead u n2 X = lead u n2 C - mx n2 n2 M.
  move=> U Ms; apply/matrixP => i j; rewrite !mxE /symm; case: ifP => ij.
    by rewrite U // mulN1r mul1r addrC.
  have ji := in_triC ij.
  by rewrite (U _ _ _ _ ji) // mulN1r mul1r addrC Ms.
case: u IH P1 leadU => /= IH P1 leadU.
- have [ff Ef] := ftrmm3_mx SLeft Upper Trans NonUnit n1 n2 (ftrssyr2k n Upper dA n1 A B) (sub 0 n1 A) (sub 0 n1 (ftrssyr2k n Upper dA n1 A B)) m1 o1.
  move: (ftrssyr2k n Upper dA n1 A B) P1 ff Ef => B1 P1 ff Ef.
  have fg Z := proj1 (@ftrsm_mx F SLeft Upper Trans dA n1 n2 1 A Z d1).
  have [fr E] := at2 ff fg.
  have [_ Eg] := @ftrsm_mx F SLeft Upper Trans dA n1 n2 1 A (sub 0 n1 (at_ 0 n1 (ftrmm3 SLeft Upper Trans NonUnit n1 n2 (-1) B1 (sub 0 n1 A) 1) B1)) d1.
  set B3 := at_ 0 n1 (ftrsm _ _ _ _ _ _ _ _) _ in fr E *.
  have [U4 F4] := fsyr2k_ok Upper Trans n2 (-1) (sub 0 n1 A) (sub 0 n1 B3) 1 (sub n1 n1 B3) L3.
  set B4 := at_ n1 n1 (fsyr2k _ _ _ _ _ _ _ _) _.
  have [F5 P5] := IH n2 (sub n1 n1 A) (sub n1 n1 B4) L2 d2.
  have B4out i j : ~~ ((n1 <= i) && (n1 <= j))%N -> B4 i j = B3 i j by move=> H; rewrite /B4 /at_ (negbTE H).
  have [fr1 _] := P1.
  have EX : mx n1 n2 (sub 0 n1 (at_ n1 n1 (ftrssyr2k n Upper dA n2 (sub n1 n1 A)) B4)) = mx n1 n2 (sub 0 n1 B3).
    by apply: eq_mx => i j iN jN; rewrite /sub at_out ?B4out //; lia.
  have EB : mx n1 n2 (sub 0 n1 B1) = mx n1 n2 (sub 0 n1 B).
    by apply: eq_mx => i j iN jN; rewrite /sub fr1 //; lia.
  have EB3 : lead Upper n2 (sub n1 n1 B3) = lead Upper n2 (sub n1 n1 B).
    by apply: eq_lead => i j iN jN; rewrite /sub fr ?fr1 //; lia.
  apply: ssyr2k_up P1 _ _ _.
  + move=> i j cond; rewrite {1}/at_; case: ifP => [/andP[i1 j1]|H].
      have out : ~~ ((i - n1 < n2) && (j - n1 < n2))%N by lia.
      by rewrite F5 // /sub {1}/B4 at_in F4 // /sub !subnKC // fr //; lia.
    by rewrite B4out ?H // fr //; lia.
  + by rewrite EX E Eg mx_sub_at Ef EB /= scale1r scaleN1r scale1r addrC.
  + have -> : ssyr2k Upper dA n2 (sub n1 n1 A) (sub n1 n1 (at_ n1 n1 (ftrssyr2k n Upper dA n2 (sub n1 n1 A)) B4)) =
        ssyr2k Upper dA n2 (sub n1 n1 A) (ftrssyr2k n Upper dA n2 (sub n1 n1 A) (sub n1 n1 B4)).
      rewrite /ssyr2k (_ : trimx _ NonUnit n2 (sub n1 n1 _) = trimx Upper NonUnit n2 (ftrssyr2k n Upper dA n2 (sub n1 n1 A) (sub n1 n1 B4))) //.
      by apply: eq_trimx => i j _ _ _; rewrite /sub at_in.
    rewrite P5 EX.
    have -> : lead Upper n2 (sub n1 n1 B4) = lead Upper n2 (fsyr2k Upper Trans n2 n1 (-1) (sub 0 n1 A) (sub 0 n1 B3) 1 (sub n1 n1 B3)).
      by apply: eq_lead => i j _ _; rewrite /sub /B4 at_in.
    rewrite (leadU _ _ _ U4) ?EB3; last by move=> i j; rewrite addrC; congr (_ + _); apply: eq_bigr => l _; rewrite mulrC.
    congr (_ - _); apply/matrixP => i j; rewrite !mxE; congr (_ + _); apply: eq_bigr => l _; rewrite !mxE //=.
- have [ff Ef] := ftrmm3_mx SRight Lower Trans NonUnit n2 n1 (ftrssyr2k n Lower dA n1 A B) (sub n1 0 A) (sub n1 0 (ftrssyr2k n Lower dA n1 A B)) m1 o1.
  move: (ftrssyr2k n Lower dA n1 A B) P1 ff Ef => B1 P1 ff Ef.
  have fg Z := proj1 (@ftrsm_mx F SRight Lower Trans dA n2 n1 1 A Z d1).
  have [fr E] := at2 ff fg.
  have [_ Eg] := @ftrsm_mx F SRight Lower Trans dA n2 n1 1 A (sub n1 0 (at_ n1 0 (ftrmm3 SRight Lower Trans NonUnit n2 n1 (-1) B1 (sub n1 0 A) 1) B1)) d1.
  set B3 := at_ n1 0 (ftrsm _ _ _ _ _ _ _ _) _ in fr E *.
  have [U4 F4] := fsyr2k_ok Lower NoTrans n2 (-1) (sub n1 0 A) (sub n1 0 B3) 1 (sub n1 n1 B3) L3.
  set B4 := at_ n1 n1 (fsyr2k _ _ _ _ _ _ _ _) _.
  have [F5 P5] := IH n2 (sub n1 n1 A) (sub n1 n1 B4) L2 d2.
  have B4out i j : ~~ ((n1 <= i) && (n1 <= j))%N -> B4 i j = B3 i j by move=> H; rewrite /B4 /at_ (negbTE H).
  have [fr1 _] := P1.
  have EX : mx n2 n1 (sub n1 0 (at_ n1 n1 (ftrssyr2k n Lower dA n2 (sub n1 n1 A)) B4)) = mx n2 n1 (sub n1 0 B3).
    by apply: eq_mx => i j iN jN; rewrite /sub at_out ?B4out //; lia.
  have EB : mx n2 n1 (sub n1 0 B1) = mx n2 n1 (sub n1 0 B).
    by apply: eq_mx => i j iN jN; rewrite /sub fr1 //; lia.
  have EB3 : lead Lower n2 (sub n1 n1 B3) = lead Lower n2 (sub n1 n1 B).
    by apply: eq_lead => i j iN jN; rewrite /sub fr ?fr1 //; lia.
  apply: ssyr2k_lo P1 _ _ _.
  + move=> i j cond; rewrite {1}/at_; case: ifP => [/andP[i1 j1]|H].
      have out : ~~ ((i - n1 < n2) && (j - n1 < n2))%N by lia.
      by rewrite F5 // /sub {1}/B4 at_in F4 // /sub !subnKC // fr //; lia.
    by rewrite B4out ?H // fr //; lia.
  + by rewrite EX E Eg mx_sub_at Ef EB /= scale1r scaleN1r scale1r addrC.
  + have -> : ssyr2k Lower dA n2 (sub n1 n1 A) (sub n1 n1 (at_ n1 n1 (ftrssyr2k n Lower dA n2 (sub n1 n1 A)) B4)) =
        ssyr2k Lower dA n2 (sub n1 n1 A) (ftrssyr2k n Lower dA n2 (sub n1 n1 A) (sub n1 n1 B4)).
      rewrite /ssyr2k (_ : trimx _ NonUnit n2 (sub n1 n1 _) = trimx Lower NonUnit n2 (ftrssyr2k n Lower dA n2 (sub n1 n1 A) (sub n1 n1 B4))) //.
      by apply: eq_trimx => i j _ _ _; rewrite /sub at_in.
    rewrite P5 EX.
    have -> : lead Lower n2 (sub n1 n1 B4) = lead Lower n2 (fsyr2k Lower NoTrans n2 n1 (-1) (sub n1 0 A) (sub n1 0 B3) 1 (sub n1 n1 B3)).
      by apply: eq_lead => i j _ _; rewrite /sub /B4 at_in.
    rewrite (leadU _ _ _ U4) ?EB3; last by move=> i j; rewrite addrC; congr (_ + _); apply: eq_bigr => l _; rewrite mulrC.
    congr (_ - _); apply/matrixP => i j; rewrite !mxE; congr (_ + _); apply: eq_bigr => l _; rewrite !mxE //=.
Qed.
End Sym.
