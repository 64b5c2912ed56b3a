From mathcomp Require Import all_ssreflect all_algebra zify ring.
From Verif Require Import Grid Perm_model Perm_spec Tri_model Tri_spec Tri_proofs Trmm_proofs Trtri_proofs Sym_model Sym_spec Sym_proofs Sym2_proofs.
Set Implicit Arguments.
Unset Strict Implicit.
Unset Printing Implicit Defensive.
Import GRing.Theory.
Local Open Scope ring_scope.

Section Sym.
Variable F : fieldType.
Implicit Types A B C D X : grid F.

(** ** ftrstr *)

Definition trstr_post s u dA dB N A B X : Prop :=
  tri_frame u (diagX dA dB) N X B /\
  match s with
  | SLeft => trimx u dA N A *m trimx u (diagX dA dB) N X = trimx u dB N B
  | SRight => trimx u (diagX dA dB) N X *m trimx u dA N A = trimx u dB N B
  end.

Definition off (u : uplo) (n1 : nat) : nat * nat := if u is Upper then (0, n1)%N else (n1, 0)%N.
Definition offd (u : uplo) (n1 n2 : nat) : nat * nat := if u is Upper then (n1, n2)%N else (n2, n1)%N.

(** Both diagonal blocks are solved, the last block is [Z]. *)
Lemma trstr_block s u dA dB n1 n2 A B B1 B3 Y :
  trstr_post s u dA dB n1 A B B1 ->
  trstr_post s u dA dB n2 (sub n1 n1 A) (sub n1 n1 B1) B3 ->
  let B2 := at_ n1 n1 (fun _ => B3) B1 in
  let: (ri, ci) := off u n1 in
  let: (rd, cd) := offd u n1 n2 in
  (forall i j, ~~ [&& ri <= i < ri + rd & ci <= j < ci + cd]%N -> Y i j = B2 i j) ->
  match s, u with
  | SLeft, Upper => trimx u dA n1 A *m mx n1 n2 (sub 0 n1 Y) = mx n1 n2 (sub 0 n1 B2) - mx n1 n2 (sub 0 n1 A) *m trimx u (diagX dA dB) n2 (sub n1 n1 B2)
  | SLeft, Lower => trimx u dA n2 (sub n1 n1 A) *m mx n2 n1 (sub n1 0 Y) = mx n2 n1 (sub n1 0 B2) - mx n2 n1 (sub n1 0 A) *m trimx u (diagX dA dB) n1 B2
  | SRight, Upper => mx n1 n2 (sub 0 n1 Y) *m trimx u dA n2 (sub n1 n1 A) = mx n1 n2 (sub 0 n1 B2) - trimx u (diagX dA dB) n1 B2 *m mx n1 n2 (sub 0 n1 A)
  | SRight, Lower => mx n2 n1 (sub n1 0 Y) *m trimx u dA n1 A = mx n2 n1 (sub n1 0 B2) - trimx u (diagX dA dB) n2 (sub n1 n1 B2) *m mx n2 n1 (sub n1 0 A)
  end ->
  trstr_post s u dA dB (n1 + n2) A B Y.
Proof.
move=> [fr1 H1] [fr3 H3]; set B2 := at_ _ _ _ _.
have EB1 i j : (n1 <= i)%N || (n1 <= j)%N -> B1 i j = B i j by move=> H; rewrite fr1 //; lia.
have EB2 i j : B2 i j = if (n1 <= i)%N && (n1 <= j)%N then B3 (i - n1)%N (j - n1)%N else B1 i j by [].
have fr2 : forall i j, ~~ tcell u (diagX dA dB) (n1 + n2) i j -> B2 i j = B i j.
  move=> i j ij; rewrite EB2; case: ifP => [/andP[i1 j1]|n].
    rewrite fr3 /sub ?subnKC ?EB1 ?i1 //.
    apply: contra ij; rewrite /tcell; case: (u); case: (diagX dA dB) => /=; lia.
  by rewrite fr1 //; apply: contra ij; rewrite /tcell; case: (u); case: (diagX dA dB) => /=; lia.
have T1 Z : (forall i j, (i < n1)%N -> (j < n1)%N -> Z i j = B2 i j) -> trimx u (diagX dA dB) n1 Z = trimx u (diagX dA dB) n1 B1.
  by move=> ZE; apply: eq_trimx => i j iN jN _; rewrite ZE // EB2 (ltn_geF iN).
have T3 Z : (forall i j, (n1 <= i)%N -> (n1 <= j)%N -> Z i j = B2 i j) -> trimx u (diagX dA dB) n2 (sub n1 n1 Z) = trimx u (diagX dA dB) n2 B3.
  by move=> ZE; apply: eq_trimx => i j iN jN _; rewrite /sub ZE ?leq_addr // EB2 !leq_addr /= !addKn.
have T4 : trimx u dB n2 (sub n1 n1 B1) = trimx u dB n2 (sub n1 n1 B).
  by apply: eq_trimx => i j iN jN _; rewrite /sub EB1 ?leq_addr.
rewrite {}T4 in H3.
have EO p q m n : ((p = 0%N /\ q = n1 /\ (m <= n1)%N) \/ (p = n1 /\ q = 0%N /\ (n <= n1)%N)) -> mx m n (sub p q B2) = mx m n (sub p q B).
  by move=> H; apply: eq_mx => i j iN jN; rewrite /sub EB2 ifN ?EB1 //; lia.
case: u H1 H3 {fr1 fr3} fr2 T1 T3 => /= H1 H3 fr2 T1 T3 frY E.
  have frame : tri_frame Upper (diagX dA dB) (n1 + n2) Y B.
    by move=> i j ij; rewrite frY ?fr2 //; apply: contra ij; lia.
  have T1Y : trimx Upper (diagX dA dB) n1 Y = trimx Upper (diagX dA dB) n1 B1.
    by apply: T1 => i j iN jN; rewrite frY //; lia.
  have T3Y : trimx Upper (diagX dA dB) n2 (sub n1 n1 Y) = trimx Upper (diagX dA dB) n2 B3.
    by apply: T3 => i j iN jN; rewrite frY //; lia.
  split=> //; rewrite !trimx_up !mulmx_block !mul0mx !mulmx0 !addr0 !add0r T1Y T3Y -(EO 0%N n1); last by left.
  by case: s H1 H3 E => -> ->; rewrite ?T1 ?T3 // => ->; rewrite ?subrK ?[_ *m _ + _]addrC ?subrK.
have frame : tri_frame Lower (diagX dA dB) (n1 + n2) Y B.
  by move=> i j ij; rewrite frY ?fr2 //; apply: contra ij; lia.
have T1Y : trimx Lower (diagX dA dB) n1 Y = trimx Lower (diagX dA dB) n1 B1.
  by apply: T1 => i j iN jN; rewrite frY //; lia.
have T3Y : trimx Lower (diagX dA dB) n2 (sub n1 n1 Y) = trimx Lower (diagX dA dB) n2 B3.
  by apply: T3 => i j iN jN; rewrite frY //; lia.
split=> //; rewrite !trimx_lo !mulmx_block !mul0mx !mulmx0 !addr0 !add0r T1Y T3Y -(EO n1 0%N); last by right.
by case: s H1 H3 E => -> ->; rewrite ?T1 ?T3 // => ->; rewrite ?subrK ?[_ *m _ + _]addrC ?subrK.
Qed.

Lemma trstr_post1 s u dA dB A B : inv_diag dA 1 A ->
  trstr_post s u dA dB 1 A B
    (if dA is Unit then B else upd B 0 0 (if dB is Unit then (A 0%N 0%N)^-1 else B 0%N 0%N / A 0%N 0%N)).
Proof.
move=> dA1; split.
  move=> i j; case: dA dA1 => //= _; rewrite /diagX; case: (dB) => /= H; rewrite /upd ifN //; lia.
by case: s; apply/matrixP => i j; rewrite !ord1 !mxE big_ord1 !mxE /tri /=;
  case: dA dA1 => [|/(_ erefl 0%N isT) a0]; rewrite /diagX; case: (dB) => /=; rewrite ?mulr1 ?mul1r // /upd /= ?divff ?mulVf // ?divfK // mulrC divfK.
Qed.

Lemma at2 p q m n (f g : grid F -> grid F) X : frame m n (f (sub p q X)) (sub p q X) ->
  (forall Z, frame m n (g Z) Z) ->
  (forall i j, ~~ [&& p <= i < p + m & q <= j < q + n]%N -> at_ p q g (at_ p q f X) i j = X i j) /\
  mx m n (sub p q (at_ p q g (at_ p q f X))) = mx m n (g (sub p q (at_ p q f X))).
Proof.
move=> ff fg; split; last exact: mx_sub_at.
move=> i j ij; rewrite {1}/at_; case: ifP => [/andP[pi qj]|n1].
  by rewrite fg /sub ?at_in ?ff /sub ?subnKC //; apply: contra ij; lia.
by rewrite /at_ n1.
Qed.

Lemma inv_diag_ext d n A A' : (forall i, (i < n)%N -> A i i = A' i i) -> inv_diag d n A -> inv_diag d n A'.
Proof. by move=> E H /H {}H i iN; rewrite -E ?H. Qed.

Lemma ftrstr_ok n s u dA dB N A B : (N <= n)%N -> inv_diag dA N A ->
  trstr_post s u dA dB N A B (ftrstr n s u dA dB N A B).
Proof.
elim: n N A B => [|n IH] N A B.
  by rewrite leqn0 => /eqP-> _; split=> //; case: s; apply: mx0N.
move=> Nn dN; rewrite /=; case: eqP => [->|N0].
  by split=> //; case: (s); apply: mx0N.
case: leqP => N1.
  have E : N = 1%N by lia.
  by subst N; apply: trstr_post1.
have NE : N = (N./2 + (N - N./2))%N by lia.
have L1 : (N./2 <= n)%N by lia.
have L2 : (N - N./2 <= n)%N by lia.
move: (N./2) (N - N./2)%N NE L1 L2 => n1 n2 NE L1 L2; subst N.
have d1 : inv_diag dA n1 A by move=> /dN H i iN; apply: H; lia.
have d2 : inv_diag dA n2 (sub n1 n1 A) by apply: inv_diag_sub dN.
have P1 := IH n1 A B L1 d1.
have P3 := IH n2 (sub n1 n1 A) (sub n1 n1 (ftrstr n s u dA dB n1 A B)) L2 d2.
move: (ftrstr n s u dA dB n1 A B) P1 P3 => B1 P1 P3.
have T Y := @trstr_block s u dA dB n1 n2 A B B1 _ Y P1 P3.
rewrite -[at_ n1 n1 (ftrstr n s u dA dB n2 (sub n1 n1 A)) B1]/(at_ n1 n1 (fun=> ftrstr n s u dA dB n2 (sub n1 n1 A) (sub n1 n1 B1)) B1).
cbv zeta in T; move: (at_ n1 n1 _ B1) T => B2.
have m1 : (-1 : F) != 0 by rewrite oppr_eq0 oner_eq0.
have o1 : (1 : F) != 0 by rewrite oner_eq0.
have -> : (if diag_eq dA dB then dA else NonUnit) = diagX dA dB by case: (dA); case: (dB).
case: u {IH P1 P3}; case: s => /= T.
- have [ff Ef] := ftrmm3_mx SRight Upper NoTrans (diagX dA dB) n1 n2 (sub n1 n1 B2) (sub 0 n1 A) (sub 0 n1 B2) m1 o1.
  have fg Z := proj1 (@ftrsm_mx F SLeft Upper NoTrans dA n1 n2 1 A Z d1).
  have [fr E] := at2 ff fg.
  apply: T fr _; rewrite E.
  have [_] := @ftrsm_mx F SLeft Upper NoTrans dA n1 n2 1 A (sub 0 n1 (at_ 0 n1 (ftrmm3 SRight Upper NoTrans (diagX dA dB) n1 n2 (-1) (sub n1 n1 B2) (sub 0 n1 A) 1) B2)) d1.
  by rewrite /= => ->; rewrite mx_sub_at Ef /= !scale1r scaleN1r addrC.
- have [ff Ef] := ftrmm3_mx SLeft Upper NoTrans (diagX dA dB) n1 n2 B2 (sub 0 n1 A) (sub 0 n1 B2) m1 o1.
  have fg Z := proj1 (@ftrsm_mx F SRight Upper NoTrans dA n1 n2 1 (sub n1 n1 A) Z d2).
  have [fr E] := at2 ff fg.
  apply: T fr _; rewrite E.
  have [_] := @ftrsm_mx F SRight Upper NoTrans dA n1 n2 1 (sub n1 n1 A) (sub 0 n1 (at_ 0 n1 (ftrmm3 SLeft Upper NoTrans (diagX dA dB) n1 n2 (-1) B2 (sub 0 n1 A) 1) B2)) d2.
  by rewrite /= => ->; rewrite mx_sub_at Ef /= !scale1r scaleN1r addrC.
- have [ff Ef] := ftrmm3_mx SRight Lower NoTrans (diagX dA dB) n2 n1 B2 (sub n1 0 A) (sub n1 0 B2) m1 o1.
  have fg Z := proj1 (@ftrsm_mx F SLeft Lower NoTrans dA n2 n1 1 (sub n1 n1 A) Z d2).
  have [fr E] := at2 ff fg.
  apply: T fr _; rewrite E.
  have [_] := @ftrsm_mx F SLeft Lower NoTrans dA n2 n1 1 (sub n1 n1 A) (sub n1 0 (at_ n1 0 (ftrmm3 SRight Lower NoTrans (diagX dA dB) n2 n1 (-1) B2 (sub n1 0 A) 1) B2)) d2.
  by rewrite /= => ->; rewrite mx_sub_at Ef /= !scale1r scaleN1r addrC.
- have [ff Ef] := ftrmm3_mx SLeft Lower NoTrans (diagX dA dB) n2 n1 (sub n1 n1 B2) (sub n1 0 A) (sub n1 0 B2) m1 o1.
  have fg Z := proj1 (@ftrsm_mx F SRight Lower NoTrans dA n2 n1 1 A Z d1).
  have [fr E] := at2 ff fg.
  apply: T fr _; rewrite E.
  have [_] := @ftrsm_mx F SRight Lower NoTrans dA n2 n1 1 A (sub n1 0 (at_ n1 0 (ftrmm3 SLeft Lower NoTrans (diagX dA dB) n2 n1 (-1) (sub n1 n1 B2) (sub n1 0 A) 1) B2)) d1.
  by rewrite /= => ->; rewrite mx_sub_at Ef /= !scale1r scaleN1r addrC.
Qed.
End Sym.
