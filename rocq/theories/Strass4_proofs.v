From mathcomp Require Import all_ssreflect all_algebra zify ring.
From Verif Require Import Grid Perm_model Perm_spec Tri_model Tri_spec Tri_proofs Sym_model Sym_spec Sym_proofs
  Strass_model Strass_spec Strass_proofs Strass2_proofs Strass3_proofs.
Set Implicit Arguments.
Unset Strict Implicit.
Unset Printing Implicit Defensive.
Import GRing.Theory.
Local Open Scope ring_scope.

Section Main.
Variable F : fieldType.
Implicit Types A B C R S T X : grid F.
Variables (base : syrk F) (junk : grid F).
Hypothesis base_ok : syrk_right base.
Variables (x y : F).
Hypothesis xy : x * x + y * y = -1.

Lemma strassen_ok r u t N K al A be C : (2 ^ r.+1 %| N)%N -> (2 ^ r.+1 %| K)%N -> be = 0 \/ (0 < N)%N ->
  syrk_result u t N K al A be C (fsyrk_strassen base junk r u t N K x y al A be C).
Proof.
elim: r N K al A be C => [|r IH] N K al A be C dN dK nz.
  by exists (base u t N K al A be C) => //; exact: base_ok.
have [NE dN2] := dvd_half dN; have [KE dK2] := dvd_half dK.
have K2E : (K./2 = K./2./2 + K./2./2)%N.
  by case/dvdnP: dK2 => c ->; rewrite expnS mulnCA mul2n doubleK addnn.
have IH' al' A' be' C' : be' = 0 \/ (0 < N./2)%N ->
    syrk_result u t N./2 K./2 al' A' be' C' (fsyrk_strassen base junk r u t N./2 K./2 x y al' A' be' C').
  exact: IH.
case: (eqVneq be 0) => [->|be0]; first exact: step0.
by apply: step1 => //; case: nz => // e; rewrite e eqxx in be0.
Qed.

Lemma gram_cat t K1 K2 A i j : gram t (K1 + K2) A i j = gram t K1 A i j + gram t K2 (subop t 0 K1 A) i j.
Proof.
rewrite !gram_dot dot_cat; congr (_ + _); apply: eq_dot => l _; by rewrite optr_subop.
Qed.

Lemma winograd_ok r u t N K al A be C : [\/ r = 0%N, be = 0 | (2 ^ r.+1 <= N)%N] ->
  syrk_result u t N K al A be C (fsyrk_winograd base junk r u t N K x y al A be C).
Proof.
move=> cond; rewrite /fsyrk_winograd; case: eqP => [r0|/eqP r0].
  by exists (base u t N K al A be C) => //; exact: base_ok.
set q := (2 ^ r.+1)%N; set Ns := (N %/ q * q)%N; set Ks := (K %/ q * q)%N.
have q0 : (0 < q)%N by rewrite expn_gt0.
have NsN : (Ns <= N)%N by exact: leq_trunc_div.
have KsK : (Ks <= K)%N by exact: leq_trunc_div.
have nz : be = 0 \/ (0 < Ns)%N.
  case: cond => [e|e|e]; [by rewrite e in r0|by left|right].
  by rewrite /Ns muln_gt0 q0 andbT divn_gt0.
have [C1 -> [U1 F1]] := @strassen_ok r u t Ns Ks al A be C (dvdn_mull _ (dvdnn _)) (dvdn_mull _ (dvdnn _)) nz.
have [U2 F2] := base_ok u t Ns (K - Ks)%N al (subop t 0 Ks A) 1 C1.
set C2 := base u t Ns (K - Ks)%N _ _ _ _ in U2 F2 *.
have [U3 F3] := base_ok u t (N - Ns)%N K al (subop t Ns 0 A) be (sub Ns Ns C2).
set C3 := at_ Ns Ns _ C2.
have C2E i j : (i < Ns)%N -> (j < Ns)%N -> in_tri u i j -> C2 i j = al * gram t K A i j + be * C i j.
  move=> iN jN ij; have e : gram t K A i j = gram t Ks A i j + gram t (K - Ks) (subop t 0 Ks A) i j by rewrite -gram_cat subnKC.
  by rewrite U2 // mul1r U1 // e; ring.
have C2o i j : ~~ ((i < Ns) && (j < Ns))%N -> C2 i j = C i j by move=> ne; rewrite F2 // F1.
clearbody C2.
have C3l i j : ~~ ((Ns <= i) && (Ns <= j))%N -> C3 i j = C2 i j by move=> ne; rewrite /C3 /at_ (negbTE ne).
have C3E i j : (Ns <= i < N)%N -> (Ns <= j < N)%N -> in_tri u i j -> C3 i j = al * gram t K A i j + be * C i j.
  move=> /andP[i1 i2] /andP[j1 j2] ij; rewrite /C3 /at_ i1 j1 /= U3; try lia; last by case: (u) ij => /=; lia.
  rewrite /sub !subnKC // C2o; last lia.
  congr (_ * _ + _); rewrite !gram_dot; apply: eq_dot => l _; by rewrite optr_subop subnKC.
have C3o i j : ~~ ((i < N) && (j < N))%N -> C3 i j = C i j.
  move=> ne; rewrite /C3 /at_; case: ifP => // [/andP[i1 j1]|]; last by rewrite C2o //; lia.
  by rewrite F3 /sub ?subnKC // ?C2o //; lia.
clearbody C3; set X := match u with Lower => _ | _ => _ end; exists X => //.
have cr i j : (Ns <= j)%N -> dot K (optr t (subop t Ns 0 A) (j - Ns)%N) (optr t A i) = dot K (optr t A j) (optr t A i).
  by move=> jN; apply: eq_dot => // l _; rewrite optr_subop subnKC.
rewrite /X; case: (u) C2E C3E C3l C3o => C2E C3E C3l C3o; split=> i j.
- move=> iN jN ij; rewrite /at_ /= subn0.
  case: (leqP Ns j) => j1; last by rewrite C3l ?C2E //; [move: ij; rewrite /in_tri; lia | lia].
  rewrite fgemmE; case: (ltnP i Ns) => i1 /=.
    rewrite (_ : (j - Ns < N - Ns)%N); last lia.
    rewrite /sub /= !add0n subnKC // C3l ?C2o; [|lia|lia].
    congr (_ * _ + _); rewrite gram_dot dotC -cr // dotC rsumE; apply: eq_bigr => l _.
    by rewrite optr_flip.
  by rewrite /sub add0n subnKC // C3E // ?i1 ?j1.
- move=> ne; rewrite /at_ /= subn0; case: (leqP Ns j) => j1; last by rewrite C3o.
  rewrite fgemmE /sub add0n subnKC // (_ : ((i < Ns) && _)%N = false); last by lia.
  by rewrite C3o.
- move=> iN jN ij; rewrite /at_ /= subn0 andbT.
  case: (leqP Ns i) => i1; last by rewrite C3l ?C2E //; [move: ij; rewrite /in_tri; lia | lia].
  rewrite fgemmE; case: (ltnP j Ns) => j1; rewrite ?andbT ?andbF.
    rewrite (_ : (i - Ns < N - Ns)%N); last lia.
    rewrite /sub /= !add0n subnKC // C3l ?C2o; [|lia|lia].
    congr (_ * _ + _); rewrite gram_dot -cr // rsumE; apply: eq_bigr => l _.
    by rewrite optr_flip.
  by rewrite /sub add0n subnKC // C3E // ?i1 ?j1.
- move=> ne; rewrite /at_ /= subn0 andbT; case: (leqP Ns i) => i1; last by rewrite C3o.
  rewrite fgemmE /sub add0n subnKC // (_ : (_ && (j < Ns))%N = false); last by lia.
  by rewrite C3o.
Qed.

Lemma winograd_delayed_ok r u t N K al A be C : [\/ r = 0%N, be = 0 | (2 ^ r.+1 <= N)%N] ->
  syrk_result u t N K al A be C (fsyrk_winograd_delayed base junk r u t N K x y al A be C).
Proof.
move=> cond; rewrite /fsyrk_winograd_delayed; case: eqP => [->|N0]; first by exists C.
case: ifP => [KA|KA].
  exists (fscalin N N be C) => //; split=> i j; rewrite fscalinE; last by move/negbTE ->.
  move=> -> -> _ /=; rewrite gram_dot /dot; case/orP: KA => /eqP ->; rewrite ?big_ord0 ?mul0r ?mulr0 ?add0r //.
case gen: ((al != 1) && (al != -1)); last by have [X -> H] := @winograd_ok r u t N K al A be C cond; exists X.
have cond' : [\/ r = 0%N, be / al = 0 | (2 ^ r.+1 <= N)%N].
  case: cond => [e|e|e]; [exact: Or31|apply: Or32|exact: Or33]; by rewrite e mul0r.
have [X -> [U Fr]] := @winograd_ok r u t N K 1 A (be / al) C cond'.
exists (fscalin N N al X) => //; split=> i j; rewrite fscalinE; last by move=> ne; rewrite (negbTE ne) Fr.
move=> iN jN ij; rewrite iN jN /= U // mul1r mulrDr mulrA mulrCA mulfV ?mulr1 //.
by move: KA => /negbT; rewrite negb_or => /andP[].
Qed.

Let none (z : option (grid F)) : Prop := z = None.
Lemma strassen_oob r u t N K al A be C : (0 < r)%N -> be != 0 -> (N < 2 ^ r.+1)%N ->
  fsyrk_winograd base junk r u t N K x y al A be C = None.
Proof.
case: r => // r _ be0 Nq; rewrite /fsyrk_winograd (_ : (r.+1 == 0)%N = false) //; cbv zeta.
rewrite divn_small // mul0n; set Ks := (_ * _)%N.
have E : none (fsyrk_strassen base junk r.+1 u t 0 Ks x y al A be C).
  rewrite strassenS; do 8 intro_let; rewrite (negbTE be0); do 9 intro_let.
  case: (fsyrk_strassen _ _ _ _ _ _ _ _ _ _ _ _ _) => [P5|]; last by [].
  do 3 intro_let; case: (fsyrk_strassen _ _ _ _ _ _ _ _ _ _ _ _ _) => [P1|]; last by [].
  by do 5 intro_let.
by rewrite E.
Qed.
End Main.

(** The classical routines the recursion ends with. *)
Section Bases.
Variable F : fieldType.
Lemma frame_tri_only u N (C X : grid F) : tri_only u N C X -> frame N N X C.
Proof. by move=> H i j ne; apply: H; apply: contra ne => /and3P[-> -> _]. Qed.

Lemma fsyrk_right : syrk_right (@fsyrk F).
Proof.
move=> u t N K al A be C; split; first exact: fsyrk_ok.
rewrite /fsyrk; case: eqP => // _; case: ifP => _; last by have [_ /frame_tri_only] := fsyrk_default_ok u t N K al A be C.
by move=> i j ne; rewrite fscalinE (negbTE ne).
Qed.

Lemma fsyrk_delayed_right : syrk_right (@fsyrk_delayed F).
Proof.
move=> u t N K al A be C; split; first exact: fsyrk_delayed_ok.
rewrite /fsyrk_delayed; case: eqP => // _; case: ifP => _; first by move=> i j ne; rewrite fscalinE (negbTE ne).
case: ((al != 1) && (al != -1)); last by have [_ /frame_tri_only] := fsyrk_default_ok u t N K al A be C.
move=> i j ne; rewrite fscalinE (negbTE ne).
by have [_ /frame_tri_only ->] := fsyrk_default_ok u t N K 1 A (be / al) C.
Qed.
End Bases.

(** Every finite field has -1 as a sum of two squares. *)
Lemma two_squares (F : finFieldType) : exists x y : F, x * x + y * y = -1.
Proof.
pose S := [set x * x | x : F]; pose T := [set -1 - x * x | x : F].
have cT : #|T| = #|S|.
  rewrite /T (_ : [set _ | x : F] = [set -1 - s | s in S]); last first.
    by apply/setP => z; apply/imsetP/imsetP => [[a _ ->]|[s /imsetP[a _ ->] ->]]; [exists (a * a) => //; apply/imsetP; exists a | exists a].
  by rewrite card_imset // => a b /addrI/oppr_inj.
have cS : (#|F| < #|S| + #|S|)%N.
  pose f (z : F) : {set F} := [set a | a * a == z].
  have f2 (z : F) : z \in S -> (#|f z| <= 2)%N.
    move=> /imsetP[a _ ->]; apply: leq_trans (_ : #|[set a; - a]| <= 2)%N; last by rewrite cards2; case: eqP.
    apply: subset_leq_card; apply/subsetP => b; rewrite !inE => /eqP e.
    have : (b - a) * (b + a) = 0 by rewrite (_ : (b - a) * (b + a) = b * b - a * a); [rewrite e subrr|ring].
    by move/eqP; rewrite mulf_eq0 subr_eq0 addr_eq0.
  have S0 : 0 \in S by apply/imsetP; exists 0 => //; rewrite mulr0.
  have f0 : #|f 0| = 1%N.
    rewrite -(cards1 (0 : F)); apply: eq_card => b; rewrite !inE mulf_eq0 orbb //.
  have cF : #|F| = (\sum_(z in S) #|f z|)%N.
    rewrite -sum1_card (partition_big_imset (fun a : F => a * a)) /=; apply: eq_bigr => z _.
    by rewrite sum1dep_card; apply: eq_card => a; rewrite !inE.
  rewrite cF (big_setD1 _ S0) /= f0 (cardsD1 0 S) S0.
  apply: (@leq_ltn_trans (1 + #|S :\ 0%R| * 2)%N); last by rewrite muln2 -addnn /= !add1n addSn addnS ltnS.
  by rewrite leq_add2l -sum_nat_const; apply: leq_sum => z /setD1P[_ /f2].
have [z /setIP[/imsetP[a _ e1] /imsetP[b _ e2]]] : exists z, z \in S :&: T.
  apply/set0Pn; rewrite -card_gt0 lt0n; apply/negP => /eqP e.
  have := cardsUI S T; rewrite e addn0 cT => e'; have := max_card (mem (S :|: T)).
  by rewrite leqNgt [X in (_ < X)%N]e' cS.
by exists a, b; rewrite -e1 e2 subrK.
Qed.
