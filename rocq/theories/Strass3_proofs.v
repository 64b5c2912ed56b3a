From mathcomp Require Import all_ssreflect all_algebra zify ring.
From Verif Require Import Grid Perm_model Perm_spec Tri_model Tri_spec Tri_proofs Sym_model Sym_spec Sym_proofs
  Strass_model Strass_spec Strass_proofs Strass2_proofs.
Set Implicit Arguments.
Unset Strict Implicit.
Unset Printing Implicit Defensive.
Import GRing.Theory.
Local Open Scope ring_scope.

Section Main.
Variable F : fieldType.
Implicit Types A B C R S T X : grid F.

Lemma optr_rd u n q q' t (f : grid F -> grid F) C i l : frame n n (f (subq u n q C)) (subq u n q C) ->
  (i < n)%N -> (l < n)%N ->
  optr t (subq u n q' (atq u n q f C)) i l = if quad_eq q q' then optr t (f (subq u n q C)) i l else optr t (subq u n q' C) i l.
Proof. by move=> fr iN lN; case: t => /=; rewrite /tr subq_atq //; case: ifP. Qed.

Lemma frame_cS t N K x y A S T : (K./2 = K./2./2 + K./2./2)%N -> (K./2 <= N./2)%N ->
  frame N./2 N./2 (computeS1S2 t N K x y A S T).1 S.
Proof. by move=> KE kn; apply: (frame_optr (t := t) kn) => i l ne; rewrite cS_E // (negbTE ne). Qed.
Lemma frame_cT t N K x y A S T : (K./2 = K./2./2 + K./2./2)%N -> (K./2 <= N./2)%N ->
  frame N./2 N./2 (computeS1S2 t N K x y A S T).2 T.
Proof. by move=> KE kn; apply: (frame_optr (t := t) kn) => i l ne; rewrite cT_E // (negbTE ne). Qed.

Lemma unlc u X Y n : (forall i j, (i < n)%N -> (j < n)%N -> lc u X i j = lc u Y i j) ->
  forall i j, (i < n)%N -> (j < n)%N -> X i j = Y i j.
Proof. by move=> H i j iN jN; case: u H => /= H; [exact: (H j i)|exact: H]. Qed.

Lemma save_restore u n be C11' C22' C22o C11o (D : nat -> F) i j : (0 < n)%N ->
  (forall a, (a < n)%N -> D a = C22o a a) ->
  (forall a b, (a < n)%N -> (b < n)%N -> C11' a b = save u n C22o C11o a b) ->
  (i < n)%N -> (j <= i)%N ->
  lc u (restore u n be C11' D C22') i j = lc u C22' i j + be * lc u C22o i j.
Proof.
move=> n0 HD HC iN ji; have jN : (j < n)%N by lia.
case: u HC => HC /=; rewrite /tr restoreE // iN jN /=; case: (altP (_ =P _)) => [e|ne].
- by rewrite e HD.
- rewrite (_ : (j < i)%N); last by lia.
  rewrite HC ?saveE; try lia.
  rewrite (_ : (_ < _ < _)%N); last by lia.
  by congr (_ + _ * C22o _ _); lia.
- by rewrite e HD.
- rewrite (_ : (j < i)%N); last by lia.
  rewrite HC ?saveE; try lia.
  rewrite (_ : (_ < _ < _)%N); last by lia.
  by congr (_ + _ * C22o _ _); lia.
Qed.

Variables (base : syrk F) (junk : grid F).
Variables (x y : F).
Hypothesis xy : x * x + y * y = -1.

Section Step.
Variables (r : nat) (u : uplo) (t : transp) (N K : nat).
Hypothesis (NE : N = (N./2 + N./2)%N) (KE : K = (K./2 + K./2)%N) (K2E : (K./2 = K./2./2 + K./2./2)%N).
Hypothesis IH : forall al A be C, be = 0 \/ (0 < N./2)%N ->
  syrk_result u t N./2 K./2 al A be C (fsyrk_strassen base junk r u t N./2 K./2 x y al A be C).

Lemma step0 al A C : syrk_result u t N K al A 0 C (fsyrk_strassen base junk r.+1 u t N K x y al A 0 C).
Proof.
rewrite strassenS; do 8 intro_let; rewrite eqxx.
do 10 intro_let.
pose a11 i := optr t A i.
pose a12 i l := optr t A i (K2 + l)%N.
pose a21 i := optr t A (N2 + i)%N.
pose a22 i l := optr t A (N2 + i)%N (K2 + l)%N.
pose k4 := K2./2.
pose s1 i l := rot k4 x y (a21 i) l - rot k4 x y (a11 i) l.
pose s2 i l := a22 i l - rot k4 x y (a21 i) l.
have kn : big = false -> (K2 <= N2)%N.
  by rewrite /big /K2 /N2 => /negbT; rewrite -leqNgt; lia.
have FrA : big = false -> frame N2 N2 ((S1S2 (rd Q21 C) junk).1) (rd Q21 C).
  by move=> /kn kn'; apply: frame_cS.
have FrB : big = false -> frame N2 N2 ((S1S2 (rd Q21 C) (rd Q12 Ca)).2) (rd Q12 Ca).
  by move=> /kn kn'; apply: frame_cT.
have S1E i l : (i < N2)%N -> (l < K2)%N -> optr t (S1 Cb) i l = s1 i l.
  move=> iN lK; rewrite /S1 /Cb; case Eb: big.
    by rewrite /X1 /S1S2 cS_E // iN lK.
  have lN := leq_trans lK (kn Eb).
  rewrite /wr /rd optr_rd //=; last exact: FrB.
  rewrite /Ca Eb /wr optr_rd //=; last exact: FrA.
  by rewrite /S1S2 cS_E // iN lK.
have S2E i l : (i < N2)%N -> (l < K2)%N -> optr t (S2 Cb) i l = s2 i l.
  move=> iN lK; rewrite /S2 /Cb; case Eb: big.
    by rewrite /X2 /S1S2 cT_E // iN lK.
  have lN := leq_trans lK (kn Eb).
  rewrite /wr /rd optr_rd //=; last exact: FrB.
  by rewrite /S1S2 cT_E // iN lK.
have outb i j : ~~ ((i < N) && (j < N))%N -> Cb i j = C i j.
  rewrite NE => ne; rewrite /Cb /Ca; case Eb: big => //.
  rewrite /wr atq_out //; last by have := FrB Eb; rewrite /Ca Eb.
  by rewrite atq_out //; apply: FrA.
clearbody S1S2 Ca Cb.
have Fr1 : frame N2 N2 (gemm (S2 Cb) (S1 Cb) 0 (rd Q22 Cb)) (rd Q22 Cb) by exact: frame_gemm.
have V1 q i j : (i < N2)%N -> (j < N2)%N -> V u N2 q C1 i j =
    if quad_eq Q22 q then lc u (gemm (S2 Cb) (S1 Cb) 0 (rd Q22 Cb)) i j else V u N2 q Cb i j by exact: (Vat _ Fr1).
have out1 i j : ~~ ((i < N) && (j < N))%N -> C1 i j = C i j.
  by move=> ne; rewrite /C1 /wr atq_out ?outb // -NE.
have V22 i j : (i < N2)%N -> (j < N2)%N -> V u N2 Q22 C1 i j = al * dot K2 (s2 i) (s1 j).
  move=> iN jN; rewrite V1 //= lc_gemm // mul0r addr0; congr (_ * _).
  by apply: eq_dot => l lK; rewrite ?S1E ?S2E.
do 1 intro_let.
pose s3 i l := s1 i l - a22 i l.
have Fr2 : big = false -> frame N2 N2 (sub3 (rd Q21 C1)) (rd Q21 C1).
  by move=> /kn kn'; apply: frame_fillop.
have V2 q i j : (i < N2)%N -> (j < N2)%N -> ~~ quad_eq Q21 q -> V u N2 q C2 i j = V u N2 q C1 i j.
  by move=> iN jN ne; rewrite /C2; case Eb: big => //; rewrite (Vat _ (Fr2 Eb)) // (negbTE ne).
have out2 i j : ~~ ((i < N) && (j < N))%N -> C2 i j = C i j.
  by move=> ne; rewrite /C2; case Eb: big; rewrite ?out1 // /wr atq_out ?out1 // -?NE //; apply: Fr2.
have S3E i l : (i < N2)%N -> (l < K2)%N -> optr t (S3 C2) i l = s3 i l.
  move=> iN lK; have := S1E i l iN lK; rewrite /S3 /S1 /C2; case Eb: big => S1E'.
    by rewrite /sub3 fillopE iN lK /= S1E' /A22 optr_subop.
  have lN := leq_trans lK (kn Eb).
  rewrite /wr /rd optr_rd //=; last exact: Fr2.
  rewrite /sub3 fillopE iN lK /= /A22 optr_subop /C1 /wr optr_rd //=.
  by rewrite S1E'.
have [P5 P5e [P5u P5f]] := IH al (S3 C2) (rd Q12 C2) (or_introl erefl).
rewrite P5e; do 4 intro_let.
have V3 q i j : (i < N2)%N -> (j < N2)%N -> V u N2 q C3 i j =
    if quad_eq Q12 q then lc u P5 i j else V u N2 q C2 i j by exact: (Vat _ P5f).
have out3 i j : ~~ ((i < N) && (j < N))%N -> C3 i j = C i j.
  by move=> ne; rewrite /C3 /wr atq_out ?out2 // -NE.
have V12 i j : (i < N2)%N -> (j <= i)%N -> V u N2 Q12 C3 i j = al * dot K2 (s3 i) (s3 j).
  move=> iN ji; rewrite V3 //=; last by lia.
  move/lc_update: P5u => P5u; rewrite P5u // mul0r addr0; congr (_ * _).
  by apply: eq_dot => l lK; rewrite S3E //; lia.
pose s4 i l := s3 i l + a12 i l.
have S3E' i l : (i < N2)%N -> (l < K2)%N -> optr t (S3 C3) i l = s3 i l.
  move=> iN lK; have := S3E i l iN lK; rewrite /S3 /C3; case Eb: big => S3E' //.
  by rewrite /rd /wr optr_rd //=; exact: leq_trans lK (kn Eb).
have Fr4 : big = false -> frame N2 N2 (add4 (rd Q11 C3)) (rd Q11 C3).
  by move=> /kn kn'; apply: frame_fillop.
have V4 q i j : (i < N2)%N -> (j < N2)%N -> ~~ quad_eq Q11 q -> V u N2 q C4 i j = V u N2 q C3 i j.
  by move=> iN jN ne; rewrite /C4; case Eb: big => //; rewrite (Vat _ (Fr4 Eb)) // (negbTE ne).
have out4 i j : ~~ ((i < N) && (j < N))%N -> C4 i j = C i j.
  by move=> ne; rewrite /C4; case Eb: big; rewrite ?out3 // /wr atq_out ?out3 // -?NE //; apply: Fr4.
have S4E i l : (i < N2)%N -> (l < K2)%N -> optr t (S4 C4) i l = s4 i l.
  move=> iN lK; rewrite /S4 /C4; case Eb: big.
    by rewrite /add4 fillopE iN lK /= S3E' // /A12 optr_subop.
  have lN := leq_trans lK (kn Eb).
  rewrite /wr /rd optr_rd //=; last exact: Fr4.
  by rewrite /add4 fillopE iN lK /= S3E' // /A12 optr_subop.
intro_let.
have Fr5 : frame N2 N2 (gemm A22 (S4 C4) 0 (rd Q21 C4)) (rd Q21 C4) by exact: frame_gemm.
have V5 q i j : (i < N2)%N -> (j < N2)%N -> V u N2 q C5 i j =
    if quad_eq Q21 q then lc u (gemm A22 (S4 C4) 0 (rd Q21 C4)) i j else V u N2 q C4 i j by exact: (Vat _ Fr5).
have out5 i j : ~~ ((i < N) && (j < N))%N -> C5 i j = C i j.
  by move=> ne; rewrite /C5 /wr atq_out ?out4 // -NE.
have V21 i j : (i < N2)%N -> (j < N2)%N -> V u N2 Q21 C5 i j = al * dot K2 (a22 i) (s4 j).
  move=> iN jN; rewrite V5 //= lc_gemm // mul0r addr0; congr (_ * _).
  by apply: eq_dot => l lK; rewrite ?S4E // /A22 optr_subop.
have [P1 P1e [P1u P1f]] := IH al A (rd Q11 C5) (or_introl erefl).
rewrite P1e; do 6 intro_let.
have V6 q i j : (i < N2)%N -> (j < N2)%N -> V u N2 q C6 i j =
    if quad_eq Q11 q then lc u P1 i j else V u N2 q C5 i j by exact: (Vat _ P1f).
have V7 q i j : (i < N2)%N -> (j < N2)%N -> V u N2 q C7 i j =
    if quad_eq Q12 q then lc u (tri_addin u N2 (rd Q11 C6) (rd Q12 C6)) i j else V u N2 q C6 i j.
  by move=> iN jN; rewrite (Vat _ (@frame_tri_addin _ _ _ _ _)).
have V8 q i j : (i < N2)%N -> (j < N2)%N -> V u N2 q C8 i j =
    if quad_eq Q12 q then lc u (explicit u N2 (rd Q12 C7)) i j else V u N2 q C7 i j.
  by move=> iN jN; rewrite (Vat _ (@frame_explicit _ _ _ _)).
have V9 q i j : (i < N2)%N -> (j < N2)%N -> V u N2 q C9 i j =
    if quad_eq Q12 q then lc u (add_tr N2 (rd Q22 C8) (rd Q12 C8)) i j else V u N2 q C8 i j.
  by move=> iN jN; rewrite (Vat _ (@frame_add_tr _ _ _ _)).
have V10 q i j : (i < N2)%N -> (j < N2)%N -> V u N2 q C10 i j =
    if quad_eq Q21 q then V u N2 Q21 C9 i j + V u N2 Q12 C9 i j else V u N2 q C9 i j.
  move=> iN jN; rewrite (Vat _ (@frame_fill _ _ _ _)) //; case: ifP => // _.
  by rewrite /V /rd; case: (u) => /=; rewrite /tr /fill iN jN.
have V11 q i j : (i < N2)%N -> (j < N2)%N -> V u N2 q C11 i j =
    if quad_eq Q22 q then lc u (tri_addin u N2 (rd Q12 C10) (rd Q22 C10)) i j else V u N2 q C10 i j.
  by move=> iN jN; rewrite (Vat _ (@frame_tri_addin _ _ _ _ _)).
have outq q f C' : frame N2 N2 (f (rd q C')) (rd q C') ->
    (forall i j, ~~ ((i < N) && (j < N))%N -> C' i j = C i j) ->
    forall i j, ~~ ((i < N) && (j < N))%N -> wr q f C' i j = C i j.
  by move=> fr H i j ne; rewrite /wr atq_out ?H // -NE.
have out6 := outq Q11 (fun _ => P1) C5 P1f out5.
have out7 := outq Q12 _ C6 (@frame_tri_addin _ u N2 (rd Q11 C6) (rd Q12 C6)) out6.
have out8 := outq Q12 _ C7 (@frame_explicit _ u N2 (rd Q12 C7)) out7.
have out9 := outq Q12 _ C8 (@frame_add_tr _ N2 (rd Q22 C8) (rd Q12 C8)) out8.
have out10 := outq Q21 (fun X => fill N2 N2 (fun i j => X i j + rd Q12 C9 i j) X) C9 (@frame_fill _ N2 _ (rd Q21 C9)) out9.
have out11 := outq Q22 _ C10 (@frame_tri_addin _ u N2 (rd Q12 C10) (rd Q22 C10)) out10.
have [P2 P2e [P2u P2f]] := IH al A12 (rd Q12 C11) (or_introl erefl).
rewrite P2e; do 1 intro_let.
have V12' q i j : (i < N2)%N -> (j < N2)%N -> V u N2 q C12 i j =
    if quad_eq Q12 q then lc u P2 i j else V u N2 q C11 i j by exact: (Vat _ P2f).
set X := memo N N _; exists X => //.
have VX q i j : (i < N2)%N -> (j < N2)%N -> V u N2 q X i j =
    if quad_eq Q11 q then lc u (tri_addin u N2 (rd Q12 C12) (rd Q11 C12)) i j else V u N2 q C12 i j.
  move=> iN jN; rewrite -(Vat _ (@frame_tri_addin _ _ _ _ _)) // /V /subq.
  by apply: (@lc_ext _ u _ _ N2) => // a b _ _; rewrite /sub /X memoE.
split; last first.
  move=> i j ne; rewrite /X memoE.
  exact: (outq Q11 _ C12 (@frame_tri_addin _ u N2 (rd Q12 C12) (rd Q11 C12)) (outq Q12 (fun _ => P2) C11 P2f out11)).
(* U2 *)
have U2 i j : (i < N2)%N -> (j < N2)%N -> V u N2 Q12 C9 i j =
    al * (dot K2 (a11 i) (a11 j) + dot K2 (s3 i) (s3 j) + dot K2 (s2 j) (s1 i)).
  have U1 i' j' : (i' < N2)%N -> (j' <= i')%N -> V u N2 Q12 C7 i' j' = al * (dot K2 (a11 i') (a11 j') + dot K2 (s3 i') (s3 j')).
    move=> iN ji; have jN : (j' < N2)%N by lia.
    rewrite V7 //= lc_tri_addin // -/(V u N2 Q12 C6 i' j') -/(V u N2 Q11 C6 i' j') !V6 //= V5 //= V4 //= V12 //.
    by move/lc_update: P1u => ->; rewrite // mul0r addr0 addrC -mulrDr.
  move=> iN jN; rewrite V9 //= lc_add_tr // -/(V u N2 Q12 C8 i j) -/(V u N2 Q22 C8 j i) !V8 //= lc_explicit //.
  rewrite V7 //= V6 //= V5 //= V4 //= V3 //= V2 //= V22 //.
  rewrite -/(V u N2 Q12 C7 i j) -/(V u N2 Q12 C7 j i); case: leqP => ij; rewrite U1 //; last by lia.
    by rewrite -mulrDr.
  by rewrite (dotC _ (a11 j)) (dotC _ (s3 j)) -mulrDr.
have e : K2 = (k4 + k4)%N by exact: K2E.
rewrite [in X in tri_update _ X]NE [in X in gram _ X]KE -/N2 -/K2.
apply: assemble => i j iN ji; rewrite mul0r addr0 -/(a11 i) -/(a11 j) -/(a12 i) -/(a12 j).
- have jN : (j < N2)%N by lia.
  rewrite VX //= lc_tri_addin // -/(V u N2 Q12 C12 i j) -/(V u N2 Q11 C12 i j) !V12' //= V11 //= V10 //= V9 //= V8 //= V7 //= V6 //=.
  move/lc_update: P1u => ->; rewrite // mul0r addr0; move/lc_update: P2u => ->; rewrite // mul0r addr0 -mulrDr.
  by congr (_ * (_ + _)); apply: eq_dot => l lK; rewrite /A12 optr_subop.
- rewrite VX //= V12' //= V11 //= V10 //= U2 // V9 //= V8 //= V7 //= V6 //= V21 // addrC -mulrDr; congr (_ * _).
  by have := u4E xy k4 (a11 i) (a11 j) (a12 j) (a21 i) (a21 j) (a22 i) (a22 j); rewrite -e.
- have jN : (j < N2)%N by lia.
  rewrite VX //= V12' //= V11 //= lc_tri_addin // -/(V u N2 Q22 C10 i j) -/(V u N2 Q12 C10 i j) !V10 //= U2 //.
  rewrite V9 //= V8 //= V7 //= V6 //= V5 //= V4 //= V3 //= V2 //= V22 // addrC -mulrDr; congr (_ * _).
  by have := u5E xy k4 (a11 i) (a11 j) (a21 i) (a21 j) (a22 i) (a22 j); rewrite -e.
Qed.

Lemma step1 al A be C : be != 0 -> (0 < N)%N ->
  syrk_result u t N K al A be C (fsyrk_strassen base junk r.+1 u t N K x y al A be C).
Proof.
move=> be0 N0; have n0 : (0 < N./2)%N by lia.
rewrite strassenS; do 8 intro_let; rewrite (negbTE be0).
do 9 intro_let.
pose a11 i := optr t A i.
pose a12 i l := optr t A i (K2 + l)%N.
pose a21 i := optr t A (N2 + i)%N.
pose a22 i l := optr t A (N2 + i)%N (K2 + l)%N.
pose k4 := K2./2.
pose s1 i l := rot k4 x y (a21 i) l - rot k4 x y (a11 i) l.
pose s2 i l := a22 i l - rot k4 x y (a21 i) l.
pose s3 i l := s1 i l - a22 i l.
pose s4 i l := s3 i l + a12 i l.
have outq q f C' : frame N2 N2 (f (rd q C')) (rd q C') ->
    (forall i j, ~~ ((i < N) && (j < N))%N -> C' i j = C i j) ->
    forall i j, ~~ ((i < N) && (j < N))%N -> wr q f C' i j = C i j.
  by move=> fr H i j ne; rewrite /wr atq_out ?H // -NE.
have kn : big = false -> (K2 <= N2)%N.
  by rewrite /big /K2 /N2 => /negbT; rewrite -leqNgt; lia.
have FrA : big = false -> frame N2 N2 ((S1S2 (rd Q12 C)).2) (rd Q12 C).
  by move=> /kn kn'; apply: frame_cT.
have T1E i l : (i < N2)%N -> (l < K2)%N -> optr t T1 i l = s1 i l.
  by move=> iN lK; rewrite /T1 /S1S2 cS_E // iN lK.
have S2E i l : (i < N2)%N -> (l < K2)%N -> optr t (S2 Cb) i l = s2 i l.
  move=> iN lK; rewrite /S2; case Eb: big.
    by rewrite /X2 /S1S2 cT_E // iN lK.
  have lN := leq_trans lK (kn Eb).
  rewrite /Cb /wr /rd optr_rd //=; last exact: frame_save.
  rewrite /Ca Eb /wr optr_rd //=; last exact: FrA.
  by rewrite /S1S2 cT_E // iN lK.
have Va q i j : (i < N2)%N -> (j < N2)%N -> ~~ quad_eq Q12 q -> V u N2 q Ca i j = V u N2 q C i j.
  by move=> iN jN ne; rewrite /Ca; case Eb: big => //; rewrite (Vat _ (FrA Eb)) // (negbTE ne).
have outa i j : ~~ ((i < N) && (j < N))%N -> Ca i j = C i j.
  by rewrite /Ca; case Eb: big => //; apply: outq => //; apply: FrA.
have Vb q i j : (i < N2)%N -> (j < N2)%N -> V u N2 q Cb i j =
    if quad_eq Q11 q then lc u (save u N2 (rd Q22 Ca) (rd Q11 Ca)) i j else V u N2 q Ca i j.
  by move=> iN jN; rewrite (Vat _ (@frame_save _ _ _ _ _)).
have outb := outq Q11 _ Ca (@frame_save _ u N2 (rd Q22 Ca) (rd Q11 Ca)) outa.
have Fr1 : frame N2 N2 (gemm (S2 Cb) T1 0 (rd Q22 Cb)) (rd Q22 Cb) by exact: frame_gemm.
have V1 q i j : (i < N2)%N -> (j < N2)%N -> V u N2 q C1 i j =
    if quad_eq Q22 q then lc u (gemm (S2 Cb) T1 0 (rd Q22 Cb)) i j else V u N2 q Cb i j by exact: (Vat _ Fr1).
have out1 := outq Q22 _ Cb Fr1 outb.
have V22 i j : (i < N2)%N -> (j < N2)%N -> V u N2 Q22 C1 i j = al * dot K2 (s2 i) (s1 j).
  move=> iN jN; rewrite V1 //= lc_gemm // mul0r addr0; congr (_ * _).
  by apply: eq_dot => l lK; rewrite ?T1E ?S2E.
have T2E i l : (i < N2)%N -> (l < K2)%N -> optr t T2 i l = s3 i l.
  by move=> iN lK; rewrite /T2 fillopE iN lK /= T1E // /A22 optr_subop.
have [P5 P5e [P5u P5f]] := IH al T2 (rd Q12 C1) (or_introl erefl).
rewrite P5e; do 3 intro_let.
have V2 q i j : (i < N2)%N -> (j < N2)%N -> V u N2 q C2 i j =
    if quad_eq Q12 q then lc u P5 i j else V u N2 q C1 i j by exact: (Vat _ P5f).
have out2 := outq Q12 (fun _ => P5) C1 P5f out1.
have T3E i l : (i < N2)%N -> (l < K2)%N -> optr t T3 i l = s4 i l.
  by move=> iN lK; rewrite /T3 fillopE iN lK /= T2E // /A12 optr_subop.
have Fr3 : frame N2 N2 (gemm A22 T3 be (rd Q21 C2)) (rd Q21 C2) by exact: frame_gemm.
have V3 q i j : (i < N2)%N -> (j < N2)%N -> V u N2 q C3 i j =
    if quad_eq Q21 q then lc u (gemm A22 T3 be (rd Q21 C2)) i j else V u N2 q C2 i j by exact: (Vat _ Fr3).
have out3 := outq Q21 _ C2 Fr3 out2.
have V21 i j : (i < N2)%N -> (j < N2)%N -> V u N2 Q21 C3 i j = al * dot K2 (a22 i) (s4 j) + be * V u N2 Q21 C i j.
  move=> iN jN; rewrite V3 //= lc_gemm // -/(V u N2 Q21 C2 i j) V2 //= V1 //= Vb //= Va //; congr (_ * _ + _).
  by apply: eq_dot => l lK; rewrite ?T3E // /A22 optr_subop.
have [T4 P1e [P1u P1f]] := IH al A T3 (or_introl erefl).
rewrite P1e; do 5 intro_let.
have V4 q i j : (i < N2)%N -> (j < N2)%N -> V u N2 q C4 i j =
    if quad_eq Q12 q then lc u (tri_addin u N2 T4 (rd Q12 C3)) i j else V u N2 q C3 i j.
  by move=> iN jN; rewrite (Vat _ (@frame_tri_addin _ _ _ _ _)).
have V5 q i j : (i < N2)%N -> (j < N2)%N -> V u N2 q C5 i j =
    if quad_eq Q12 q then lc u (explicit u N2 (rd Q12 C4)) i j else V u N2 q C4 i j.
  by move=> iN jN; rewrite (Vat _ (@frame_explicit _ _ _ _)).
have V6 q i j : (i < N2)%N -> (j < N2)%N -> V u N2 q C6 i j =
    if quad_eq Q12 q then lc u (add_tr N2 (rd Q22 C5) (rd Q12 C5)) i j else V u N2 q C5 i j.
  by move=> iN jN; rewrite (Vat _ (@frame_add_tr _ _ _ _)).
have V7 q i j : (i < N2)%N -> (j < N2)%N -> V u N2 q C7 i j =
    if quad_eq Q21 q then V u N2 Q21 C6 i j + V u N2 Q12 C6 i j else V u N2 q C6 i j.
  move=> iN jN; rewrite (Vat _ (@frame_fill _ _ _ _)) //; case: ifP => // _.
  by rewrite /V /rd; case: (u) => /=; rewrite /tr /fill iN jN.
have V8 q i j : (i < N2)%N -> (j < N2)%N -> V u N2 q C8 i j =
    if quad_eq Q22 q then lc u (tri_addin u N2 (rd Q12 C7) (rd Q22 C7)) i j else V u N2 q C7 i j.
  by move=> iN jN; rewrite (Vat _ (@frame_tri_addin _ _ _ _ _)).
have out4 := outq Q12 _ C3 (@frame_tri_addin _ u N2 T4 (rd Q12 C3)) out3.
have out5 := outq Q12 _ C4 (@frame_explicit _ u N2 (rd Q12 C4)) out4.
have out6 := outq Q12 _ C5 (@frame_add_tr _ N2 (rd Q22 C5) (rd Q12 C5)) out5.
have out7 := outq Q21 (fun X => fill N2 N2 (fun i j => X i j + rd Q12 C6 i j) X) C6 (@frame_fill _ N2 _ (rd Q21 C6)) out6.
have out8 := outq Q22 _ C7 (@frame_tri_addin _ u N2 (rd Q12 C7) (rd Q22 C7)) out7.
have -> : (N2 == 0)%N = false by rewrite /N2; lia.
intro_let.
have Fr9 : frame N2 N2 (restore u N2 be (rd Q11 C8) D (rd Q22 C8)) (rd Q22 C8) by exact: frame_restore.
have V9 q i j : (i < N2)%N -> (j < N2)%N -> V u N2 q C9 i j =
    if quad_eq Q22 q then lc u (restore u N2 be (rd Q11 C8) D (rd Q22 C8)) i j else V u N2 q C8 i j.
  by move=> iN jN; rewrite (Vat _ Fr9).
have out9 := outq Q22 _ C8 Fr9 out8.
have [P2 P2e [P2u P2f]] := @IH al A12 be (rd Q11 C9) (or_intror n0).
rewrite P2e; do 1 intro_let.
have V10 q i j : (i < N2)%N -> (j < N2)%N -> V u N2 q C10 i j =
    if quad_eq Q11 q then lc u P2 i j else V u N2 q C9 i j by exact: (Vat _ P2f).
set X := memo N N _; exists X => //.
have VX q i j : (i < N2)%N -> (j < N2)%N -> V u N2 q X i j =
    if quad_eq Q11 q then lc u (tri_addin u N2 T4 (rd Q11 C10)) i j else V u N2 q C10 i j.
  move=> iN jN; rewrite -(Vat _ (@frame_tri_addin _ _ _ _ _)) // /V /subq.
  by apply: (@lc_ext _ u _ _ N2) => // a b _ _; rewrite /sub /X memoE.
split; last first.
  move=> i j ne; rewrite /X memoE.
  exact: (outq Q11 _ C10 (@frame_tri_addin _ u N2 T4 (rd Q11 C10)) (outq Q11 (fun _ => P2) C9 P2f out9)).
have U2 i j : (i < N2)%N -> (j < N2)%N -> V u N2 Q12 C6 i j =
    al * (dot K2 (a11 i) (a11 j) + dot K2 (s3 i) (s3 j) + dot K2 (s2 j) (s1 i)).
  have U1 i' j' : (i' < N2)%N -> (j' <= i')%N -> V u N2 Q12 C4 i' j' = al * (dot K2 (a11 i') (a11 j') + dot K2 (s3 i') (s3 j')).
    move=> iN ji; have jN : (j' < N2)%N by lia.
    rewrite V4 //= lc_tri_addin // -/(V u N2 Q12 C3 i' j') V3 //= V2 //=.
    move/lc_update: P1u => ->; rewrite // mul0r addr0; move/lc_update: P5u => ->; rewrite // mul0r addr0 addrC -mulrDr.
    by congr (_ * (_ + _)); apply: eq_dot => l lK; rewrite T2E.
  move=> iN jN; rewrite V6 //= lc_add_tr // -/(V u N2 Q12 C5 i j) -/(V u N2 Q22 C5 j i) !V5 //= lc_explicit //.
  rewrite V4 //= V3 //= V2 //= V22 //.
  rewrite -/(V u N2 Q12 C4 i j) -/(V u N2 Q12 C4 j i); case: leqP => ij; rewrite U1 //; last by lia.
    by rewrite -mulrDr.
  by rewrite (dotC _ (a11 j)) (dotC _ (s3 j)) -mulrDr.
have e : K2 = (k4 + k4)%N by exact: K2E.
rewrite [in X in tri_update _ X]NE [in X in gram _ X]KE -/N2 -/K2.
apply: assemble => i j iN ji; rewrite -/(a11 i) -/(a11 j) -/(a12 i) -/(a12 j).
- have jN : (j < N2)%N by lia.
  rewrite VX //= lc_tri_addin // -/(V u N2 Q11 C10 i j) !V10 //=.
  move/lc_update: P1u => ->; rewrite // mul0r addr0; move/lc_update: P2u => ->; rewrite //.
  rewrite -/(V u N2 Q11 C9 i j) V9 //= V8 //= V7 //= V6 //= V5 //= V4 //= V3 //= V2 //= V1 //= Vb //=.
  have -> : lc u (save u N2 (rd Q22 Ca) (rd Q11 Ca)) i j = V u N2 Q11 C i j.
    rewrite -Va // /V -/(rd Q11 Ca); case: (u) => /=; rewrite /tr saveE; case: ifP => //; lia.
  rewrite (_ : dot K2 (optr t A12 i) (optr t A12 j) = dot K2 (a12 i) (a12 j)).
    rewrite -/K2 -/(a11 i) -/(a11 j); ring.
  by apply: eq_dot => l lK; rewrite /A12 optr_subop.
- rewrite VX //= V10 //= V9 //= V8 //= V7 //= U2 // V6 //= V5 //= V4 //= V21 //.
  have := u4E xy k4 (a11 i) (a11 j) (a12 j) (a21 i) (a21 j) (a22 i) (a22 j); rewrite -e => E.
  transitivity (al * (dot K2 (a11 i) (a11 j) + dot K2 (s3 i) (s3 j) + dot K2 (s2 j) (s1 i) + dot K2 (a22 i) (s4 j)) +
    be * V u N2 Q21 C i j); first by ring.
  by congr (al * _ + _); exact: E.
- have jN : (j < N2)%N by lia.
  rewrite VX //= V10 //= V9 //=.
  have E : lc u (tri_addin u N2 (rd Q12 C7) (rd Q22 C7)) i j =
      al * (dot K2 (optr t A (N2 + i)%N) (optr t A (N2 + j)%N) +
      dot K2 (fun l => optr t A (N2 + i)%N (K2 + l)%N) (fun l => optr t A (N2 + j)%N (K2 + l)%N)).
    rewrite lc_tri_addin // -/(V u N2 Q22 C7 i j) -/(V u N2 Q12 C7 i j) !V7 //= U2 //.
    rewrite V6 //= V5 //= V4 //= V3 //= V2 //= V22 // addrC -mulrDr; congr (_ * _).
    by have := u5E xy k4 (a11 i) (a11 j) (a21 i) (a21 j) (a22 i) (a22 j); rewrite -e.
  rewrite -E.
  have E8 : V u N2 Q22 C8 i j = lc u (tri_addin u N2 (rd Q12 C7) (rd Q22 C7)) i j by rewrite V8.
  have DE a : (a < N2)%N -> D a = V u N2 Q22 C a a.
    move=> aN; rewrite /D memo1E -Va //; have /= <- := Vb Q22 a a aN aN.
    by rewrite /V /lc /rd; case: (u).
  rewrite (@save_restore u N2 be (rd Q11 C8) (rd Q22 C8) (rd Q22 Ca) (rd Q11 Ca) D) //.
  - by rewrite -/(V u N2 Q22 C8 i j) E8 -/(V u N2 Q22 Ca i j) Va.
  - by move=> a aN; rewrite DE // -Va // /V /lc /rd; case: (u).
  - apply: (@unlc u) => a b aN bN; rewrite -/(V u N2 Q11 C8 a b).
    by rewrite V8 //= V7 //= V6 //= V5 //= V4 //= V3 //= V2 //= V1 //= Vb.
Qed.
End Step.
End Main.
