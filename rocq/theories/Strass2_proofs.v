From mathcomp Require Import all_ssreflect all_algebra zify ring.
From Verif Require Import Grid Perm_model Perm_spec Tri_model Tri_spec Tri_proofs Sym_model Sym_spec Sym_proofs
  Strass_model Strass_spec Strass_proofs.
Set Implicit Arguments.
Unset Strict Implicit.
Unset Printing Implicit Defensive.
Import GRing.Theory.
Local Open Scope ring_scope.

Ltac intro_let := match goal with |- ?Q (let x := ?v in @?b x) =>
  let y := fresh x in pose (y := v); change (Q (b y)); cbv beta end.

Section Main.
Variable F : fieldType.
Implicit Types A B C R S T X : grid F.

(** Upper is Lower on the transposed matrix. *)
Definition lc (u : uplo) X : grid F := if u is Lower then X else tr X.
Definition V (u : uplo) (n : nat) (q : quad) C : grid F := lc u (subq u n q C).

Lemma lc_ext u X Y n : (forall i j, (i < n)%N -> (j < n)%N -> X i j = Y i j) ->
  forall i j, (i < n)%N -> (j < n)%N -> lc u X i j = lc u Y i j.
Proof. by move=> H i j iN jN; case: u => /=; rewrite /tr H. Qed.

Lemma Vat u n q q' (f : grid F -> grid F) C i j : frame n n (f (subq u n q C)) (subq u n q C) ->
  (i < n)%N -> (j < n)%N ->
  V u n q' (atq u n q f C) i j = if quad_eq q q' then lc u (f (subq u n q C)) i j else V u n q' C i j.
Proof.
move=> fr iN jN; rewrite /V; case: u fr => fr /=; rewrite /tr subq_atq //; by case: ifP.
Qed.

Lemma lc_tri u X Y n : (forall i j, (i < n)%N -> (j < n)%N -> in_tri u i j -> X i j = Y i j) ->
  forall i j, (i < n)%N -> (j <= i)%N -> lc u X i j = lc u Y i j.
Proof. by move=> H i j iN ji; case: u H => /= H; rewrite /tr H //; lia. Qed.

Lemma gram_dot t K A i j : gram t K A i j = dot K (optr t A i) (optr t A j).
Proof. by []. Qed.

(** The specification read on the lower triangle of lc. *)
Lemma lc_update u t N K al A be C X : tri_update u N al (gram t K A) be C X <->
  (forall i j, (i < N)%N -> (j <= i)%N -> lc u X i j = al * dot K (optr t A i) (optr t A j) + be * lc u C i j).
Proof.
split=> H.
  move=> i j iN ji; case: u H => H /=; rewrite /tr H // ?gram_dot ?(dotC _ (optr t A j)) //; lia.
move=> i j iN jN; rewrite gram_dot; case: u H => /= H ij; first by rewrite dotC -/(tr X j i) H.
by rewrite H.
Qed.

Lemma lc_sub u n X i j (N : nat) : N = (n + n)%N -> (i < N)%N -> (j <= i)%N ->
  lc u X i j = if (i < n)%N then V u n Q11 X i j
               else if (j < n)%N then V u n Q21 X (i - n)%N j else V u n Q22 X (i - n)%N (j - n)%N.
Proof.
move=> NE iN ji; rewrite /V /subq; case: u => /=; rewrite /tr /sub ?add0n /=;
  case: (ltnP i n) => // ni; case: (ltnP j n) => nj; try same_cell.
Qed.

Lemma assemble u t n k al A be C X :
  (forall i j, (i < n)%N -> (j <= i)%N -> V u n Q11 X i j =
     al * (dot k (optr t A i) (optr t A j) + dot k (fun l => optr t A i (k + l)%N) (fun l => optr t A j (k + l)%N)) + be * V u n Q11 C i j) ->
  (forall i j, (i < n)%N -> (j < n)%N -> V u n Q21 X i j =
     al * (dot k (optr t A (n + i)%N) (optr t A j) + dot k (fun l => optr t A (n + i)%N (k + l)%N) (fun l => optr t A j (k + l)%N)) + be * V u n Q21 C i j) ->
  (forall i j, (i < n)%N -> (j <= i)%N -> V u n Q22 X i j =
     al * (dot k (optr t A (n + i)%N) (optr t A (n + j)%N) + dot k (fun l => optr t A (n + i)%N (k + l)%N) (fun l => optr t A (n + j)%N (k + l)%N)) + be * V u n Q22 C i j) ->
  tri_update u (n + n) al (gram t (k + k) A) be C X.
Proof.
move=> H11 H21 H22; apply/lc_update => i j iN ji.
rewrite !(lc_sub (n := n) u _ erefl) // dot_cat; case: (ltnP i n) => ni; first exact: H11.
case: (ltnP j n) => nj; [rewrite H21|rewrite H22]; rewrite ?subnKC //; lia.
Qed.

Variables (base : syrk F) (junk : grid F).
Hypothesis base_ok : syrk_right base.
Variables (x y : F).
Hypothesis xy : x * x + y * y = -1.

(** Frames of the steps. *)
Lemma frame_tri_addin u n B C : frame n n (tri_addin u n B C) C.
Proof. by move=> i j ne; rewrite tri_addinE; case: ifP => // /and3P[a b _]; rewrite a b in ne. Qed.
Lemma frame_explicit u n C : frame n n (explicit u n C) C.
Proof. by move=> i j ne; rewrite explicitE; case: ifP => // /and3P[a b _]; rewrite a b in ne. Qed.
Lemma frame_add_tr n B C : frame n n (add_tr n B C) C.
Proof. by move=> i j ne; rewrite add_trE (negbTE ne). Qed.
Lemma frame_save u n C22 C11 : frame n n (save u n C22 C11) C11.
Proof. by move=> i j ne; rewrite saveE; case: u; case: ifP => //; lia. Qed.
Lemma frame_restore u n be C11 D C22 : (0 < n)%N -> frame n n (restore u n be C11 D C22) C22.
Proof. by move=> n0 i j ne; rewrite restoreE // ne. Qed.
Lemma frame_fill n (f : grid F) C : frame n n (fill n n f C) C.
Proof. by move=> i j ne; rewrite /fill (negbTE ne). Qed.
Lemma frame_optr t n k X C : (k <= n)%N -> (forall i l, ~~ ((i < n) && (l < k))%N -> optr t X i l = optr t C i l) -> frame n n X C.
Proof.
move=> kn H i j ne; case: t H => H.
  by apply: H; lia.
have := H j i; rewrite /= /tr; apply; lia.
Qed.
Lemma frame_fillop t n k g C : (k <= n)%N -> frame n n (fillop t n k g C) C.
Proof. by move=> kn; apply: (frame_optr (t := t) kn) => i l ne; rewrite fillopE (negbTE ne). Qed.
Lemma frame_gemm (u : uplo) t n k al B1 B2 be C :
  frame n n ((if u is Lower then fgemm t (flip t) n n k al B1 B2 be else fgemm t (flip t) n n k al B2 B1 be) C) C.
Proof. by case: u => i j ne; rewrite fgemm_out. Qed.

Lemma lc_gemm (u : uplo) t n k al B1 B2 be C i j : (i < n)%N -> (j < n)%N ->
  lc u ((if u is Lower then fgemm t (flip t) n n k al B1 B2 be else fgemm t (flip t) n n k al B2 B1 be) C) i j =
  al * dot k (optr t B1 i) (optr t B2 j) + be * lc u C i j.
Proof. by move=> iN jN; case: u => /=; rewrite /tr cross_gemm // [dot _ _ _]dotC. Qed.

Lemma lc_tri_addin u n B C i j : (i < n)%N -> (j <= i)%N -> lc u (tri_addin u n B C) i j = lc u C i j + lc u B i j.
Proof.
move=> iN ji; have jN : (j < n)%N by lia.
by case: u => /=; rewrite /tr tri_addinE iN jN /= ji.
Qed.

Lemma lc_explicit u n C i j : (i < n)%N -> (j < n)%N ->
  lc u (explicit u n C) i j = if (j <= i)%N then lc u C i j else lc u C j i.
Proof.
move=> iN jN; case: u => /=; rewrite /tr explicitE iN jN /=; by case: ifP; case: ifP.
Qed.

Lemma lc_add_tr u n B C i j : (i < n)%N -> (j < n)%N -> lc u (add_tr n B C) i j = lc u C i j + lc u B j i.
Proof. by move=> iN jN; case: u => /=; rewrite /tr add_trE iN jN. Qed.

Lemma optr_subq u n q C t i j C' : (forall i j, (i < n)%N -> (j < n)%N -> V u n q C i j = V u n q C' i j) ->
  (i < n)%N -> (j < n)%N -> optr t (subq u n q C) i j = optr t (subq u n q C') i j.
Proof.
move=> H iN jN; have H1 := H i j iN jN; have H2 := H j i jN iN.
by move: H1 H2; rewrite /V; case: u {H} => /=; rewrite /tr; case: t.
Qed.

Lemma strassenS r u t N K al A be C : fsyrk_strassen base junk r.+1 u t N K x y al A be C =
    let N2 := N./2 in let K2 := K./2 in
    let A12 := subop t 0 K2 A in
    let A22 := subop t N2 K2 A in
    let wr q f C := atq u N2 q f C in
    let rd q C := subq u N2 q C in
    let big := (N < K)%N in
    let gemm B1 B2 be' := if u is Lower then fgemm t (flip t) N2 N2 K2 al B1 B2 be'
                          else fgemm t (flip t) N2 N2 K2 al B2 B1 be' in
    if be == 0 then
      let S1S2 S T := computeS1S2 t N K x y A S T in
      let X1 := (S1S2 junk junk).1 in
      let X2 := (S1S2 junk junk).2 in
      let Ca := if big then C else wr Q21 (fun S => (S1S2 S junk).1) C in
      let Cb := if big then C else wr Q12 (fun T => (S1S2 (rd Q21 C) T).2) Ca in
      let S1 C := if big then X1 else rd Q21 C in
      let S2 C := if big then X2 else rd Q12 C in
      let C1 := wr Q22 (gemm (S2 Cb) (S1 Cb) 0) Cb in
      let sub3 S := fillop t N2 K2 (fun i l => optr t S i l - optr t A22 i l) S in
      let C2 := if big then C1 else wr Q21 sub3 C1 in
      let S3 C := if big then sub3 X1 else rd Q21 C in
      if fsyrk_strassen base junk r u t N2 K2 x y al (S3 C2) 0 (rd Q12 C2) is Some P5 then
      let C3 := wr Q12 (fun _ => P5) C2 in
      let add4 D := fillop t N2 K2 (fun i l => optr t (S3 C3) i l + optr t A12 i l) D in
      let C4 := if big then C3 else wr Q11 add4 C3 in
      let S4 C := if big then add4 (sub3 X1) else rd Q11 C in
      let C5 := wr Q21 (gemm A22 (S4 C4) 0) C4 in
      if fsyrk_strassen base junk r u t N2 K2 x y al A 0 (rd Q11 C5) is Some P1 then
      let C6 := wr Q11 (fun _ => P1) C5 in
      let C7 := wr Q12 (tri_addin u N2 (rd Q11 C6)) C6 in
      let C8 := wr Q12 (explicit u N2) C7 in
      let C9 := wr Q12 (add_tr N2 (rd Q22 C8)) C8 in
      let C10 := wr Q21 (fun X => fill N2 N2 (fun i j => X i j + rd Q12 C9 i j) X) C9 in
      let C11 := wr Q22 (tri_addin u N2 (rd Q12 C10)) C10 in
      if fsyrk_strassen base junk r u t N2 K2 x y al A12 0 (rd Q12 C11) is Some P2 then
      let C12 := wr Q12 (fun _ => P2) C11 in
      Some (memo N N (wr Q11 (tri_addin u N2 (rd Q12 C12)) C12))
      else None else None else None
    else
      let S1S2 S := computeS1S2 t N K x y A junk S in
      let X2 := (S1S2 junk).2 in
      let T1 := (S1S2 junk).1 in
      let Ca := if big then C else wr Q12 (fun S => (S1S2 S).2) C in
      let S2 C := if big then X2 else rd Q12 C in
      let Cb := wr Q11 (save u N2 (rd Q22 Ca)) Ca in
      let D := memo1 N2 (fun i => rd Q22 Cb i i) in
      let C1 := wr Q22 (gemm (S2 Cb) T1 0) Cb in
      let T2 := fillop t N2 K2 (fun i l => optr t T1 i l - optr t A22 i l) T1 in
      if fsyrk_strassen base junk r u t N2 K2 x y al T2 0 (rd Q12 C1) is Some P5 then
      let C2 := wr Q12 (fun _ => P5) C1 in
      let T3 := fillop t N2 K2 (fun i l => optr t T2 i l + optr t A12 i l) T2 in
      let C3 := wr Q21 (gemm A22 T3 be) C2 in
      if fsyrk_strassen base junk r u t N2 K2 x y al A 0 T3 is Some T4 then
      let C4 := wr Q12 (tri_addin u N2 T4) C3 in
      let C5 := wr Q12 (explicit u N2) C4 in
      let C6 := wr Q12 (add_tr N2 (rd Q22 C5)) C5 in
      let C7 := wr Q21 (fun X => fill N2 N2 (fun i j => X i j + rd Q12 C6 i j) X) C6 in
      let C8 := wr Q22 (tri_addin u N2 (rd Q12 C7)) C7 in
      if (N2 == 0)%N then None else
      let C9 := wr Q22 (restore u N2 be (rd Q11 C8) D) C8 in
      if fsyrk_strassen base junk r u t N2 K2 x y al A12 be (rd Q11 C9) is Some P2 then
      let C10 := wr Q11 (fun _ => P2) C9 in
      Some (memo N N (wr Q11 (tri_addin u N2 T4) C10))
      else None else None else None.
Proof. reflexivity. Qed.

Lemma dvd_half r N : (2 ^ r.+2 %| N)%N -> N = (N./2 + N./2)%N /\ (2 ^ r.+1 %| N./2)%N.
Proof.
rewrite expnS => /dvdnP[c ->]; rewrite mulnCA mul2n doubleK addnn; split=> //; exact: dvdn_mull.
Qed.

(** The algebra: what is left in the quadrants. *)
Section Algebra.
Variables (k : nat) (a11i a11j a12i a12j a21i a21j a22i a22j : nat -> F).
Let kk := (k + k)%N.
Let R := rot k x y.
Let s1 (a b : nat -> F) l := R b l - R a l.
Let s2 (b d : nat -> F) l := d l - R b l.
Let s3 (a b d : nat -> F) l := s1 a b l - d l.
Let s4 (a b c d : nat -> F) l := s3 a b d l + c l.
(* P1, P5, P4 at (i,j) *)
Let u2 := dot kk a11i a11j + dot kk (s3 a11i a21i a22i) (s3 a11j a21j a22j) + dot kk (s2 a21j a22j) (s1 a11i a21i).

Let Rdot f g : dot kk (R f) (R g) = - dot kk f g.
Proof. exact: dot_rot. Qed.

Lemma u2E : u2 = dot kk a21i a11j - dot kk a22i (s1 a11j a21j) + dot kk a22i a22j.
Proof.
rewrite /u2 /s3 /s2 /s1 !(dotBl, dotBr, dotDl, dotDr) !Rdot (dotC kk a21j a21i) (dotC kk a21j a11i).
rewrite (dotC kk a22j (R a11i)) (dotC kk a22j (R a21i)); ring.
Qed.

Lemma u4E : u2 + dot kk a22i (s4 a11j a21j a12j a22j) = dot kk a21i a11j + dot kk a22i a12j.
Proof. rewrite u2E /s4 /s3 /s1 !(dotBr, dotDr); ring. Qed.

Lemma u5E : u2 + dot kk (s2 a21i a22i) (s1 a11j a21j) = dot kk a21i a21j + dot kk a22i a22j.
Proof. rewrite u2E /s2 /s1 !(dotBl, dotBr) !Rdot; ring. Qed.
End Algebra.

End Main.
