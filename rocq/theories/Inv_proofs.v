(** * Inverse *)
From mathcomp Require Import all_ssreflect all_algebra zify.
From Verif Require Import Grid Perm_model Perm_spec Perm_proofs Tri_model Tri_spec Tri_proofs Trtri_proofs.
From Verif Require Import Pluq_model Pluq_spec Pluq_proofs Pluq_rank Pluq_api_proofs Api_model Api_proofs.
From Verif Require Import Ludiv_model Ludiv_spec Ludiv_proofs Ludiv_rank Ludiv_sub Ech_model Ech_spec Ech_proofs Ech_steps Ech_acc Ech_acc2 Ech_main Ech_thm.
Set Implicit Arguments.
Unset Strict Implicit.
Unset Printing Implicit Defensive.
Import GRing.Theory.
Local Open Scope ring_scope.

Section Inv.
Variable F : fieldType.
Implicit Types A B X Y T E V Z : grid F.
Variables (bk thr tthr bc : nat).
Hypotheses (bk0 : (0 < bk)%N) (tthr0 : (0 < tthr)%N).

(** The loops that build L^-1. *)
Lemma inv2_loop M A X i j : (i < M)%N -> (j < M)%N ->
  memo M M (iteri M.-1 (fun k X => at_ k.+1 0 (fassign 1 k.+1 (sub k.+1 0 A)) X)
    (iteri M (fun i X => upd (iteri (M - i) (fun j X => upd X i (i + j) 0) X) i i 1) X)) i j = tri Lower Unit A i j.
Proof.
move=> iM jM; rewrite memoE.
have fillE n r Y a b : iteri n (fun j X => upd X r (r + j) 0) Y a b =
    if (a == r) && (r <= b < r + n)%N then 0 else Y a b.
  elim: n => [|n IH] /=; first by case: ifP => //; lia.
  rewrite /upd IH; case: (eqVneq a r) => //= _.
  by case: eqP => [->|h]; [rewrite ifT //; lia|]; congr (if _ then _ else _); lia.
set Y := iteri M _ X.
have YE a b : (a < M)%N -> (b < M)%N -> (a <= b)%N -> Y a b = (a == b)%:R.
  move=> aM bM ab; rewrite /Y (@iter_rows _ M _ (fun r y v => if y == r then 1 else if (r <= y < r + (M - r))%N then 0 else v)).
    by rewrite aM eq_sym; case: eqP => // _; rewrite ifT //; lia.
  move=> r S x y rM; rewrite /upd fillE; case: (eqVneq x r) => //= ->.
  by rewrite [y == r]eq_sym.
rewrite /tri; case: i iM => [|i] iM.
  have st k S : iteri k (fun k X => at_ k.+1 0 (fassign 1 k.+1 (sub k.+1 0 A)) X) S 0%N j = S 0%N j.
    by elim: k => //= k IH; rewrite at_cE IH.
  by rewrite st YE // eq_sym; case: eqP => // _; rewrite ltn0.
have E k S x : iteri k (fun k X => at_ k.+1 0 (fassign 1 k.+1 (sub k.+1 0 A)) X) S x j =
   if (0 < x <= k)%N && (j < x)%N then A x j else S x j.
  elim: k x => [|k IH] x /=; first by case: ifP => //; lia.
  rewrite at_cE IH; case: (boolP (0 < x <= k.+1)%N) => h; case: (ltnP j x) => h' //=; rewrite ?andbF ?andbT.
  - by case: ifP => // h2; rewrite ifT //; lia.
  - by rewrite ifF //; lia.
  - by rewrite !ifF //; lia.
  by rewrite !ifF //; lia.
rewrite E; case: (ltngtP j i.+1) => h /=.
- by rewrite ifT ?ifF //; lia.
- rewrite andbF YE //; try lia; have -> : (i.+1 == j) = false by lia.
  by [].
by rewrite andbF -h YE // ?eqxx //; lia.
Qed.

(** Invert2 reports the nullity, and computes the inverse when it is zero. *)
Lemma Invert2_ok M A X P Q : let: (nu, r) := Invert2 bk tthr M A X P Q in
  nu = (M - \rank (mx M M A))%N /\
  (if (nu == 0%N) && (0 < M)%N then exists B, r = Some B /\ mx M M A *m mx M M B = 1%:M else r = None).
Proof.
rewrite /Invert2; have [->|M0] := posnP M; first by split; rewrite // sub0n.
have := LUdivine_cup bk0 NonUnit NoTrans M M A P Q; case: LUdivine => {P Q} Y P Q R [_ c]; rewrite [optr _ A]/= [optr _ Y]/= in c.
have [[RM _] hP [hQ iQ] dg law] := c; have rk := cup_rank c.
case: ifP => MR; first by rewrite rk; split=> //; case: ifP => //; lia.
have eR : R = M by lia.
rewrite eR in c RM hP hQ iQ dg law rk *; rewrite rk subnn; split=> //; rewrite eqxx andbT; eexists; split; first by [].
have Qi i : (i < M)%N -> Q i = i by apply: (incr_id (ltn0Sn 0)).
have dY : inv_diag NonUnit M Y by move=> _ i iM; exact: dg.
set L := ftrtri M Lower Unit tthr M Y.
have [fL lL] := @ftrtri_ok F M Lower Unit tthr M Y (fun e => ltac:(discriminate e)) tthr0 (leqnn M); rewrite -/L in fL lL.
set X1 := memo M M _; have X1E i j : (i < M)%N -> (j < M)%N -> X1 i j = tri Lower Unit L i j by move=> iM jM; exact: inv2_loop.
have dL : inv_diag NonUnit M L by move=> _ i iM; rewrite fL ?dg // ltnn andbF.
have [_ sX] := @ftrsmLE F Upper NonUnit M M L X1 dL.
set X2 := ftrsm _ _ _ _ _ _ _ _ _ in sX *.
rewrite mxM; apply/matrixP => i j; rewrite !mxE.
have ps : is_perm M (sigma P 0 M) by apply: sigmaR_perm => // t tM; have := hP t tM; lia.
rewrite -(rsum_perm _ ps) (eq_rsum (g := fun l => rsum M (fun t => CL NonUnit Y Q i t * Up NonUnit Y t l) * X2 l j)); last first.
  by move=> l lM; rewrite pL_Trans // law // -(rsumE _ (fun t => CL NonUnit Y Q i t * Up NonUnit Y t l)).
rewrite -(sum_exch M M (fun t => CL NonUnit Y Q i t) (fun t l => Up NonUnit Y t l) (fun l => X2 l j)).
rewrite (eq_rsum (g := fun t => CL NonUnit Y Q i t * tri Lower Unit L t j)); last first.
  move=> t tM; congr (_ * _); rewrite -X1E // -sX //; apply: eq_rsum => l lM; congr (_ * _).
  rewrite /Up /tri; case: (ltngtP t l) => h //; last first.
    by rewrite fL ?h //= ltnn andbF.
  by rewrite fL //; lia.
have := lL; rewrite /trimx mxM => /matrixP /(_ i j); rewrite !mxE => <-.
apply: eq_rsum => t tM; congr (_ * _); rewrite /CL /tri Qi //.
by case: (ltngtP t i).
Qed.

Lemma at_fgemm0 c ta tb n k al A B be X i j : at_ 0 c (fgemm ta tb 0 n k al A B be) X i j = X i j.
Proof. by rewrite /at_ fgemmE /= /sub; case: ifP => // ci; congr (X _ _); lia. Qed.

(** Invert, for matrices within the base case of the Gauss-Jordan elimination:
    the nullity is right, and the result is the inverse up to the order of its
    rows. *)
Lemma Invert_small M A P Q : (M <= bc)%N -> let: (nu, B) := Invert bk thr tthr bc M A P Q in
  nu = (M - \rank (mx M M A))%N /\
  (nu = 0%N -> exists u, is_perm M u /\ mx M M B *m mx M M A = mx M M (fun i j => (u i == j)%:R)).
Proof.
move=> Mb; rewrite /Invert; have [->|M0] := posnP M.
  by split=> // _; exists id; split=> //; apply/matrixP => -[].
rewrite /ReducedRowEchelonForm /gj Mb; have -> : (0%N == M) = false by lia.
rewrite /gj_base subn0; set P1 := iteri M _ _; set Q1 := iteri M _ Q.
have := @redrow_elim F bk thr tthr bk0 tthr0 Tile (or_intror erefl) M M A P1 Q1.
rewrite -[redrow _ _ _ _ _ _ _ _ _ Q1]/(redrow bk thr tthr Tile true M M (sub 0 0 A) P1 (fun x : nat => Q1 (0 + x)%N)).
case: (redrow _ _ _ _ _ _ _ _ _ _) => X P2 Q2 R [el [X0 st]].
have [_ bP bQ rk _] := st; cbv beta iota zeta; set X1 := memo M M _.
have X1E i j : X1 i j = X i j.
  by rewrite /X1 memoE !at_fgemm0 applyPE //= /at_ /= !subn0.
clearbody X1; split; first by rewrite rk.
move=> /eqP; rewrite subn_eq0 => MR; have [[ps pu] [RM _] law _ _] := el; have eR : R = M by lia.
rewrite eR in el ps pu law *.
exists (perm_of Tile M M Q2); split=> //; rewrite mxM; apply/matrixP => i j; rewrite !mxE.
have [v [pv uv vu]] := perm_inv pu; have vj : (v j < M)%N := proj1 pv j (ltn_ord j).
have uvj := uv j (ltn_ord j); have vui := vu i (ltn_ord i).
rewrite -(rsum_perm _ ps).
have := law i (v j) (ltn_ord i) vj; rewrite ltn_ord /Er vj uvj => h.
rewrite (eq_rsum (g := fun t => Tm M X i t * A (perm_of Tile M M P2 t) j)).
  rewrite h; congr (nat_of_bool _)%:R; apply/eqP/eqP => [->|<-]; [exact: uvj | by rewrite vui].
by move=> t tM; rewrite /perm_of pR_NoTrans // X1E /Tm tM.
Qed.

Lemma not_inverse n A B i j : (i < n)%N -> (j < n)%N -> rsum n (fun t => B i t * A t j) != (i == j)%:R ->
  mx n n B *m mx n n A != 1%:M.
Proof.
move=> iN jN; apply: contraNneq; rewrite mxM => /matrixP /(_ (Ordinal iN) (Ordinal jN)).
by rewrite !mxE /= => ->.
Qed.

End Inv.
