(** * The transformation steps of the echelon forms *)
From mathcomp Require Import all_ssreflect all_algebra zify.
From Verif Require Import Grid Perm_model Perm_spec Perm_proofs Tri_model Tri_spec Tri_proofs Trmm_proofs Trtri_proofs.
From Verif Require Import Pluq_model Pluq_spec Pluq_proofs Pluq_rank Api_model Ludiv_model Ludiv_proofs Ech_model Ech_spec Ech_proofs.
Set Implicit Arguments.
Unset Strict Implicit.
Unset Printing Implicit Defensive.
Import GRing.Theory.
Local Open Scope ring_scope.

Section Steps.
Variable F : fieldType.
Implicit Types A B X Y T E V : grid F.
Variable tthr : nat.
Hypothesis tthr0 : (0 < tthr)%N.

(** ** Entry forms of the kernels *)
Lemma ftrtriE u d N A : inv_diag d N A -> let X := ftrtri N u d tthr N A in
  tri_frame u d N X A /\
  forall i j, (i < N)%N -> (j < N)%N -> rsum N (fun t => tri u d X i t * tri u d A t j) = (i == j)%:R.
Proof.
move=> dA X; have [f e] := ftrtri_ok u dA tthr0 (leqnn N); split=> // i j iN jN.
have := mulmx1C e; rewrite mxM => /matrixP /(_ (Ordinal iN) (Ordinal jN)); rewrite !mxE => ->.
by rewrite -val_eqE.
Qed.

Lemma ftrmmE s u d M N al A B i j :
  ftrmm s u NoTrans d M N al A B i j =
  if ((i < M) && (j < N))%N then
    al * (if s is SLeft then rsum M (fun t => tri u d A i t * B t j) else rsum N (fun t => B i t * tri u d A t j))
  else B i j.
Proof.
have [f e] := ftrmm_mx s u NoTrans d M N al A B.
case: ifP => ij; last by apply: f; rewrite ij.
case/andP: ij => iM jN; move: e; case: s f => _; rewrite /opprod /= /trimx mxM mxZ => e; exact: (mx_eq e).
Qed.

Lemma ftrsmLE u d M N A B : inv_diag d M A -> let X := ftrsm SLeft u NoTrans d M N 1 A B in
  frame M N X B /\ forall i j, (i < M)%N -> (j < N)%N -> rsum M (fun t => tri u d A i t * X t j) = B i j.
Proof.
move=> dA X; have [f e] := @ftrsm_mx F SLeft u NoTrans d M N 1 A B dA; split=> // i j iM jN.
by move: e; rewrite scale1r /= /trimx mxM => e; exact: (mx_eq e).
Qed.

Lemma ftrsmRE u d M N A B : inv_diag d N A -> let X := ftrsm SRight u NoTrans d M N 1 A B in
  frame M N X B /\ forall i j, (i < M)%N -> (j < N)%N -> rsum N (fun t => X i t * tri u d A t j) = B i j.
Proof.
move=> dA X; have [f e] := @ftrsm_mx F SRight u NoTrans d M N 1 A B dA; split=> // i j iM jN.
by move: e; rewrite scale1r /= /trimx mxM => e; exact: (mx_eq e).
Qed.

Lemma triLo A i j : tri Lower NonUnit A i j = Lo Unit A i j.
Proof. by rewrite /tri /Lo; case: ltngtP => // ->. Qed.
Lemma triUp A i j : tri Upper Unit A i j = Up Unit A i j.
Proof. by rewrite /tri /Up; case: ltngtP => // ->. Qed.
Lemma triLo' A i j : tri Upper NonUnit A i j = Lo Unit (tr A) j i.
Proof. by rewrite /tri /Lo /tr; case: ltngtP => // ->. Qed.
Lemma triUp' A i j : tri Lower Unit A i j = Up Unit (tr A) j i.
Proof. by rewrite /tri /Up /tr; case: ltngtP => // ->. Qed.

(** ** The lower factor is inverted *)

Definition trow (M R : nat) X : grid F :=
  let X := ftrtri R Lower NonUnit tthr R X in
  at_ R 0 (ftrmm SRight Lower NoTrans NonUnit (M - R) R (-1) X) X.
Definition tcol (N R : nat) X : grid F :=
  let X := ftrtri R Upper NonUnit tthr R X in
  at_ 0 R (ftrmm SLeft Upper NoTrans NonUnit R (N - R) (-1) X) X.

(** Common to both: what the strict upper part keeps, and the inverse. *)
Definition trow_ok (M N R : nat) X X2 : Prop :=
  (forall k l, (k < R)%N -> (k < l < N)%N -> X2 k l = X k l) /\ linv M R X (Lo Unit X2).

Lemma trow_okI M N R X X1 X2 : (R <= M)%N ->
  (forall k l, ~~ ((k < R) && (l <= k))%N -> X1 k l = X k l) ->
  (forall i j, (i < R)%N -> (j < R)%N -> rsum R (fun t => Lo Unit X1 i t * Lo Unit X t j) = (i == j)%:R) ->
  (forall k l, X2 k l = if ((R <= k < M) && (l < R))%N then - rsum R (fun t => X k t * Lo Unit X1 t l) else X1 k l) ->
  trow_ok M N R X X2.
Proof.
move=> RM f1 i1 e2; split=> [k l kR kl|k j kM jR].
  by rewrite e2 ifF ?f1 //; lia.
have lo t : (R <= k)%N -> (t < R)%N -> Lo Unit X2 k t = - rsum R (fun l => X k l * Lo Unit X1 l t).
  by move=> Rk tR; rewrite /Lo ifT ?e2 ?ifT //; lia.
case: (ltnP k R) => kR.
  rewrite addr0 -i1 //; apply: eq_rsum => t tR; congr (_ * _); rewrite /Lo.
  by case: ifP => [h|_]; [|case: ifP => // h]; rewrite e2 ifF //; lia.
have -> : (k == j) = false by lia.
rewrite (eq_rsum (g := fun t => - (rsum R (fun l => X k l * Lo Unit X1 l t) * Lo Unit X t j))) => [|t tR]; last first.
  by rewrite lo // mulNr.
rewrite rsumN -(sum_exch R R (X k) (Lo Unit X1) (fun t => Lo Unit X t j)).
rewrite (eq_rsum (g := fun t => (t == j)%:R * X k t)) => [|t tR]; last by rewrite i1 // mulrC.
by rewrite rsum_sel // /Lo ifT ?addNr //; lia.
Qed.

Lemma trow_lo M N R X : (R <= M)%N -> (forall t, (t < R)%N -> X t t != 0) -> trow_ok M N R X (trow M R X).
Proof.
move=> RM dg; have dX : inv_diag NonUnit R X by move=> _.
have [f e] := ftrtriE Lower dX; rewrite /trow; set X1 := ftrtri _ _ _ _ _ _ in f e *.
apply: (@trow_okI M N R X X1) => // [k l kl|i j iR jR|k l].
- by apply: f; lia.
- by rewrite -e //; apply: eq_rsum => t _; rewrite !triLo.
rewrite /at_ ftrmmE /sub andbT subn0; case: (leqP R k) => Rk //=.
rewrite !add0n subnKC // [X in X && _](_ : _ = (k < M)%N); last lia.
case: ifP => // kl; rewrite mulN1r; congr (- _); apply: eq_rsum => t tR; rewrite triLo.
by congr (_ * _); apply: f; lia.
Qed.

Lemma tcol_lo N M R X : (R <= N)%N -> (forall t, (t < R)%N -> X t t != 0) -> trow_ok N M R (tr X) (tr (tcol N R X)).
Proof.
move=> RN dg; have dX : inv_diag NonUnit R X by move=> _.
have [f e] := ftrtriE Upper dX; rewrite /tcol; set X1 := ftrtri _ _ _ _ _ _ in f e *.
have e' : trimx Upper NonUnit R X *m trimx Upper NonUnit R X1 = 1%:M.
  by apply: mulmx1C; rewrite mxM; apply/matrixP => i j; rewrite !mxE e.
apply: (@trow_okI N M R (tr X) (tr X1)) => // [k l kl|i j iR jR|k l].
- by apply: f; lia.
- move: e'; rewrite mxM => /matrixP /(_ (Ordinal jR) (Ordinal iR)); rewrite !mxE -val_eqE eq_sym => /= <-.
  by apply: eq_rsum => t _; rewrite !triLo' mulrC.
rewrite {1}/tr /at_ ftrmmE /sub /= subn0; case: (leqP R k) => Rk //=.
rewrite !add0n subnKC // [X in _ && X](_ : _ = (k < N)%N) 1?andbC; last lia.
case: ifP => // kl; rewrite mulN1r; congr (- _); apply: eq_rsum => t tR; rewrite triLo' mulrC.
by congr (_ * _); apply: f; lia.
Qed.

(** ** The upper factor is inverted *)

(** X5 after the last steps, from X2. *)
Definition red_ok (N R : nat) X2 X5 : Prop := exists V,
  [/\ forall k l, (k < R)%N -> (l < R)%N -> rsum R (fun t => V k t * Up Unit X2 t l) = (k == l)%:R,
      forall k j, (k < R)%N -> (j < R)%N -> X5 k j = rsum R (fun t => V k t * Lo Unit X2 t j),
      forall k l, (k < R)%N -> (R <= l < N)%N -> X5 k l = rsum R (fun t => V k t * X2 t l) &
      forall k l, ~~ ((k < R) && (l < N))%N -> X5 k l = X2 k l].

Definition rrow (N R : nat) X : grid F :=
  let X := ftrtri R Upper Unit tthr R X in
  let X := at_ 0 R (ftrmm SLeft Upper NoTrans Unit R (N - R) 1 X) X in
  ftrtrm R SLeft Unit R X.
Definition rcol (M R : nat) X : grid F :=
  let X := ftrtri R Lower Unit tthr R X in
  let X := at_ R 0 (ftrmm SRight Lower NoTrans Unit (M - R) R 1 X) X in
  ftrtrm R SLeft NonUnit R X.

Lemma rrow_ok N R X : (R <= N)%N -> red_ok N R X (rrow N R X).
Proof.
move=> RN; have dX : inv_diag Unit R X by [].
have [f e] := ftrtriE Upper dX; rewrite /rrow; set X1 := ftrtri _ _ _ _ _ _ in f e *.
set X2 := at_ _ _ _ X1.
have E2 k l : X2 k l = if ((k < R) && (R <= l < N))%N then rsum R (fun t => Up Unit X1 k t * X t l) else X1 k l.
  rewrite /X2 /at_ ftrmmE /sub /= subn0; case: (leqP R l) => Rl; last by rewrite andbF.
  rewrite !add0n subnKC // (_ : (l - R < N - R)%N = (l < N)%N); last lia.
  case: ifP => // kl; rewrite mul1r; apply: eq_rsum => t tR; rewrite triUp.
  by congr (_ * _); apply: f; lia.
have [f5 e5] := @ftrtrm_ok F R SLeft Unit R X2 (leqnn R).
exists (Up Unit X1); split.
- by move=> k l kR lR; rewrite -e //; apply: eq_rsum => t _; rewrite !triUp.
- move=> k j kR jR; move: e5; rewrite mxM => e5; rewrite (mx_eq e5) //.
  apply: eq_rsum => t tR; rewrite triUp triLo; congr (_ * _).
    by rewrite /Up; case: ifP => h //; rewrite E2 ifF //; lia.
  by rewrite /Lo; case: ifP => h; [|case: ifP => // h']; rewrite E2 ifF ?f //; lia.
- by move=> k l kR lN; rewrite f5 ?E2 ?ifT //; lia.
by move=> k l kl; rewrite f5 ?E2 ?ifF ?f //; lia.
Qed.

Lemma rcol_ok M R X : (R <= M)%N -> red_ok M R (tr X) (tr (rcol M R X)).
Proof.
move=> RM; have dX : inv_diag Unit R X by [].
have [f e] := ftrtriE Lower dX; rewrite /rcol; set X1 := ftrtri _ _ _ _ _ _ in f e *.
have e' : trimx Lower Unit R X *m trimx Lower Unit R X1 = 1%:M.
  by apply: mulmx1C; rewrite mxM; apply/matrixP => i j; rewrite !mxE e.
set X2 := at_ _ _ _ X1.
have E2 k l : X2 k l = if ((R <= k < M) && (l < R))%N then rsum R (fun t => Up Unit (tr X1) l t * X k t) else X1 k l.
  rewrite /X2 /at_ ftrmmE /sub /= subn0 andbT; case: (leqP R k) => Rl //=.
  rewrite !add0n subnKC // (_ : (k - R < M - R)%N = (k < M)%N); last lia.
  case: ifP => // kl; rewrite mul1r; apply: eq_rsum => t tR; rewrite triUp' mulrC.
  by congr (_ * _); apply: f; lia.
have [f5 e5] := @ftrtrm_ok F R SLeft NonUnit R X2 (leqnn R).
exists (Up Unit (tr X1)); rewrite /tr; split.
- move=> k l kR lR; move: e'; rewrite mxM => /matrixP /(_ (Ordinal lR) (Ordinal kR)); rewrite !mxE -val_eqE eq_sym => /= <-.
  by apply: eq_rsum => t _; rewrite !triUp' mulrC.
- move=> k j kR jR; move: e5; rewrite mxM => e5; rewrite (mx_eq e5) //.
  apply: eq_rsum => t tR; rewrite triUp' triLo' mulrC; congr (_ * _); rewrite /tr.
    by rewrite /Up; case: ifP => h //; rewrite E2 ifF //; lia.
  by rewrite /Lo; case: ifP => h; [|case: ifP => // h']; rewrite E2 ifF ?f //; lia.
- by move=> k l kR lN; rewrite f5 ?E2 ?ifT //; lia.
by move=> k l kl; rewrite f5 ?E2 ?ifF ?f //; lia.
Qed.

(** Without transformation only the last columns are wanted. *)
Definition sred_ok (N R : nat) X X' : Prop :=
  (forall k l, (k < R)%N -> (R <= l < N)%N -> rsum R (fun t => Up Unit X k t * X' t l) = X k l) /\
  (forall k l, ~~ ((k < R) && (R <= l < N))%N -> X' k l = X k l).

Lemma srow_ok N R X : (R <= N)%N -> sred_ok N R X (at_ 0 R (ftrsm SLeft Upper NoTrans Unit R (N - R) 1 X) X).
Proof.
move=> RN; have dX : inv_diag Unit R X by [].
have [f e] := @ftrsmLE Upper Unit R (N - R) X (sub 0 R X) dX.
set Y := ftrsm _ _ _ _ _ _ _ _ _ in f e.
have E2 k l : at_ 0 R (ftrsm SLeft Upper NoTrans Unit R (N - R) 1 X) X k l = if (R <= l)%N then Y k (l - R)%N else X k l.
  by rewrite /at_ /= subn0.
split=> k l kR => [lN|].
  have := e k (l - R)%N kR; rewrite /sub add0n subnKC; last lia.
  move=> <-; last lia.
  apply: eq_rsum => t tR; rewrite triUp; congr (_ * _); rewrite E2 ifT //; lia.
rewrite E2; case: ifP => // Rl; rewrite f /sub ?add0n ?subnKC //; lia.
Qed.

Lemma scol_ok M R X : (R <= M)%N -> sred_ok M R (tr X) (tr (at_ R 0 (ftrsm SRight Lower NoTrans Unit (M - R) R 1 X) X)).
Proof.
move=> RM; have dX : inv_diag Unit R X by [].
have [f e] := @ftrsmRE Lower Unit (M - R) R X (sub R 0 X) dX.
set Y := ftrsm _ _ _ _ _ _ _ _ _ in f e.
have E2 k l : at_ R 0 (ftrsm SRight Lower NoTrans Unit (M - R) R 1 X) X k l = if (R <= k)%N then Y (k - R)%N l else X k l.
  by rewrite /at_ /= subn0 andbT.
rewrite /tr; split=> k l kR => [lN|].
  have := e (l - R)%N k; rewrite /sub add0n subnKC; last lia.
  move=> <- //; last lia.
  apply: eq_rsum => t tR; rewrite triUp' mulrC; congr (_ * _); rewrite E2 ifT //; lia.
rewrite E2; case: ifP => // Rl; rewrite f /sub ?add0n ?subnKC //; lia.
Qed.

(** ** The elimination laws *)

Lemma trow_elim M N A X X2 s u R : lu M N A X s u R -> trow_ok M N R X X2 ->
  elim M N A (Lo Unit X2) (Up Unit X2) s u R.
Proof.
move=> h [f i]; have := lu_elim h i; case: h => _ [RM RN] _ _ _.
have UE k l : (k < R)%N -> (l < N)%N -> Up Unit X k l = Up Unit X2 k l.
  by move=> kR lN; rewrite /Up; case: ifP => kl //; rewrite f //; lia.
case=> ps le law un ord; split=> // [k l kM lN||k l kR lN].
- by rewrite law //; case: ifP => kR //; rewrite UE.
- exact: up_unit.
by rewrite -!UE //; [exact: ord | lia].
Qed.

(** The reduced form read in the result. *)
Definition Er (R : nat) X : grid F := fun k l => if (l < R)%N then (k == l)%:R else X k l.

Lemma red_elim M N A X X2 X5 s u R : lu M N A X s u R -> trow_ok M N R X X2 -> red_ok N R X2 X5 ->
  elim M N A X5 (Er R X5) s u R.
Proof.
move=> h [f i] [V [VU V1 V2 V3]]; have [_ [RM RN] _ _ _] := h.
have UE k l : (k < R)%N -> (l < N)%N -> Up Unit X k l = Up Unit X2 k l.
  by move=> kR lN; rewrite /Up; case: ifP => kl //; rewrite f //; lia.
have VX k l : (k < R)%N -> (l < R)%N -> rsum R (fun t => V k t * Up Unit X t l) = (k == l)%:R.
  by move=> kR lR; rewrite -VU //; apply: eq_rsum => t tR; rewrite UE //; lia.
have hZ k j : (k < M)%N -> (j < R)%N -> X5 k j = if (k < R)%N then rsum R (fun t => V k t * Lo Unit X2 t j) else Lo Unit X2 k j.
  move=> kM jR; case: (ltnP k R) => kR; first by rewrite V1.
  by rewrite V3 ?/Lo ?ifT //; lia.
have [ps le law un ord] := lu_elim_red h i VX hZ.
have EE k l : (k < R)%N -> (l < N)%N -> rsum R (fun t => V k t * Up Unit X t l) = Er R X5 k l.
  move=> kR lN; rewrite /Er; case: ltnP => lR; first by rewrite VX.
  by rewrite V2 ?lR //; apply: eq_rsum => t tR; rewrite UE // /Up ifT //; lia.
split=> // [k l kM lN||k l kR lN].
- by rewrite law //; case: ifP => kR //; rewrite EE.
- by rewrite (@eq_mx _ R R _ (fun i j => rsum R (fun t => V i t * Up Unit X t j))) // => a b aR bR; rewrite -EE //; lia.
by rewrite -!EE //; [exact: ord | lia].
Qed.

End Steps.
