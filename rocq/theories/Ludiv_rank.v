(** * Rank profiles, sub-matrices and singularity from LUdivine *)
From mathcomp Require Import all_ssreflect all_algebra zify ring.
From Verif Require Import Grid Perm_model Perm_spec Perm_proofs Perm_mx_proofs.
From Verif Require Import Tri_model Tri_spec Tri_proofs Trtri_proofs.
From Verif Require Import Pluq_model Pluq_spec Pluq_combine Pluq_rank Api_model Api_spec Api_proofs Prof_proofs.
From Verif Require Import Ludiv_model Ludiv_spec Ludiv_proofs.
Set Implicit Arguments.
Unset Strict Implicit.
Unset Printing Implicit Defensive.
Import GRing.Theory.
Local Open Scope ring_scope.

Section Rank.
Variable F : fieldType.
Implicit Types A B X : grid F.

Definition cup_grid d X (Q : nat -> nat) R : grid F := fun k l =>
  if k == l then (if (k < R)%N then (if d is Unit then X (Q k) k else X k k) else 0)
  else if (l < k)%N then (if (l < R)%N then CL d X Q (sigma Q 0 R k) l else 0)
  else (if (k < R)%N then X k l else 0).

Lemma cup_factors d M N A X P Q R : cup d M N A X P Q R ->
  factors d M N A (cup_grid d X Q R) (sigma Q 0 R) (sigma P 0 R) R /\
  (forall k t, (k < M)%N -> (t < R)%N -> Lo d (cup_grid d X Q R) k t = CL d X Q (sigma Q 0 R k) t) /\
  (forall t l, (t < R)%N -> Up d (cup_grid d X Q R) t l = Up d X t l).
Proof.
move=> [[RM RN] hP [hQ iQ] piv law].
have sQ t : (t < R)%N -> sigma Q 0 R t = Q t by move=> tR; exact: sigma_incr.
have pQ : is_perm M (sigma Q 0 R).
  by split=> [x xM|x y _ _]; [apply: sigma_lt xM => // i; exact: hQ | exact: sigma_inj].
have pP : is_perm N (sigma P 0 R).
  split=> [x xM|x y _ _]; last exact: sigma_inj.
  by apply: sigma_lt xM => // i /andP[_ iR]; have := hP i iR; lia.
have eL k t : (k < M)%N -> (t < R)%N -> Lo d (cup_grid d X Q R) k t = CL d X Q (sigma Q 0 R k) t.
  move=> kM tR; rewrite /Lo /cup_grid tR; case: (ltngtP t k) => tk //.
    by rewrite sQ; [rewrite /CL !ifF //; have := iQ k t; lia | lia].
  by rewrite -tk tR sQ // /CL !ltnn !eqxx; case: (d).
have eU t l : (t < R)%N -> Up d (cup_grid d X Q R) t l = Up d X t l.
  move=> tR; rewrite /Up /cup_grid tR; case: (ltngtP t l) => tl //.
  by rewrite eqxx; case: (d).
split=> //; split=> //.
- by move=> t tR; rewrite /cup_grid eqxx tR; exact: piv.
- move=> k l kR lR; rewrite /cup_grid; bcase; lia.
- move=> k l kM lN; rewrite law //; last by case: pQ => h _; exact: h.
  by apply: eq_bigr => t _; rewrite eL // eU.
Qed.

Lemma cup_rank d M N A X P Q R : cup d M N A X P Q R -> \rank (mx M N A) = R.
Proof. by move=> /cup_factors [h _]; exact: factors_rank h. Qed.

Lemma cup_profile d M N A X P Q R : cup d M N A X P Q R -> [seq Q t | t <- iota 0 R] = row_profile M N A.
Proof.
move=> c; have [fac [eL eU]] := cup_factors c.
have [[RM RN] hP [hQ iQ] _ _] := c.
have sQ t : (t < R)%N -> sigma Q 0 R t = Q t by move=> tR; exact: sigma_incr.
have sPN t : (t < N)%N -> (sigma P 0 R t < N)%N.
  by move=> tN; apply: sigma_lt tN => // i /andP[_ iR]; have := hP i iR; lia.
apply: (irr_sorted_eq (leT := ltn)).
- exact: ltn_trans.
- exact: ltnn.
- apply/(sortedP 0%N) => i; rewrite size_map size_iota => iR.
  by rewrite !(nth_map 0%N) ?size_iota ?nth_iota ?add0n //; try lia; apply: iQ; lia.
- by apply: sorted_filter; [exact: ltn_trans | exact: iota_ltn_sorted].
apply: perm_mem.
have := @profile_gen F M N A (sigma Q 0 R) (sigma P 0 R) R (@sigma_injR _ _ _).
have -> : [seq sigma Q 0 R t | t <- [seq t <- iota 0 R | (sigma Q 0 R t < M)%N && (sigma P 0 R t < N)%N]] =
  [seq Q t | t <- iota 0 R].
  rewrite (@eq_in_filter _ _ predT); last first.
    by move=> t; rewrite mem_iota /= add0n => tR; rewrite sQ // hQ // sPN //; lia.
  by rewrite filter_predT; apply/eq_in_map => t; rewrite mem_iota /= add0n => tR; exact: sQ.
apply=> i iM; rewrite -(rank_mask A iM (leqnn N)).
apply: (sel_rank (p := fun x => (x < i)%N) (q := fun x => (x < N)%N) fac).
- move=> k t kM tR ki; rewrite eL // (sQ t) //.
  by rewrite /CL; case: ifP => h; [move=> _; lia | case: ifP => [/eqP <- //|_]; rewrite eqxx].
- by move=> t l tR lN _ _; apply: sPN; lia.
Qed.

Lemma row_colE M N A : row_profile N M (tr A) = col_profile M N A.
Proof.
by rewrite /row_profile /col_profile; apply: eq_filter => j; rewrite /new_row /new_col.
Qed.

Variable bk : nat.
Hypothesis bk0 : (0 < bk)%N.

(** The factorisation of the (possibly transposed) matrix, and the frame. *)
Lemma LUdivine_cup d t M N A P Q :
  let: Pluq X P' Q' R := LUdivine bk d t false M N A P Q in
  let: (m, n) := if t is Trans then (N, M) else (M, N) in
  frame M N X A /\ cup d m n (optr t A) (optr t X) P' Q' R.
Proof.
rewrite /LUdivine; case: t.
  by have := @ludiv_ok F bk bk0 M.+1 NoTrans d false M N A P Q; case: ludiv => X P' Q' R; apply.
have := @ludiv_ok F bk bk0 N.+1 Trans d false N M A P Q; case: ludiv => X P' Q' R /(_ _ _)[] // f c.
by split=> // i j ij; apply: (f j i); rewrite andbC.
Qed.

Lemma row_profile_slab M N A P Q : RowRankProfile_slab bk M N A P Q = (row_profile M N A, \rank (mx M N A)).
Proof.
rewrite /RowRankProfile_slab; have := LUdivine_cup NonUnit NoTrans M N A P Q; case: LUdivine => X P' Q' R [_ c].
by rewrite (cup_profile c) (cup_rank c).
Qed.

Lemma col_profile_slab M N A P Q : ColumnRankProfile_slab bk M N A P Q = (col_profile M N A, \rank (mx M N A)).
Proof.
rewrite /ColumnRankProfile_slab; have := LUdivine_cup NonUnit Trans M N A P Q; case: LUdivine => X P' Q' R [_ c].
by rewrite -row_colE (cup_profile c) -rank_tr (cup_rank c).
Qed.

Lemma deficient_rank M N A : deficient M N A -> (\rank (mx M N A) < M)%N.
Proof.
case=> v v0 vA; rewrite ltn_neqAle rank_leq_row andbT; apply: contra v0 => fr.
have {}fr : row_free (mx M N A) by [].
by apply/eqP; apply: (row_free_inj fr); rewrite vA mul0mx.
Qed.

Lemma IsSingularE M N A P Q : IsSingular bk M N A P Q = ~~ ((M == N) && (\rank (mx M N A) == N)).
Proof.
rewrite /IsSingular; have [->|MN] := eqVneq M N; last first.
  by case: ifP => [|_]; [lia|]; case: ifP.
have [->|N0] := posnP N; first by rewrite [mx _ _ _]flatmx0 mxrank0.
rewrite /=.
have := @ludiv_ok F bk bk0 N.+1 NoTrans NonUnit true N N A P Q; rewrite /LUdivine.
case: ludiv => X P' Q' R /(_ (leqnn _) (fun=> leqnn _))[_]; rewrite /lud_ok /= => -[[-> c]|[-> h]].
  by rewrite (cup_rank c) eqxx gtn_eqF.
by rewrite eqxx; apply/esym; have := deficient_rank h; rewrite ltn_neqAle => /andP[].
Qed.

End Rank.
