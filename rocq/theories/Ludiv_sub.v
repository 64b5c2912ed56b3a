(** * Rank profile sub-matrices *)
From mathcomp Require Import all_ssreflect all_algebra zify ring.
From Verif Require Import Grid Perm_model Perm_spec Perm_proofs Perm_mx_proofs.
From Verif Require Import Tri_model Tri_spec Tri_proofs.
From Verif Require Import Pluq_model Pluq_spec Pluq_rank Api_model Api_spec Prof_proofs.
From Verif Require Import Ludiv_model Ludiv_spec Ludiv_proofs Ludiv_rank.
Set Implicit Arguments.
Unset Strict Implicit.
Unset Printing Implicit Defensive.
Import GRing.Theory.
Local Open Scope ring_scope.

Definition upto (n k : nat) (f : nat -> nat) : arr := mkseq (fun x => if (x < k)%N then Some (f x) else None) n.

Lemma fornS T n body (x : T) : forn n.+1 body x = obind (body n) (forn n body x).
Proof. by []. Qed.

Lemma wr_mk g n i v : (i < n)%N -> wr (mkseq g n) i v = Some (mkseq (fun x => if x == i then Some v else g x) n).
Proof.
move=> ii; rewrite /wr size_mkseq ii; congr Some; apply: (@eq_from_nth _ None).
  by rewrite size_set_nth !size_mkseq; apply/maxn_idPr.
move=> j; rewrite size_set_nth size_mkseq (maxn_idPr ii) => jn.
by rewrite nth_set_nth /= !nth_mkseq //; case: eqP.
Qed.

Lemma wr_oob a i v : (size a <= i)%N -> wr a i v = None.
Proof. by move=> h; rewrite /wr ifF //; lia. Qed.

Lemma rd_mk g n i : rd (mkseq g n) i = if (i < n)%N then g i else None.
Proof.
rewrite /rd; case: ltnP => h; first by rewrite nth_mkseq.
by rewrite nth_default ?size_mkseq.
Qed.

Lemma eq_mk (g h : nat -> option nat) n : (forall x, (x < n)%N -> g x = h x) -> mkseq g n = mkseq h n.
Proof. by move=> e; apply/eq_in_map => x; rewrite mem_iota => /andP[_]; exact: e. Qed.

Lemma allocE n : alloc n = upto n 0 id.
Proof. by apply: (@eq_from_nth _ None); rewrite size_nseq ?size_mkseq // => i i_n; rewrite nth_nseq nth_mkseq ?i_n. Qed.

Lemma copy_ok n k Q : (k <= n)%N -> copy_arr k Q (alloc n) = Some (upto n k Q).
Proof.
rewrite /copy_arr; elim: k => [|k IH] kn; first by rewrite allocE; congr Some; apply: eq_mk.
rewrite fornS IH ?(ltnW kn) //= wr_mk //; congr Some; apply: eq_mk => x xn.
by rewrite ltnS; case: (ltngtP x k) => // ->.
Qed.

Lemma copy_oob n k Q : (n < k)%N -> copy_arr k Q (alloc n) = None.
Proof.
rewrite /copy_arr; elim: k => // k IH; rewrite ltnS leq_eqVlt => /predU1P[<-|/IH E].
  by rewrite fornS -/(copy_arr n Q (alloc n)) copy_ok //= wr_oob // size_mkseq.
by rewrite fornS E.
Qed.

Lemma exch_ok n R P : (R <= n)%N -> (forall i, (i < R)%N -> (P i < n)%N) ->
  exch_arr R P (upto n n id) = Some (upto n n (sigma P 0 R)).
Proof.
rewrite /exch_arr; elim: R => [|R IH] Rn hP.
  by congr Some; apply: eq_mk => x xn; rewrite sigma_nil.
rewrite fornS IH; [|exact: ltnW|by move=> i iR; apply: hP; lia].
have pn := hP R (ltnSn R); rewrite /=; case: eqP => [e|ne] /=.
  congr Some; apply: eq_mk => x xn; rewrite sigmaSr // -e /transpose_ij.
  by case: eqP => // ->.
rewrite !rd_mk Rn pn /= wr_mk //= wr_mk //; congr Some; apply: eq_mk => x xn.
rewrite xn sigmaSr // /transpose_ij.
by case: (x =P P R) => [->|_]; [rewrite ifF //; apply/eqP => e; case: ne | case: eqP].
Qed.

Lemma upto_full n f : upto n n f = map Some (mkseq f n).
Proof. by rewrite /mkseq -map_comp; apply/eq_in_map => x; rewrite mem_iota => /andP[_ /= ->]. Qed.

Lemma upto_part n k f : (k <= n)%N -> upto n k f = map Some (mkseq f k) ++ alloc (n - k).
Proof.
move=> kn; apply: (@eq_from_nth _ None); first by rewrite size_mkseq size_cat size_map size_mkseq size_nseq; lia.
move=> i; rewrite size_mkseq => i_n; rewrite nth_mkseq // nth_cat size_map size_mkseq.
by case: ltnP => ik; [rewrite (nth_map 0%N) ?size_mkseq // nth_mkseq | rewrite nth_nseq if_same].
Qed.

Section Sub.
Variable F : fieldType.
Implicit Types A X : grid F.

Lemma cup_minor d M N A X P Q R : cup d M N A X P Q R ->
  mx R R (fun i j => A (Q i) (sigma P 0 R j)) = mx R R (fun i t => CL d X Q (Q i) t) *m mx R R (Up d X) /\
  mx R R (fun i t => CL d X Q (Q i) t) \in unitmx /\ mx R R (Up d X) \in unitmx.
Proof.
move=> [[RM RN] hP [hQ iQ] piv law]; split; last split.
- rewrite mxM; apply: eq_mx => i j iR jR; rewrite law ?hQ // ?rsumE //; lia.
- apply: lower_unit => [i j /andP[ij jR]|i iR].
    by rewrite /CL !ifF //; have := iQ i j; lia.
  by rewrite /CL ltnn eqxx; have := piv i iR; case: (d) => // _; exact: oner_neq0.
- apply: upper_unit => [i j /andP[ij jR]|i iR]; first by rewrite /Up !ifF //; lia.
  by rewrite /Up ltnn eqxx; have := piv i iR; case: (d) => // _; exact: oner_neq0.
Qed.

Lemma cup_minor_unit d M N A X P Q R : cup d M N A X P Q R ->
  mx R R (fun i j => A (Q i) (sigma P 0 R j)) \in unitmx.
Proof. by move=> /cup_minor [-> [h1 h2]]; rewrite unitmx_mul h1. Qed.

Lemma tr_mx m n A : (mx m n A)^T = mx n m (tr A).
Proof. by apply/matrixP => i j; rewrite !mxE. Qed.

Lemma unit_ext n A X : (forall i j, (i < n)%N -> (j < n)%N -> X i j = A i j) ->
  mx n n A \in unitmx -> mx n n X \in unitmx.
Proof. by move=> e; rewrite (_ : mx n n X = mx n n A) //; apply: eq_mx. Qed.

Variable bk : nat.
Hypothesis bk0 : (0 < bk)%N.

Lemma perm_sigma n R P : (R <= n)%N -> (forall i, (i < R)%N -> (P i < n)%N) ->
  perm_eq (mkseq (sigma P 0 R) n) (iota 0 n).
Proof.
move=> Rn hP; apply: uniq_perm; [by rewrite map_inj_uniq ?iota_uniq //; exact: sigma_inj | exact: iota_uniq |].
move=> x; rewrite mem_iota /= add0n; apply/mapP/idP => [[y]|xn].
  by rewrite mem_iota /= add0n => yn ->; apply: sigma_lt yn => // i; exact: hP.
exists (sigmaV P 0 R x); last by rewrite sigmaVK.
by rewrite mem_iota /= add0n; apply: sigmaV_lt xn => // i; exact: hP.
Qed.

Lemma row_indices M N A P Q : exists ci,
  [/\ RowRankProfileSubmatrixIndices bk M N A P Q =
        Some (map Some (row_profile M N A) ++ alloc (M - \rank (mx M N A)), map Some ci, \rank (mx M N A)),
      perm_eq ci (iota 0 N) &
      mx (\rank (mx M N A)) (\rank (mx M N A))
        (fun i j => A (nth 0 (row_profile M N A) i) (nth 0 ci j))%N \in unitmx].
Proof.
rewrite /RowRankProfileSubmatrixIndices; have := LUdivine_cup bk0 NonUnit NoTrans M N A P Q.
case: LUdivine => X P' Q' R [_ /= c]; have [[RM RN] hP _ _ _] := c.
have hP' i : (i < R)%N -> (P' i < N)%N by move=> /hP; lia.
rewrite (cup_rank c) -(cup_profile c); exists (mkseq (sigma P' 0 R) N); split.
- by rewrite copy_ok //= copy_ok //= exch_ok //= upto_full upto_part.
- exact: perm_sigma.
- apply: unit_ext (cup_minor_unit c) => i j iR jR.
  by rewrite (nth_map 0%N) ?size_iota // nth_iota // nth_mkseq //; lia.
Qed.

Lemma col_indices_square N A P Q : exists ri,
  [/\ ColRankProfileSubmatrixIndices bk N N A P Q =
        Some (map Some ri, map Some (col_profile N N A) ++ alloc (N - \rank (mx N N A)), \rank (mx N N A)),
      perm_eq ri (iota 0 N) &
      mx (\rank (mx N N A)) (\rank (mx N N A))
        (fun i j => A (nth 0 ri i) (nth 0 (col_profile N N A) j))%N \in unitmx].
Proof.
rewrite /ColRankProfileSubmatrixIndices; have := LUdivine_cup bk0 NonUnit Trans N N A P Q.
case: LUdivine => X P' Q' R [_ /= c]; have [[RM RN] hP _ _ _] := c.
have hP' i : (i < R)%N -> (P' i < N)%N by move=> /hP; lia.
rewrite -row_colE -rank_tr (cup_rank c) -(cup_profile c); exists (mkseq (sigma P' 0 R) N); split.
- by rewrite copy_ok //= copy_ok //= exch_ok //= upto_full upto_part.
- exact: perm_sigma.
- have := cup_minor_unit c; rewrite -unitmx_tr tr_mx; apply: unit_ext => i j iR jR.
  by rewrite /tr (nth_map 0%N) ?size_iota // nth_iota // nth_mkseq //; lia.
Qed.

Lemma col_indices_wide M N A P Q : (M < N)%N -> ColRankProfileSubmatrixIndices bk M N A P Q = None.
Proof.
move=> MN; rewrite /ColRankProfileSubmatrixIndices; have := LUdivine_cup bk0 NonUnit Trans M N A P Q.
case: LUdivine => X P' Q' R [_ /= [[RM RN] _ _ _ _]].
by rewrite (copy_oob _ MN); case: copy_arr.
Qed.

Lemma row_submatrix M N A P Q : exists X,
  RowRankProfileSubmatrix bk M N A P Q = Some (X, \rank (mx M N A)) /\
  mx (\rank (mx M N A)) (\rank (mx M N A)) X \in unitmx.
Proof.
rewrite /RowRankProfileSubmatrix; have [ci [-> pc u]] := row_indices M N A P Q; rewrite /submatrix /=.
set r := \rank _ in u *.
have szr : size (row_profile M N A) = r.
  have := row_profile_slab bk0 M N A P Q; rewrite /RowRankProfile_slab; case: LUdivine => _ _ Q' R [<- e].
  by rewrite size_map size_iota e.
have rN : (r <= size ci)%N by rewrite (perm_size pc) size_iota rank_leq_col.
have e1 i : (i < r)%N -> rd (map Some (row_profile M N A) ++ alloc (M - r)) i = Some (nth 0 (row_profile M N A) i)%N.
  by move=> ir; rewrite /rd nth_cat size_map szr ir (nth_map 0%N) ?szr.
have e2 i : (i < r)%N -> rd (map Some ci) i = Some (nth 0 ci i)%N.
  by move=> ir; rewrite /rd (nth_map 0%N) //; exact: leq_trans rN.
rewrite ifT; last by apply/allP => i; rewrite mem_iota /= add0n => ir; rewrite e1 ?e2.
eexists; split; first reflexivity.
by apply: unit_ext u => i j ir jr; rewrite e1 ?e2.
Qed.

End Sub.
