(** * Determinant, rank and rank profiles from PLUQ *)
From mathcomp Require Import all_ssreflect all_algebra all_fingroup zify ring.
From Verif Require Import Grid Perm_model Perm_spec Perm_proofs Perm_mx_proofs.
From Verif Require Import Tri_model Tri_spec Tri_proofs Trtri_proofs.
From Verif Require Import Pluq_model Pluq_spec Pluq_rank Pluq_api_proofs Api_model Api_spec Api_blocks Api_proofs.
Set Implicit Arguments.
Unset Strict Implicit.
Unset Printing Implicit Defensive.
Import GRing.Theory.
Local Open Scope ring_scope.

(** ** Sequences *)

Lemma sort_perm (s1 s2 : seq nat) : perm_eq s1 s2 -> sorted leq s2 -> sort leq s1 = s2.
Proof.
move=> /(perm_sortP leq_total leq_trans anti_leq) -> h.
exact: sorted_sort leq_trans _ h.
Qed.

Lemma iota_sorted m (p : pred nat) : sorted leq [seq i <- iota 0 m | p i].
Proof. by apply: sorted_filter; [exact: leq_trans | exact: iota_sorted]. Qed.

Lemma count_uniq_step R (s : nat -> nat) (q : pred nat) i :
  {in gtn R &, injective s} ->
  (count (fun t => (s t < i.+1)%N && q t) (iota 0 R) =
   count (fun t => (s t < i)%N && q t) (iota 0 R) +
   has (fun t => (s t == i) && q t) (iota 0 R))%N.
Proof.
move=> inj.
have -> : (has (fun t => (s t == i) && q t) (iota 0 R) = count (fun t => (s t == i) && q t) (iota 0 R) :> nat)%N.
  rewrite has_count -size_filter; case E : [seq t <- _ | _] => [|a [|b l]] //.
  have ua : uniq [seq t <- iota 0 R | (s t == i) && q t] by rewrite filter_uniq ?iota_uniq.
  have ma : a \in [seq t <- iota 0 R | (s t == i) && q t] by rewrite E inE eqxx.
  have mb : b \in [seq t <- iota 0 R | (s t == i) && q t] by rewrite E !inE eqxx orbT.
  move: ma mb; rewrite !mem_filter !mem_iota /= add0n => /andP[/andP[/eqP sa _] la] /andP[/andP[/eqP sb _] lb].
  have ab : a = b by apply: inj; rewrite ?inE ?sa ?sb.
  by move: ua; rewrite E ab /= inE eqxx.
rewrite -count_predUI [X in (_ + X)%N](_ : _ = 0%N) ?addn0.
  by apply: eq_count => t /=; rewrite -andb_orl ltnS leq_eqVlt orbC.
rewrite (@eq_count _ _ pred0) ?count_pred0 // => t /=.
by case: ltngtP => //=; rewrite ?andbF.
Qed.

Section Prof.
Variable F : fieldType.
Implicit Types (A B C X Z : grid F).

(** ** Rank of one more row *)

Lemma rank_add1 m n (A : 'M[F]_(m, n)) (u : 'rV[F]_n) :
  \rank (col_mx A u) = (\rank A + ~~ (u <= A)%MS)%N.
Proof.
rewrite -addsmxE; case E : (u <= A)%MS => /=.
  by rewrite addn0 (addsmx_idPl E).
apply/eqP; rewrite eqn_leq addn1; apply/andP; split.
  apply: leq_trans (mxrank_adds_leqif A u) _.
  by rewrite -[(\rank A).+1]addn1 leq_add2l rank_leq_row.
rewrite ltn_neqAle mxrankS ?addsmxSl // andbT.
rewrite (mxrank_leqif_sup (addsmxSl A u)) addsmx_sub E andbF //.
Qed.

Lemma rank_row_step n A i : \rank (mx i.+1 n A) = (\rank (mx i n A) + new_row n A i)%N.
Proof.
rewrite -addn1 mx_col rank_add1; congr (_ + ~~ _)%N; congr (_ <= _)%MS.
by apply: eq_mx => k j; rewrite ltnS leqn0 => /eqP -> _; rewrite /sub addn0.
Qed.

Lemma profile_gen m n A s u R : {in gtn R &, injective s} ->
  (forall i, (i <= m)%N -> \rank (mx i n A) = npiv s u R i n) ->
  perm_eq [seq s t | t <- [seq t <- iota 0 R | (s t < m)%N && (u t < n)%N]] (row_profile m n A).
Proof.
move=> inj H; apply: uniq_perm.
- rewrite map_inj_in_uniq ?filter_uniq ?iota_uniq // => a b.
  by rewrite !mem_filter !mem_iota /= !add0n => /andP[_ la] /andP[_ lb]; apply: inj.
- by rewrite filter_uniq ?iota_uniq.
move=> i; rewrite mem_filter mem_iota /= add0n.
have E : (i < m)%N -> new_row n A i = has (fun t => (s t == i) && (u t < n)%N) (iota 0 R).
  move=> im; have := rank_row_step n A i; rewrite !H //; last exact: ltnW.
  rewrite /npiv (count_uniq_step (fun t => (u t < n)%N) i inj) => /eqP; rewrite eqn_add2l.
  by case: new_row; case: has.
apply/mapP/andP => [[t]|[h im]].
  rewrite mem_filter mem_iota /= add0n => /andP[/andP[sm un] tR] e; split; last by rewrite e.
  by rewrite E ?e //; apply/hasP; exists t; rewrite ?mem_iota ?add0n // eqxx un.
move: h; rewrite E // => /hasP[t]; rewrite mem_iota /= add0n => tR /andP[/eqP e un].
by exists t => //; rewrite mem_filter mem_iota add0n e im un tR.
Qed.

Lemma npivC s u R i j : npiv s u R i j = npiv u s R j i.
Proof. by rewrite /npiv; apply: eq_count => t; rewrite andbC. Qed.

Lemma rank_tr m n A : \rank (mx n m (tr A)) = \rank (mx m n A).
Proof. by rewrite -mxrank_tr; congr (\rank _); apply/matrixP => i j; rewrite !mxE. Qed.

Lemma sigma_injR M p R : {in gtn R &, injective (sigma p 0 M)}.
Proof. by move=> a b _ _; exact: sigma_inj. Qed.

(** ** RankProfileFromLU *)

Lemma RankProfileE Q N R : (R <= N)%N -> is_lapack N Q ->
  RankProfileFromLU Q N R = sort leq [seq sigma Q 0 N t | t <- iota 0 R].
Proof.
move=> RN lQ; rewrite /RankProfileFromLU; congr (sort leq _); apply/eq_in_map => t.
rewrite mem_iota /= add0n => tR; have tN : (t < N)%N by exact: leq_trans RN.
set g := fun i RP => _.
have G : forall n, (n <= N)%N -> forall x, (x < N)%N -> iteri n g id x = sigma Q 0 n x.
  elim=> [|n IH] nN x xN; first by rewrite sigma_nil.
  rewrite iteriS sigmaSr // /g; case/andP: (lQ _ nN) => h1 h2.
  case: eqP => e /=; first by rewrite e tij_id IH //; exact: ltnW.
  rewrite memo1E // /swap1 /upd1 /transpose_ij.
  case: (x =P Q n) => e1; case: (x =P n) => e2; rewrite ?IH ?(ltnW nN) //.
  by case: e; rewrite -e1.
exact: G.
Qed.

Lemma row_profile_tile bk thr M N A : (0 < bk)%N ->
  RowRankProfile_tile bk thr M N A = (row_profile M N A, \rank (mx M N A)).
Proof.
move=> bk0; rewrite /RowRankProfile_tile.
have := PLUQ_factors NonUnit thr M N A bk0.
have := fun i j => @PLUQ_lead_rank F bk NonUnit thr M N A i j bk0.
case: PLUQ => X P Q R L [lP lQ fr fac _]; have [[_ [hu _]] [RM RN] _ _ _] := fac.
rewrite (factors_rank fac) RankProfileE //; congr pair; apply: sort_perm; last exact: iota_sorted.
have := @profile_gen M N A (sigma P 0 M) (sigma Q 0 N) R (@sigma_injR _ _ _) (fun i h => L i N h (leqnn N)).
congr (perm_eq _ _); congr map; rewrite -[RHS]filter_predT; apply: eq_in_filter => t.
rewrite mem_iota /= add0n => tR; rewrite hu; last exact: leq_trans RN.
by rewrite sigma_lt //; [exact: is_lapack_lt | exact: leq_trans RM].
Qed.

Lemma col_profile_tile bk thr M N A : (0 < bk)%N ->
  ColumnRankProfile_tile bk thr M N A = (col_profile M N A, \rank (mx M N A)).
Proof.
move=> bk0; rewrite /ColumnRankProfile_tile.
have := PLUQ_factors NonUnit thr M N A bk0.
have := fun i j => @PLUQ_lead_rank F bk NonUnit thr M N A i j bk0.
case: PLUQ => X P Q R L [lP lQ fr fac _]; have [[[hs _] _] [RM RN] _ _ _] := fac.
rewrite (factors_rank fac) RankProfileE //; congr pair; apply: sort_perm; last exact: iota_sorted.
have := @profile_gen N M (tr A) (sigma Q 0 N) (sigma P 0 M) R (@sigma_injR _ _ _).
move=> /(_ (fun i h => etrans (rank_tr M i A) (etrans (L M i (leqnn M) h) (npivC _ _ _ _ _)))).
congr (perm_eq _ _); congr map; rewrite -[RHS]filter_predT; apply: eq_in_filter => t.
rewrite mem_iota /= add0n => tR; rewrite hs; last exact: leq_trans RM.
by rewrite sigma_lt //; [exact: is_lapack_lt | exact: leq_trans RN].
Qed.

Lemma leading_profiles bk d thr M N A m n : (0 < bk)%N -> (m <= M)%N -> (n <= N)%N ->
  let: Pluq X P Q R := PLUQ bk d thr M N A in
  LeadingSubmatrixRankProfiles M N R m n P Q = (row_profile m n A, col_profile m n A, \rank (mx m n A)).
Proof.
move=> bk0 mM nN; have := PLUQ_factors d thr M N A bk0.
have := fun i j => @PLUQ_lead_rank F bk d thr M N A i j bk0.
case: PLUQ => X P Q R L [lP lQ fr fac _]; have [_ [RM RN] _ _ _] := fac.
rewrite /LeadingSubmatrixRankProfiles.
have eP t : (t < R)%N -> lapack2math id P M t = sigma P 0 M t.
  by move=> tR; rewrite lapack2mathE ?(leq_trans tR RM) // => i /lP /andP[].
have eQ t : (t < R)%N -> lapack2math id Q N t = sigma Q 0 N t.
  by move=> tR; rewrite lapack2mathE ?(leq_trans tR RN) // => i /lQ /andP[].
have -> : [seq i <- iota 0 R | (lapack2math id P M i < m)%N && (lapack2math id Q N i < n)%N] =
          [seq i <- iota 0 R | (sigma P 0 M i < m)%N && (sigma Q 0 N i < n)%N].
  by apply: eq_in_filter => t; rewrite mem_iota /= add0n => tR; rewrite eP // eQ.
have ePm : [seq lapack2math id P M i | i <- [seq i <- iota 0 R | (sigma P 0 M i < m)%N && (sigma Q 0 N i < n)%N]] =
   [seq sigma P 0 M i | i <- [seq i <- iota 0 R | (sigma P 0 M i < m)%N && (sigma Q 0 N i < n)%N]].
  by apply/eq_in_map => t; rewrite mem_filter mem_iota /= add0n => /andP[_ tR]; exact: eP.
have eQm : [seq lapack2math id Q N i | i <- [seq i <- iota 0 R | (sigma P 0 M i < m)%N && (sigma Q 0 N i < n)%N]] =
   [seq sigma Q 0 N i | i <- [seq i <- iota 0 R | (sigma Q 0 N i < n)%N && (sigma P 0 M i < m)%N]].
  rewrite (eq_filter (a2 := fun i => (sigma Q 0 N i < n)%N && (sigma P 0 M i < m)%N)); last by move=> t; rewrite andbC.
  by apply/eq_in_map => t; rewrite mem_filter mem_iota /= add0n => /andP[_ tR]; exact: eQ.
rewrite ePm eQm; congr (_, _, _).
- apply: sort_perm; last exact: iota_sorted.
  apply: profile_gen; first exact: sigma_injR.
  by move=> i im; apply: L => //; exact: leq_trans mM.
- apply: sort_perm; last exact: iota_sorted.
  apply: profile_gen; first exact: sigma_injR.
  by move=> i im; rewrite rank_tr npivC L //; exact: leq_trans nN.
by rewrite size_filter L.
Qed.

(** ** Rank and determinant *)

Lemma RankE bk thr M N A : (0 < bk)%N -> Rank bk thr M N A = \rank (mx M N A).
Proof.
move=> bk0; rewrite /Rank PLUQ_rank //; case: andP => // -[/eqP -> /eqP ->].
by rewrite [mx _ _ _]flatmx0 mxrank0.
Qed.

Lemma det_Tmx n i j : (i < n)%N -> (j < n)%N -> \det (Tmx F n i j) = (-1) ^+ (j != i).
Proof.
move=> ii jn; have -> : Tmx F n i j = perm_mx (tperm (Ordinal ii) (Ordinal jn)).
  apply/matrixP => a b; rewrite !mxE; congr (_%:R); congr nat_of_bool.
  rewrite /transpose_ij; case: tpermP => [->|->|]; rewrite ?eqxx //=.
  - by rewrite eq_sym.
  - by case: (j =P i) => [->|]; rewrite eq_sym.
  - move=> /eqP na /eqP nb; have -> : (a : nat) == i = false by apply: negbTE; move: na; rewrite -val_eqE.
    have -> : (a : nat) == j = false by apply: negbTE; move: nb; rewrite -val_eqE.
    by rewrite eq_sym.
by rewrite det_perm odd_tperm -val_eqE /= eq_sym.
Qed.

Lemma det_Pmx n p : is_lapack n p -> \det (Pmx F n p 0 n) = (-1) ^+ count (fun i => p i != i) (iota 0 n).
Proof.
move=> lp; have G e : (e <= n)%N -> \det (Pmx F n p 0 e) = (-1) ^+ count (fun i => p i != i) (iota 0 e).
  elim: e => [|e IH] en; first by rewrite /Pmx /= det1 expr0.
  rewrite /Pmx subn0 -addn1 iotaD foldl_cat count_cat /= addn0 det_mulmx.
  have /andP[h1 h2] := lp _ en.
  have := IH (ltnW en); rewrite /Pmx subn0 => ->.
  by rewrite det_Tmx // exprD mulrC.
exact: G.
Qed.

Lemma DetE bk thr N A : (0 < bk)%N -> Det bk thr N A = \det (mx N N A).
Proof.
move=> bk0; rewrite /Det; case: eqP => [->|_]; first by rewrite det_mx00.
have := PLUQ_factors NonUnit thr N N A bk0.
case: PLUQ => X P Q R [lP lQ fr fac EA]; have [_ [RN _] _ _ _] := fac.
case: ltnP => RN'.
  apply/esym/eqP; move: RN'; rewrite -(factors_rank fac) => h; apply: contraTT h => h.
  have : mx N N A \in unitmx by rewrite unitmxE unitfE.
  by rewrite -row_full_unit /row_full => /eqP ->; rewrite ltnn.
have e : R = N by lia.
subst R; rewrite EA !det_mulmx det_tr !det_Pmx //.
have -> : \det (Lmx NonUnit N N X) = 1.
  rewrite det_trig; last by apply/is_trig_mxP => i j ij; rewrite mxE /Lo; case: ltngtP ij.
  by rewrite big1 // => i _; rewrite mxE /Lo ltnn eqxx.
have -> : \det (Umx NonUnit N N X) = \prod_(i < N) X i i.
  rewrite -det_tr det_trig; last by apply/is_trig_mxP => i j ij; rewrite !mxE /Up; case: ltngtP ij.
  by apply: eq_bigr => i _; rewrite !mxE /Up ltnn eqxx.
have -> : iteri N (fun i d => d * X i i) 1 = \prod_(i < N) X i i.
  by elim: (N) => [|n IH]; rewrite ?big_ord0 // iteriS big_ord_recr /= IH.
set c := iteri N _ 0%N.
have -> : c = (count (fun i => P i != i) (iota 0 N) + count (fun i => Q i != i) (iota 0 N))%N.
  rewrite /c; elim: (N) => [|n IH] //; rewrite iteriS IH -[in RHS](addn1 n) iotaD !count_cat /= !addn0.
  by do 2 case: eqP => _ /=; lia.
rewrite mulr1 -signr_odd -[X in _ * _ * X]signr_odd oddD.
by do 2 case: odd; rewrite /= ?expr0 ?expr1 ?mulr1 ?mul1r ?mulN1r ?mulrN1 ?opprK.
Qed.

(** ** fgesv *)

Lemma fgesv_ok bk thr s M N k A Z0 B junk : (0 < bk)%N ->
  let: (Z, info, R) := fgesv bk thr s M N k A Z0 B junk in
  R = \rank (mx M N A) /\
  frame (if s is SLeft then N else k) (if s is SLeft then k else M) Z Z0 /\ answers (isl s) M N k A Z B info.
Proof.
move=> bk0; rewrite /fgesv; have := PLUQ_factors NonUnit thr M N A bk0.
case: PLUQ => X P Q R [lP lQ fr fac _].
have := fgetrs_ok s k Z0 B junk bk0 lP lQ fac; case: fgetrs => Z info h.
by split=> //; rewrite (factors_rank fac).
Qed.

Lemma fgesv_inplace_ok bk thr s M N A B (Na := if s is SLeft then M else N) : (0 < bk)%N ->
  let: (Z, info, R) := fgesv_inplace bk thr s M N A B in
  R = \rank (mx Na Na A) /\
  frame M N Z B /\ answers (isl s) Na Na (if s is SLeft then N else M) A Z B info.
Proof.
move=> bk0; rewrite /fgesv_inplace -/Na; have := PLUQ_factors NonUnit thr Na Na A bk0.
case: PLUQ => X P Q R [lP lQ fr fac _].
have := @fgetrs_inplace_ok F bk s M N A X P Q R B bk0 lP lQ fac; case: fgetrs_inplace => Z info h.
by split=> //; rewrite (factors_rank fac).
Qed.

End Prof.
