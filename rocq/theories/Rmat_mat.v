(** * Random matrices: rank, rank profile matrix, determinant, symmetry *)
From mathcomp Require Import all_ssreflect all_algebra zify ring.
From Verif Require Import Grid Perm_model Perm_spec Perm_proofs Perm_mx_proofs Tri_model Tri_spec Tri_proofs Trtri_proofs.
From Verif Require Import Pluq_model Pluq_spec Pluq_rank Prof_proofs Bruhat_spec Rmat_model Rmat_proofs.
Set Implicit Arguments.
Unset Strict Implicit.
Unset Printing Implicit Defensive.
Import GRing.Theory.
Local Open Scope ring_scope.

Section Mat.
Variable F : fieldType.
Implicit Types A L U G : grid F.

Lemma diag_iter c (f : nat -> F) A i j : iteri c (fun i A => upd A i i (f i)) A i j = if (i < c)%N && (i == j) then f i else A i j.
Proof.
elim: c => [|c IH] //; rewrite iteriS /upd IH ltnS; case: (i =P c) => [->|ic] /=.
  by rewrite leqnn ltnn /= eq_sym.
by have -> : (i <= c)%N = (i < c)%N by lia.
Qed.

Lemma triUE m n d ns G z A i j : (i < m)%N -> (j < n)%N ->
  RandomTriangular m n Upper d ns G z A i j =
  if (j < i)%N then 0 else if i == j then (if d is Unit then 1 else if ns then z i else G i j) else G i j.
Proof.
move=> im jn; rewrite /RandomTriangular.
have E (f : nat -> F) : iteri (minn m n) (fun i A => upd A i i (f i)) (fill m n (fun i j => if (j < i)%N then 0 else G i j) A) i j =
    if (j < i)%N then 0 else if i == j then f i else G i j.
  rewrite diag_iter /fill im jn /=; case: (i =P j) => [ij|ij]; last by rewrite andbF.
  by rewrite -ij ltnn andbT ifT //; lia.
case: d; first by rewrite (E (fun=> 1)).
case: ns; first by rewrite (E z).
by rewrite /fill im jn /=; case: ifP => // _; case: ifP.
Qed.

Lemma triLE n d ns G z A i j : (i < n)%N -> (j < n)%N ->
  RandomTriangular n n Lower d ns G z A i j =
  if (i < j)%N then 0 else if i == j then (if d is Unit then 1 else if ns then z i else G i j) else G i j.
Proof.
move=> im jn; rewrite /RandomTriangular minnn.
have E (f : nat -> F) : iteri n (fun i A => upd A i i (f i)) (fun i j => if (i < n)%N then if (j <= i)%N then G i j else if (j < n)%N then 0 else A i j else A i j) i j =
    if (i < j)%N then 0 else if i == j then f i else G i j.
  rewrite diag_iter im jn /=; case: (i =P j) => [<-|ij]; first by rewrite ltnn.
  by rewrite leqNgt; case: (i < j)%N.
case: d; first by rewrite (E (fun=> 1)).
case: ns; first by rewrite (E z).
by rewrite im jn leqNgt; case: (i < j)%N => //=; case: ifP.
Qed.

Lemma triL_unit n G z A : (forall k, (k < n)%N -> z k != 0) -> mx n n (RandomTriangular n n Lower NonUnit true G z A) \in unitmx.
Proof.
move=> z0; apply: lower_unit => [i j /andP[ij jn]|i iN]; rewrite triLE ?ij ?ltnn ?eqxx //; [|exact: z0].
exact: ltn_trans jn.
Qed.

Lemma is_lapack_lt n p : is_lapack n p -> forall i, (0 <= i < n)%N -> (p i < n)%N.
Proof. by move=> lp i /andP[_ iN]; case/andP: (lp i iN). Qed.

Lemma Pmx_unit n p : is_lapack n p -> Pmx F n p 0 n \in unitmx.
Proof. by move=> lp; rewrite unitmxE det_Pmx // unitrX // unitrN1. Qed.

Lemma mx_gemm m n k A B C : mx m n (fgemm NoTrans NoTrans m n k 1 A B 0 C) = mx m k A *m mx k n B.
Proof.
rewrite mxM; apply: eq_mx => i j im jn; rewrite fgemmE im jn mul1r mul0r addr0.
by apply: eq_rsum.
Qed.

Lemma RandomMatrixWithRankE bk m n r GL GU zL zU x y P0 Q0 L0 U0 A : (0 < bk)%N ->
  (forall k, zL k != 0) -> (forall k, zU k != 0) ->
  \rank (mx m n (RandomMatrixWithRank bk m n r GL GU zL zU x y P0 Q0 L0 U0 A)) = minn m n.
Proof.
move=> bk0 hL hU; rewrite /RandomMatrixWithRank; set P := RandomPermutation n _ _; set Q := RandomPermutation m _ _.
have lP : is_lapack n P by exact: RandomPermutation_lapack.
have lQ : is_lapack m Q by exact: RandomPermutation_lapack.
rewrite mx_gemm.
set L := RandomTriangular m m _ _ _ _ _ _; set U := RandomTriangular m n _ _ _ _ _ _.
have -> : mx m n (applyP bk SRight NoTrans m 0 n P U) = mx m n U *m Pmx F n P 0 n.
  by have := applyP_mx m U bk0 (leqnn _) (is_lapack_lt lP) SRight NoTrans.
have -> : mx m m (applyP bk SLeft NoTrans m 0 m Q L) = Pmx F m Q 0 m *m mx m m L.
  by have := applyP_mx m L bk0 (leqnn _) (is_lapack_lt lQ) SLeft NoTrans.
rewrite mulmxA mxrankMfree; last by rewrite row_free_unit; exact: Pmx_unit.
rewrite (eqmxMfull (A := Pmx F m Q 0 m *m mx m m L)); last first.
  by rewrite row_full_unit unitmx_mul Pmx_unit // triL_unit.
apply/eqP; rewrite eqn_leq leq_min rank_leq_row rank_leq_col /=; set c := minn m n.
apply: (rank_ge (S := mx c m (fun i k => (k == i)%:R)) (T := mx n c (fun k j => (k == j)%:R))).
have sm i : (i < c)%N -> (i < m)%N by rewrite /c; lia.
have sn i : (i < c)%N -> (i < n)%N by rewrite /c; lia.
rewrite (@mx_sel F m n c c U id id sm sn).
apply: upper_unit => [i j /andP[ij ic]|i ic]; rewrite /U triUE ?ij ?ltnn ?eqxx //; first [exact: sm | exact: sn | apply: sn; lia].
Qed.

(** ** Prescribed rank profile matrix *)
Lemma sum_inj N R (c : nat -> nat) (f : nat -> F) : (forall k, (k < R)%N -> (c k < N)%N) ->
  (forall k l, (k < R)%N -> (l < R)%N -> c k = c l -> k = l) ->
  (forall t, (t < N)%N -> (forall k, (k < R)%N -> c k != t) -> f t = 0) ->
  rsum N f = rsum R (fun k => f (c k)).
Proof.
move=> cN ci z; rewrite !rsumE -(big_mkord xpredT f) -(big_mkord xpredT (fun k => f (c k))) -(big_map c xpredT f).
set S := map c _; have uS : uniq S.
  rewrite map_inj_in_uniq ?iota_uniq // => a b; rewrite !mem_index_iota => /andP[_ a1] /andP[_ b1]; exact: ci.
rewrite (bigID (fun t => t \in S)) /= [X in _ + X]big1_seq ?addr0; last first.
  move=> t /andP[tS]; rewrite mem_index_iota => /andP[_ tN]; apply: z => // k kR.
  by apply: contraNneq tS => <-; apply: map_f; rewrite mem_index_iota.
rewrite -big_filter; apply: perm_big; apply: uniq_perm => //; first by rewrite filter_uniq // iota_uniq.
move=> t; rewrite mem_filter; case: (boolP (t \in S)) => //= /mapP[k].
by rewrite !mem_index_iota => /andP[_ kR] ->; exact: cN.
Qed.

Section Rpm.
Variables (M N R : nat) (rrp crp : nat -> nat).
Hypothesis rM : forall k, (k < R)%N -> (rrp k < M)%N /\ (crp k < N)%N.
Hypothesis ri : forall k l, (k < R)%N -> (l < R)%N -> rrp k = rrp l -> k = l.
Hypothesis ci : forall k l, (k < R)%N -> (l < R)%N -> crp k = crp l -> k = l.

Lemma rpm_gen L U A (Z : nat -> nat -> F) :
  (forall a k, (a < M)%N -> (k < R)%N -> L a (crp k) = if (a < rrp k)%N then 0 else Z k a) ->
  (forall a b, (a < M)%N -> (b < N)%N -> (forall k, (k < R)%N -> crp k != b) -> L a b = 0) ->
  (forall k, (k < R)%N -> Z k (rrp k) != 0) ->
  (forall i j, (i < N)%N -> (j < N)%N -> (j < i)%N -> U i j = 0) -> (forall i, (i < N)%N -> U i i != 0) ->
  forall m n, (m <= M)%N -> (n <= N)%N -> \rank (mx m n (fgemm NoTrans NoTrans M N N 1 L U 0 A)) = nlead rrp crp R m n.
Proof.
move=> hL hL0 hZ hU hUd m n mM nN.
apply: (@lead_rank F m n R _ (fun a k => L a (crp k)) (fun k j => U (crp k) j)) => //.
- move=> i j im jn; rewrite fgemmE !ifT; last by lia.
  rewrite mul1r mul0r addr0; apply: (sum_inj (f := fun t => L i t * U t j)) => //; first by move=> k /rM[].
  by move=> t tN h; rewrite hL0 ?mul0r //; lia.
- move=> i k im kR; rewrite hL //; last by lia.
  by case: ltnP => //; rewrite eqxx.
- move=> k j kR jn; have [_ cN] := rM kR; rewrite leqNgt; apply: contraNN => lt; rewrite hU ?lt //; lia.
- move=> k kR rm cn; have [r1 c1] := rM kR; split; last by apply: hUd.
  by rewrite hL ?ltnn ?hZ.
Qed.

Lemma WithRankandRPM_rank G z GU zU L0 U0 A : (forall k, z k != 0) -> (forall k, zU k != 0) ->
  forall m n, (m <= M)%N -> (n <= N)%N ->
  \rank (mx m n (RandomMatrixWithRankandRPM M N R rrp crp G z GU zU L0 U0 A)) = nlead rrp crp R m n.
Proof.
move=> hz hzU; rewrite /RandomMatrixWithRankandRPM; set f := fun k L => _; set U := RandomTriangular _ _ _ _ _ _ _ _.
have LE n : (n <= R)%N -> let L := iteri n f (fzero M N L0) in
    (forall a k, (a < M)%N -> (k < n)%N -> L a (crp k) = if (a < rrp k)%N then 0 else if a == rrp k then z k else G k a) /\
    (forall a b, (a < M)%N -> (b < N)%N -> (forall k, (k < n)%N -> crp k != b) -> L a b = 0).
  elim: n => [|n IH] nR /=; first by split=> // a b aM bN _; rewrite /fzero /fill aM bN.
  have [h1 h2] := IH (ltnW nR); move: (iteri n f _) h1 h2 => L h1 h2; rewrite /f; cbv zeta; split=> [a k aM kn|a b aM bN hb].
    case: (eqVneq (crp k) (crp n)) => [e|ne] /=.
      have ek : k = n by apply: ci => //; lia.
      subst k; case: (ltngtP a (rrp n)) => c //=; rewrite ?aM //.
      have [_ cN] := rM nR; apply: h2 => // k kn'; apply/eqP => E.
      by have := ci (ltn_trans kn' nR) nR E; lia.
    by apply: h1 => //; rewrite ltn_neqAle -ltnS kn andbT; apply: contraNneq ne => ->.
  have -> /= : (b == crp n) = false by apply/negP => /eqP e; have := hb n (ltnSn n); rewrite e eqxx.
  by apply: h2 => // k kn; apply: hb; exact: ltnW.
have [h1 h2] := LE R (leqnn R).
apply: (@rpm_gen _ U A (fun k a => if a == rrp k then z k else G k a)) => //.
- by move=> k kR; rewrite eqxx.
- by move=> i j iN jN ji; rewrite /U triUE // ji.
- by move=> i iN; rewrite /U triUE // ltnn eqxx.
Qed.

End Rpm.

Section Sym.
Variables (N R : nat) (rrp crp : nat -> nat).
Hypothesis rN : forall k, (k < R)%N -> (rrp k < N)%N /\ (crp k < N)%N.
Hypothesis ri : forall k l, (k < R)%N -> (l < R)%N -> rrp k = rrp l -> k = l.
Hypothesis ci : forall k l, (k < R)%N -> (l < R)%N -> crp k = crp l -> k = l.
Variables (GU : grid F) (zU : nat -> F) (L0 U0 A : grid F).
Hypothesis hz : forall k, zU k != 0.
Let U := RandomTriangular N N Upper NonUnit true GU zU U0.
Let L := iteri R (fun k L => let i := rrp k in let j := crp k in
    fun a b => if (b == j) && (i <= a < N)%N then U i a else L a b) (fzero N N L0).

Lemma symL : (forall a k, (a < N)%N -> (k < R)%N -> L a (crp k) = if (a < rrp k)%N then 0 else U (rrp k) a) /\
    (forall a b, (a < N)%N -> (b < N)%N -> (forall k, (k < R)%N -> crp k != b) -> L a b = 0).
Proof.
rewrite /L; set f := fun k L => _.
suff LE n : (n <= R)%N -> let L := iteri n f (fzero N N L0) in
    (forall a k, (a < N)%N -> (k < n)%N -> L a (crp k) = if (a < rrp k)%N then 0 else U (rrp k) a) /\
    (forall a b, (a < N)%N -> (b < N)%N -> (forall k, (k < n)%N -> crp k != b) -> L a b = 0) by exact: LE.
elim: n => [|n IH] nR /=; first by split=> // a b aM bN _; rewrite /fzero /fill aM bN.
have [h1 h2] := IH (ltnW nR); move: (iteri n f _) h1 h2 => L1 h1 h2; rewrite /f; cbv zeta; split=> [a k aM kn|a b aM bN hb].
  case: (eqVneq (crp k) (crp n)) => [e|ne] /=.
    have ek : k = n by apply: ci => //; lia.
    subst k; rewrite aM andbT leqNgt; case: ltnP => c //=.
    have [_ cN] := rN nR; apply: h2 => // k kn'; apply/eqP => E.
    by have := ci (ltn_trans kn' nR) nR E; lia.
  by apply: h1 => //; rewrite ltn_neqAle -ltnS kn andbT; apply: contraNneq ne => ->.
have -> /= : (b == crp n) = false by apply/negP => /eqP e; have := hb n (ltnSn n); rewrite e eqxx.
by apply: h2 => // k kn; apply: hb; exact: ltnW.
Qed.

Lemma SymRPM_rank m n : (m <= N)%N -> (n <= N)%N ->
  \rank (mx m n (RandomSymmetricMatrixWithRankandRPM N R rrp crp GU zU L0 U0 A)) = nlead rrp crp R m n.
Proof.
have [h1 h2] := symL; rewrite /RandomSymmetricMatrixWithRankandRPM -/U -/L.
apply: (@rpm_gen N N R rrp crp rN ri ci _ U A (fun k a => U (rrp k) a)) => //.
- by move=> k kR; have [r1 _] := rN kR; rewrite /U triUE // ltnn eqxx.
- by move=> i j iN jN ji; rewrite /U triUE // ji.
- by move=> i iN; rewrite /U triUE // ltnn eqxx.
Qed.

Lemma SymRPM_sym : (forall k, (k < R)%N -> exists2 l, (l < R)%N & rrp l = crp k /\ crp l = rrp k) ->
  let X := RandomSymmetricMatrixWithRankandRPM N R rrp crp GU zU L0 U0 A in
  forall i j, (i < N)%N -> (j < N)%N -> X i j = X j i.
Proof.
move=> inv; have [h1 h2] := symL; rewrite /RandomSymmetricMatrixWithRankandRPM -/U -/L /=.
have E i j : (i < N)%N -> (j < N)%N -> fgemm NoTrans NoTrans N N N 1 L U 0 A i j = rsum R (fun k => U (rrp k) i * U (crp k) j).
  move=> iN jN; rewrite fgemmE iN jN mul1r mul0r addr0.
  rewrite (sum_inj (c := crp) (R := R) (f := fun t => L i t * U t j)) //; first last.
  - by move=> t tN h; rewrite h2 ?mul0r.
  - by move=> k /rN[].
  apply: eq_rsum => k kR; rewrite h1 //; case: ltnP => // lt.
  by have [r1 _] := rN kR; rewrite [U _ i]triUE // lt.
move=> i j iN jN; rewrite !E //.
pose h (p : nat * nat) := U p.1 i * U p.2 j.
pose S := [seq (rrp k, crp k) | k <- iota 0 R]; pose S' := [seq (crp k, rrp k) | k <- iota 0 R].
have e1 : rsum R (fun k => U (rrp k) i * U (crp k) j) = \sum_(p <- S) h p.
  by rewrite rsumE big_map -(big_mkord xpredT (fun k => U (rrp k) i * U (crp k) j)) /index_iota subn0.
have e2 : rsum R (fun k => U (rrp k) j * U (crp k) i) = \sum_(p <- S') h p.
  rewrite rsumE big_map -(big_mkord xpredT (fun k => U (rrp k) j * U (crp k) i)) /index_iota subn0.
  by apply: eq_bigr => k _; rewrite mulrC.
rewrite e1 e2; apply: perm_big; apply: uniq_perm.
- rewrite map_inj_in_uniq ?iota_uniq // => a b; rewrite !mem_iota !add0n => /andP[_ a1] /andP[_ b1] [e _]; exact: ri.
- rewrite map_inj_in_uniq ?iota_uniq // => a b; rewrite !mem_iota !add0n => /andP[_ a1] /andP[_ b1] [e _]; exact: ci.
move=> p; apply/mapP/mapP => -[k]; rewrite mem_iota add0n => /andP[_ kR] ->.
  by have [l lR [<- <-]] := inv k kR; exists l; rewrite ?mem_iota ?add0n.
by have [l lR [<- <-]] := inv k kR; exists l; rewrite ?mem_iota ?add0n.
Qed.

End Sym.

(** ** The left triangular part *)
Lemma LTQS_rank n r rows cols G z GU zU L0 U0 A :
  (forall k, (k < r)%N -> (rows k + cols k < n - 1)%N) ->
  (forall k l, (k < r)%N -> (l < r)%N -> rows k = rows l -> k = l) ->
  (forall k l, (k < r)%N -> (l < r)%N -> cols k = cols l -> k = l) ->
  (forall k, z k != 0) -> (forall k, zU k != 0) ->
  let X := RandomLTQSMatrix n r rows cols G z GU zU L0 U0 A in
  (forall i j, (i < n)%N -> (j < n)%N -> (n - 1 <= i + j)%N -> X i j = 0) /\
  forall a b, (a + b <= n)%N -> \rank (mx a b X) = nlead rows cols r a b.
Proof.
move=> h ri ci hz hzU X; split=> [i j iN jN ij|a b ab]; first by rewrite /X /RandomLTQSMatrix iN jN ij.
have hr k : (k < r)%N -> (rows k < n)%N /\ (cols k < n)%N by move=> kr; have := h k kr; lia.
have := @WithRankandRPM_rank n n r rows cols hr ri ci G z GU zU L0 U0 A hz hzU a b.
move=> <-; [|lia|lia]; congr (\rank _); apply: eq_mx => i j ia jb.
by rewrite /X /RandomLTQSMatrix; case: (boolP [&& _, _ & _]) => //; lia.
Qed.

(** ** Prescribed determinant *)
Lemma prod_last n (f : nat -> F) : (0 < n)%N -> \prod_(i < n) f i = \prod_(i < n.-1) f i * f n.-1.
Proof. by case: n => // n _; rewrite big_ord_recr. Qed.

Lemma WithDetE bk n d GL GU zL zU x y P0 Q0 L0 U0 A : (0 < bk)%N -> (0 < n)%N -> (forall k, zL k != 0) ->
  exists A', RandomMatrixWithDet bk n d GL GU zL zU x y P0 Q0 L0 U0 A = Some A' /\ \det (mx n n A') = d.
Proof.
move=> bk0 n0 hz; rewrite /RandomMatrixWithDet gtn_eqF //.
set P := RandomPermutation n _ P0; set Q := RandomPermutation n _ Q0.
have lP : is_lapack n P by exact: RandomPermutation_lapack.
have lQ : is_lapack n Q by exact: RandomPermutation_lapack.
set L := RandomTriangular n n Lower _ _ _ _ _; set U := RandomTriangular n n Upper _ _ _ _ _.
cbv zeta; eexists; split; first by reflexivity.
rewrite mx_gemm; set dd := iteri n.-1 _ 1; set sg := iteri n _ (iteri n _ false); set e := if sg then _ else _; set L' := upd L _ _ _.
have -> : mx n n (applyP bk SRight NoTrans n 0 n P U) = mx n n U *m Pmx F n P 0 n.
  by have := applyP_mx n U bk0 (leqnn _) (is_lapack_lt lP) SRight NoTrans.
have -> : mx n n (applyP bk SLeft NoTrans n 0 n Q L') = Pmx F n Q 0 n *m mx n n L'.
  by have := applyP_mx n L' bk0 (leqnn _) (is_lapack_lt lQ) SLeft NoTrans.
rewrite !det_mulmx !det_Pmx //.
have -> : \det (mx n n U) = 1.
  rewrite -det_tr det_trig; last first.
    by apply/is_trig_mxP => i j ij; rewrite !mxE /U triUE // ij.
  by rewrite big1 // => i _; rewrite !mxE /U triUE // ltnn eqxx.
have ddE : dd = \prod_(i < n.-1) L i i.
  by rewrite /dd; elim: (n.-1) => [|k IH]; rewrite ?big_ord0 // iteriS big_ord_recr /= IH.
have dd0 : dd != 0.
  rewrite ddE; apply/prodf_neq0 => i _; have iN := ltn_ord i; rewrite /L triLE ?ltnn ?eqxx //; lia.
have -> : \det (mx n n L') = dd * e.
  rewrite det_trig; last first.
    apply/is_trig_mxP => i j ij; rewrite mxE /L' /upd ifF; last by lia.
    by rewrite /L triLE // ij.
  have -> : \prod_(i < n) mx n n L' i i = \prod_(i < n) L' i i by apply: eq_bigr => i _; rewrite mxE.
  rewrite (prod_last (fun i => L' i i) n0) ddE; congr (_ * _); last by rewrite /L' /upd !eqxx.
  by apply: eq_bigr => i _; rewrite /L' /upd /= ltn_eqF.
have sgE b (p : nat -> nat) : (-1) ^+ iteri n (fun i s => if p i != i then ~~ s else s) b = (-1) ^+ b * (-1) ^+ count (fun i => p i != i) (iota 0 n) :> F.
  elim: (n) => [|k IH]; first by rewrite mulr1.
  rewrite iteriS -[in RHS](addn1 k) iotaD count_cat /= add0n addn0 exprD mulrA -IH.
  by case: (p k != k) => /=; rewrite ?mulr1 // signrN mulrN1.
have es : e = (-1) ^+ sg * (d / dd) by rewrite /e; case: (sg); rewrite ?mul1r ?mulN1r.
have := sgE (iteri n (fun i s => if P i != i then ~~ s else s) false) Q; rewrite -/sg sgE mul1r => sE.
rewrite es sE.
set a := (-1) ^+ count _ _; set b := (-1) ^+ count _ _.
have aa : a * a = 1 by rewrite /a -expr2 sqrr_sign.
have bb : b * b = 1 by rewrite /b -expr2 sqrr_sign.
transitivity (a * a * (b * b) * d * (dd / dd)); first by ring.
by rewrite aa bb divff // !mul1r mulr1.
Qed.

(** ** Symmetric matrix *)
Lemma RandomSymmetricE n ns G z A (U := RandomTriangular n n Upper NonUnit ns G z A) (X := RandomSymmetric n ns G z A) :
  (forall i, (i < n)%N -> U i i != 0) ->
  (forall i j, (i < n)%N -> (j < n)%N -> X i j = X j i) /\ mx n n X \in unitmx /\ \det (mx n n X) = \prod_(i < n) U i i.
Proof.
move=> d0; rewrite /X /RandomSymmetric -/U; set f := fun i A => _.
have Ulow i j : (i < n)%N -> (j < n)%N -> (j < i)%N -> U i j = 0 by move=> iN jN ji; rewrite /U triUE // ji.
have It c : (c <= n)%N -> forall a b, (a < n)%N -> (b < n)%N ->
    iteri c f U a b = if (b < a)%N && (b < c)%N then (U b b)^-1 * U b a else U a b.
  elim: c => [|c IH] cn a b aN bN; first by rewrite ltn0 andbF.
  rewrite iteriS; have := IH (ltnW cn); move: (iteri c f U) => B hB; rewrite /f.
  have -> : B c c = U c c by rewrite hB // ltnn andbF.
  rewrite d0 // aN andbT; case: (eqVneq b c) => [->|bc] /=.
    rewrite ltnSn andbT !hB // ltnn andbF; case: ifP => // ca.
    by rewrite ltnNge (ltnW ca).
  rewrite hB //.
  by have -> : (b < c.+1)%N = (b < c)%N by lia.
set Y := iteri n f U; have [fr hX] := @ftrtrm_ok F n SRight NonUnit n Y (leqnn n).
set Z := ftrtrm _ _ _ _ _ in fr hX *.
have lE i k : (i < n)%N -> (k < n)%N -> tri Lower Unit Y i k = U k i / U k k.
  move=> iN kN; rewrite /tri; case: (i =P k) => [->|ik]; first by rewrite divff // d0.
  rewrite /Y It //; case: (ltnP k i) => ki; first by rewrite kN mulrC.
  by rewrite Ulow ?mul0r //; lia.
have uE k j : (k < n)%N -> (j < n)%N -> tri Upper NonUnit Y k j = U k j.
  move=> kN jN; rewrite /tri; case: (k =P j) => [<-|kj]; first by rewrite /Y It // ltnn.
  rewrite /Y It //; case: (ltnP k j) => lt; last by rewrite Ulow //; lia.
  by rewrite (ltnNge j) (ltnW lt).
have ZE i j : (i < n)%N -> (j < n)%N -> Z i j = rsum n (fun k => U k i * U k j / U k k).
  move=> iN jN; have := hX; rewrite /trimx mxM => /mx_eq -> //; apply: eq_rsum => k kN.
  by rewrite lE // uE // mulrAC.
have dZ : \det (mx n n Z) = \prod_(i < n) U i i.
  rewrite hX det_mulmx.
  have -> : \det (trimx Lower (odiag NonUnit) n Y) = 1.
    rewrite det_trig; first by rewrite big1 // => i _; rewrite mxE lE // divff // d0.
    by apply/is_trig_mxP => i j ij; rewrite mxE lE // Ulow // mul0r.
  rewrite mul1r -det_tr det_trig; first by apply: eq_bigr => i _; rewrite !mxE uE.
  by apply/is_trig_mxP => i j ij; rewrite !mxE uE // Ulow.
split; last split=> //; first by move=> i j iN jN; rewrite !ZE //; apply: eq_rsum => k _; rewrite [U k i * _]mulrC.
rewrite unitmxE dZ unitfE; apply/prodf_neq0 => i _; exact: d0.
Qed.

End Mat.
