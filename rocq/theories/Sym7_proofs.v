From mathcomp Require Import all_ssreflect all_algebra zify ring.
From Verif Require Import Grid Perm_model Perm_spec Tri_model Tri_spec Tri_proofs Trmm_proofs Trtri_proofs Sym_model Sym_spec Sym_proofs Sym2_proofs Sym3_proofs Sym4_proofs Sym5_proofs Sym6_proofs.
Set Implicit Arguments.
Unset Strict Implicit.
Unset Printing Implicit Defensive.
Import GRing.Theory.
Local Open Scope ring_scope.

Section Sym.
Variable F : fieldType.
Implicit Types A B C D X S W Z : grid F.
Implicit Types E : nat -> F.

Local Arguments rsum : simpl never.


Lemma lead_st u n A : lead u n A = mx n n (fun i j => optr (st u) A (minn i j) (maxn i j)).
Proof.
apply: eq_mx => i j _ _; rewrite /symm.
by case: u => /=; case: (ltngtP i j) => //= ->.
Qed.

(** U^T D U, entrywise. *)
Lemma utdu n d W E : (trimx Upper d n W)^T *m dg n E *m trimx Upper d n W =
  mx n n (fun i j => rsum (minn i j).+1 (fun l => tri Upper d W l i * E l * tri Upper d W l j)).
Proof.
rewrite mul_mx_diag; apply/matrixP => i j; rewrite !mxE.
rewrite -(@rsum_trunc F n (minn i j).+1); first last.
- move=> l ln; rewrite {2}/tri; case: eqP => [lj|lj].
    by rewrite /tri ifN ?ifN ?mul0r //; lia.
  have [lj'|lj'] := ltnP l j; last by rewrite mulr0.
  by rewrite /tri ifN ?ifN ?mul0r //; lia.
- by have := ltn_ord i; lia.
by rewrite rsumE; apply: eq_bigr => l _; rewrite !mxE.
Qed.

Lemma tri_up_nonunit W l i : (l <= i)%N -> tri Upper NonUnit W l i = W l i.
Proof. by move=> li; rewrite /tri; case: eqP => [->//|ne]; rewrite ifT //; lia. Qed.

Lemma ldl_mx k n W E S : ldl n W E S -> (forall l, (l < n)%N -> (l < k)%N -> E l * W l l = 1) ->
  (forall l, (l < n)%N -> (k <= l)%N -> W l l = 0 /\ l.+1 = n) ->
  mx n n (fun i j => S (minn i j) (maxn i j)) = (trimx Upper NonUnit n W)^T *m dg n E *m trimx Upper NonUnit n W.
Proof.
move=> L I O; rewrite utdu; apply: eq_mx => i j iN jN.
have gen r c : (r <= c < n)%N -> S r c = rsum r.+1 (fun l => tri Upper NonUnit W l r * E l * tri Upper NonUnit W l c).
  move=> rc; rewrite L // rsumS addrC; congr (_ + _).
    by apply: eq_rsum => l lr; rewrite !tri_up_nonunit //; lia.
  rewrite !tri_up_nonunit; try lia.
  have [rk|rk] := ltnP r k; first by rewrite [W r r * _]mulrC I ?mul1r //; lia.
  have [|W0 rn] := O r _ rk; first lia.
  have -> : c = r by lia.
  by rewrite W0 mulr0.
have [ij|ij] := leqP i j; first by rewrite gen // ij.
by rewrite gen; [apply: eq_rsum => l _; ring|lia].
Qed.

Lemma det_utdu n W E : \det ((trimx Upper NonUnit n W)^T *m dg n E *m trimx Upper NonUnit n W) =
  (\prod_(i < n) W i i) ^+ 2 * \prod_(i < n) E i.
Proof.
have -> : \det ((trimx Upper NonUnit n W)^T *m dg n E *m trimx Upper NonUnit n W) =
    \det (trimx Upper NonUnit n W)^T ^+ 2 * \det (dg n E).
  by rewrite !det_mulmx det_tr expr2 mulrAC.
rewrite det_diag; congr (_ ^+ 2 * _).
  rewrite det_trig; first by apply: eq_bigr => i _; rewrite !mxE /tri eqxx.
  by apply/is_trig_mxP => i j ij; rewrite !mxE /tri ifN ?ifN //; lia.
by apply: eq_bigr => i _; rewrite mxE.
Qed.

Lemma fails_det N u A : fails N (optr (st u) A) -> exists2 k, (k < N)%N & \det (lead u k.+1 A) = 0.
Proof.
move=> [k [W [E [kN L I W0]]]]; exists k => //.
rewrite lead_st (ldl_mx (k := k) L); last first.
- by move=> l l1 l2; have -> : l = k by lia.
- by move=> l _; apply: I.
by rewrite det_utdu big_ord_recr /= W0 mulr0 expr2 mul0r mul0r.
Qed.

Lemma ldl_det N u A W E k : ldl N W E (optr (st u) A) -> invs N W E -> (k <= N)%N -> \det (lead u k A) != 0.
Proof.
move=> L I kN; have L' : ldl k W E (optr (st u) A) by move=> r c rc; apply: L; lia.
rewrite lead_st (ldl_mx (k := k) L'); first last.
- by move=> l; lia.
- by move=> l lk _; apply: I; lia.
rewrite det_utdu mulf_eq0 negb_or expf_eq0 /=; apply/andP; split; apply/prodf_neq0 => i _.
  have := I i; case: eqP => // ->; rewrite mulr0 => /(_ (leq_trans (ltn_ord i) kN))/esym/eqP.
  by rewrite oner_eq0.
have := I i; case: eqP => // ->; rewrite mul0r => /(_ (leq_trans (ltn_ord i) kN))/esym/eqP.
by rewrite oner_eq0.
Qed.


Lemma st_trimx u d N A : (if u is Upper then trimx u d N A else (trimx u d N A)^T) = trimx Upper d N (optr (st u) A).
Proof.
case: u => //=; apply/matrixP => i j; rewrite !mxE /tri /tr; by case: (ltngtP i j) => // ->.
Qed.

Lemma unitLDL_st u N A : unitLDL u N A = 
  (trimx Upper Unit N (optr (st u) A))^T *m dg N (fun i => A i i) *m trimx Upper Unit N (optr (st u) A).
Proof. by rewrite -st_trimx /unitLDL; case: u => //=; rewrite trmxK. Qed.

Lemma fsytrf_ok crout u N A junk th : (0 < th)%N ->
  match fsytrf crout u N A junk th with
  | Done A' => [/\ frame N N A' A, forall i, (i < N)%N -> A' i i != 0, lead u N A = unitLDL u N A' &
                 forall k, (k <= N)%N -> \det (lead u k A) != 0]
  | Not_generic => exists2 k, (k < N)%N & \det (lead u k.+1 A) = 0
  | No_result => False
  end.
Proof.
move=> th0; rewrite /fsytrf.
have := @fsytrf_nonunit_ok F N.+1 crout u N A (fun i => junk i 0%N) junk th (ltnSn _) th0.
case: fsytrf_nonunit => [[A1 E]| |] //=; last exact: fails_det.
case=> fr L I _; set A' := memo _ _ _.
have A'E i j : optr (st u) A' i j = if (i < j < N)%N then E i * optr (st u) A1 i j else optr (st u) A1 i j.
  rewrite /A'; case: (u) => /=; rewrite /tr memoE //.
have A'd i : A' i i = A1 i i by have := A'E i i; rewrite !optr_diag ltnn.
have fr1 : frame N N A' A1.
  by apply: (@frame_optr F (st u)) => r c rc; rewrite A'E ifN //; lia.
split; [by apply: frame_trans fr1 fr| | |by move=> k kN; apply: ldl_det L I kN].
  move=> i iN; have := I i iN; rewrite A'd optr_diag; case: eqP => // ->; rewrite mulr0 => /esym/eqP.
  by rewrite oner_eq0.
rewrite lead_st (ldl_mx (k := N) L); [|by move=> l lN _; apply: I|by move=> l; lia].
rewrite unitLDL_st !utdu; apply: eq_mx => i j iN jN; apply: eq_rsum => l lm.
have T r : (l <= r < N)%N -> tri Upper NonUnit (optr (st u) A1) l r = A1 l l * tri Upper Unit (optr (st u) A') l r.
  move=> lr; rewrite tri_up_nonunit; last lia.
  rewrite /tri; case: eqP => [<-|ne]; first by rewrite mulr1 optr_diag.
  rewrite ifT; last lia.
  rewrite A'E ifT; last lia.
  have := I l; rewrite optr_diag => Il; rewrite mulrA [A1 l l * _]mulrC Il ?mul1r //; lia.
rewrite !T; try lia.
have := I l; rewrite optr_diag => Il.
rewrite A'd; set a := tri _ _ _ _ i; set b := tri _ _ _ _ j.
have -> : a * A1 l l * b = a * A1 l l * b * (E l * A1 l l) by rewrite Il ?mulr1 //; lia.
ring.
Qed.

(** A zero threshold: a matrix of one row is split into none and one. *)
Lemma sytrf_threshold0 n crout u A E junk : fsytrf_nonunit n crout u 1 A E 1 junk 0 = No_result.
Proof.
elim: n A E => // n IH A E; rewrite fsytrf_nonunitS ltnn.
have -> : 1./2 = 0%N by []; lazy zeta; rewrite subn0.
have : fsytrf_nonunit n crout u 0 A E 1 junk 0 <> Not_generic.
  by case: n {IH} => [|m] //=; case: crout.
case: (fsytrf_nonunit n crout u 0 A E 1 junk 0) => [[A1 E1]||] // _.
by case: fsyrk_d => [[A12 A22]|] //; rewrite IH.
Qed.

(** Reading a refutation off a computed result. *)
Lemma other_done u N A (r : outcome (grid F)) i j : ~~ [&& i < N, j < N & in_tri u i j]%N ->
  (if r is Done X then X i j != A i j else false) -> if r is Done X then ~ tri_only u N A X else False.
Proof. by case: r => // X ij /eqP ne /(_ i j ij). Qed.

Lemma other_some u N C (r : option (grid F * grid F)) i j : ~~ [&& i < N, j < N & in_tri u i j]%N ->
  (if r is Some (_, X) then X i j != C i j else false) -> if r is Some (_, X) then ~ tri_only u N C X else False.
Proof. by case: r => // -[_ X] ij /eqP ne /(_ i j ij). Qed.

Lemma stride_done N inc (r : outcome (grid F * (nat -> F))) i : (i < N)%N ->
  (if r is Done (X, D) then D (i * inc)%N * X i i != 1 else false) ->
  if r is Done (X, D) then exists2 i, (i < N)%N & D (i * inc)%N * X i i != 1 else False.
Proof. by case: r => // -[X D] ij ne; exists i. Qed.
End Sym.
