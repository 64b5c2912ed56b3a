(** * The Gauss-Jordan elimination by column slices *)
From mathcomp Require Import all_ssreflect all_algebra zify ring.
From Verif Require Import Grid Perm_model Perm_spec Perm_proofs Tri_model Tri_spec Tri_proofs.
From Verif Require Import Pluq_model Pluq_spec Pluq_proofs Pluq_main Pluq_rank Pluq_api_proofs Api_model Ludiv_model Ludiv_proofs.
From Verif Require Import Ech_model Ech_spec Ech_proofs Ech_steps Ech_acc Ech_acc2 Ech_main Ech_thm Gj_base Gj_two.
Set Implicit Arguments.
Unset Strict Implicit.
Unset Printing Implicit Defensive.
Import GRing.Theory.
Local Open Scope ring_scope.

Section Gj.
Variable F : fieldType.
Implicit Types A B X Y T E W : grid F.
Variables (bk thr tthr bc : nat).
Hypotheses (bk0 : (0 < bk)%N) (tthr0 : (0 < tthr)%N).

(** ** All slices *)

Hypothesis bc0 : (0 < bc)%N.

Lemma gj_ok n slab M N c rho w A P0 Q0 : (w < n)%N -> (rho <= M)%N -> (c + w <= N)%N ->
  (forall x, (x < c)%N -> (Q0 x < c)%N) -> (forall x, (c <= x < N)%N -> Q0 x = x) ->
  let: Pluq X P Q R := gj bk thr tthr bc n slab M N c rho w A P0 Q0 in
  exists u, slice slab M N c rho w A Q0 X P Q R u.
Proof.
elim: n c rho w A P0 Q0 => // n IH c rho w A P0 Q0 wn rM cN Qlo Qhi.
rewrite [gj _ _ _ _ _ _ _ _ _ _ _ _ _ _]/=; case: eqP => [eM|nM].
  exists id; have n0 : pnum slab M rho 0 = 0%N by rewrite /pnum eM subnn; case: (slab).
  split=> //.
  - by rewrite addn0 leq0n.
  - by rewrite n0.
  - by split=> x h; [case: (ltnP x c) => xc; [have := Qlo x xc | rewrite Qhi] | rewrite Qhi]; lia.
  - move=> l lw; rewrite (sigma_cat _ _ (leq0n c)); last by lia.
    rewrite [sigma _ c N _]sigma_id; last by move=> i hi; apply: Qhi.
    by apply: (sigma_ge (n := c)) => //; lia.
  - move=> i l iM lw; rewrite /act n0 /= add0r addn0 ifF; last by lia.
    by rewrite /dsum ifT; [rewrite ifT //; lia | lia].
  by move=> _ t t'; rewrite ltn0 andbF.
case: ifP => wb.
  have := base_ok thr bk0 tthr0 slab A P0 rM cN Qlo Qhi.
  case: (gj_base _ _ _ _ _ _ _ _ _ _ _) => X P Q R [u h]; exists u.
  by apply: (slice_ext bk0 tthr0 _ _ _ h) => // i j _; rewrite memoE.
have h2 : (0 < w./2)%N /\ (w./2 < w)%N by lia.
have := IH c rho w./2 A P0 Q0.
case: (gj _ _ _ _ _ _ _ _ _ _ _ _ _ _) => X1 P1 Q1 r1 /(_ _ rM _ Qlo Qhi) [||u1 s1]; [lia..|].
have [[RM1 Rr] _ _ [Qb1 Qt1] _ _ _ _ _ _] := s1.
set A2 := memo M N (gj_update _ _ _ _ _ _ _ _ _ _).
have := IH (c + w./2)%N (rho + r1)%N (w - w./2)%N A2 id Q1.
case: (gj _ _ _ _ _ _ _ _ _ _ _ _ _ _) => X2 P2 Q2 r2 /(_ _ RM1 _ Qb1 Qt1) [||u2 s2]; [lia..|].
set Xm := memo M N (gj_merge _ _ _ _ _ _ _).
set P := (if slab then _ else _).
case E : (if (r1 < w./2)%N && (0 < r2)%N then _ else _) => [Xf Qf].
have hw : (w./2 <= w)%N by lia.
have [||u hu] := two_ok bk0 tthr0 hw cN s1 _ s2 _ (erefl P) (esym E).
- by move=> i j _; rewrite /A2 memoE.
- by move=> i j _; rewrite /Xm memoE /pnum subnDA.
exists u; apply: (slice_ext bk0 tthr0 _ _ _ hu) => // [i j _|k]; by rewrite ?memoE ?memo1E.
Qed.

Definition gj_tag (tag : lutag) := tag = GJSlab \/ tag = GJTile.
Definition gslab (tag : lutag) := if tag is GJSlab then true else false.

Lemma iota_id k (q : nat -> nat) x : iteri k (fun i q => upd1 q i i) q x = if (x < k)%N then x else q x.
Proof. by elim: k => [|k IH] //; rewrite iteriS {1}/upd1 IH ltnS; case: (ltngtP x k) => // ->. Qed.

Lemma slice_elim slab M N A Q0 X P Q R u : slice slab M N 0 0 N A Q0 X P Q R u ->
  [/\ elim M N A X (Er R X) (sigma P 0 (pnum slab M 0 R)) (sigma Q 0 N) R,
      forall k, (k < pnum slab M 0 R)%N -> (P k < M)%N, forall k, (k < N)%N -> (Q k < N)%N & slab -> incr R (sigma Q 0 N)].
Proof.
case=> -[RM RN] bP pu [Qb _] _ hi law ord inc _; rewrite !add0n subn0 in RM bP Qb.
have uE l : (l < N)%N -> sigma Q 0 N l = u l by move=> lN; have := hi l lN; rewrite !add0n.
have nM : (pnum slab M 0 R <= M)%N by rewrite /pnum subn0; case: (slab); lia.
split=> //; last by move=> sl t t' tt; rewrite !uE; [apply: inc | lia..].
split=> //.
- split; last exact: sigma_perm.
  split=> [i iM|i j _ _]; last exact: sigma_inj.
  by apply: sigma_lt => // k kn; apply: bP.
- move=> k l kM lN; rewrite (Tm_sum X _ RM kM); have := law k l kM lN; rewrite /act /dsum !add0n /= subn0 -uE // => h.
  rewrite -[LHS](_ : rsum R (fun t => X k (0 + t)%N * A (0 + sigma P 0 (pnum slab M 0 R) (0 + t - 0))%N (0 + sigma Q 0 N l)%N) +
     (if (k < R)%N then 0 else A (0 + sigma P 0 (pnum slab M 0 R) k)%N (sigma Q 0 N l)) = _).
    rewrite /Er; case: (ltnP l R) h => lR h; last by rewrite h; case: ifP.
    by rewrite h; case: ltnP => // kR; have -> : (k == l) = false by lia.
  by congr (_ + _); apply: eq_rsum => t tR; rewrite !add0n subn0.
- have -> : mx R R (Er R X) = 1%:M by apply/matrixP => i j; rewrite !mxE /Er ltn_ord.
  exact: unitmx1.
move=> k l kR lN; rewrite /Er kR eqxx oner_neq0; split=> //.
case: (ltnP l R) => lR; first by case: (k =P l) => [->|] //; rewrite eqxx.
by rewrite !uE //; [move=> h; apply: ltnW; apply: ord => //; lia | lia].
Qed.

Lemma echelon_rank M N R E : reduced_row_echelon M N R E -> \rank (mx M N E) = R.
Proof.
case=> piv [[RM pN _ _ z] d]; apply/eqP; rewrite eqn_leq; apply/andP; split.
  have -> : mx M N E = (pid_mx R : 'M_(M, R)) *m mx R N E.
    apply/matrixP => i j; rewrite !mxE; case: (ltnP i R) => iR.
      rewrite (bigD1 (Ordinal iR)) //= !mxE eqxx iR mul1r big1 ?addr0 // => k ki.
      rewrite !mxE; have -> : (i == k :> nat) = false by apply/negP => /eqP e; case/eqP: ki; apply: val_inj.
      by rewrite mul0r.
    rewrite z ?iR //= big1 // => k _; rewrite !mxE andbC ltnNge iR /= mul0r //.
  exact: leq_trans (mxrankM_maxl _ _) (rank_leq_col _).
rewrite -{1}(rank_pid_mx F RM (leqnn R)).
have -> : (pid_mx R : 'M[F]_(M, R)) = mx M N E *m mx N R (fun j t => (j == piv t)%:R).
  rewrite mxM; apply/matrixP => i t; rewrite !mxE.
  rewrite (eq_rsum (g := fun k => (k == piv t)%:R * E i k)) => [|k _]; last by rewrite mulrC.
  rewrite rsum_sel; last exact: pN.
  case: (ltnP i R) => iR; first by rewrite d // andbT.
  by rewrite andbF z ?iR //=; apply: pN.
exact: mxrankM_maxl.
Qed.

Lemma rtrs_gj tag M N R P Q X T i j : gj_tag tag -> (R <= M)%N -> (R <= N)%N -> (forall k, (k < N)%N -> (Q k < N)%N) ->
  (forall k, (k < pnum (gslab tag) M 0 R)%N -> (P k < M)%N) -> (i < M)%N -> (j < M)%N ->
  getReducedEchelonTransform bk Upper M N R P Q X T tag i (sigma P 0 (pnum (gslab tag) M 0 R) j) = Tm R X (epi N R Q i) j.
Proof.
case=> -> RM RN bQ bP iM jM; last first.
  rewrite /pnum subn0; apply: (@rtrsU _ bk bk0 GJTile) => // k kM; apply: bP; rewrite /pnum /=; lia.
have nE : pnum (gslab GJSlab) M 0 R = R by [].
rewrite nE in bP *.
pose P' k := if (k < R)%N then P k else k.
have e x : sigma P 0 R x = sigma P' 0 R x by apply: sigma_ext => k kR; rewrite /P' ifT //; lia.
have e' x : sigmaV P 0 R x = sigmaV P' 0 R x.
  by apply: (sigma_inj (p := P) (b := 0%N) (e := R)); rewrite sigmaVK e sigmaVK.
have := @rtrsU _ bk bk0 GJSlab M N R P' Q X T i j RM RN bQ; rewrite /tperm -e => <- //.
  by rewrite /getReducedEchelonTransform; cbv beta iota zeta; do 2 rewrite ![in LHS]applyPE // ![in RHS]applyPE // /applyP_entry; rewrite e'.
move=> k kM; rewrite /P'; case: ifP => // kR; exact: bP.
Qed.

Theorem gj_answer tag M N A P0 Q0 T0 E0 : gj_tag tag ->
  let: Pluq X P Q R := ReducedRowEchelonForm bk thr tthr bc tag true M N A P0 Q0 in
  rrow_answer M N A R (getReducedEchelonForm bk Upper M N R Q X E0 false tag)
    (getReducedEchelonTransform bk Upper M N R P Q X T0 tag) /\
  forall i j, (i < M)%N -> (j < N)%N ->
    let E := getReducedEchelonForm bk Upper M N R Q X E0 false tag i j in
    getReducedEchelonForm_in bk Upper M N R Q X tag i j = E /\
    ((i < R)%N -> getReducedEchelonForm bk Upper M N R Q X E0 true tag i j = E).
Proof.
move=> tg; pose Q1 := iteri N (fun i q => upd1 q i i) Q0; pose P1 := iteri M (fun i q => upd1 q i i) P0.
have -> : ReducedRowEchelonForm bk thr tthr bc tag true M N A P0 Q0 = gj bk thr tthr bc N.+1 (gslab tag) M N 0 0 N A P1 Q1.
  by case: tg => ->.
have := @gj_ok N.+1 (gslab tag) M N 0 0 N A P1 Q1 (ltnSn N) (leq0n M) (leqnn N).
case: (gj _ _ _ _ _ _ _ _ _ _ _ _ _ _) => X P Q R /(_ _ _)[||u s]; [by []|by move=> x xN; rewrite /Q1 iota_id ifT //; lia|].
have [el bP bQ inc] := slice_elim s; have [[ps pu] [RM RN] _ _ _] := el.
have rE : rperm tag N R Q = sigma Q 0 N by case: tg => ->.
have bQ' : bnd tag N R Q by case: tg => ->.
have [h1 h2 h3 h4] := epi_ok RN bQ.
have tE i : (if gslab tag then i else epi N R Q i) = epi N R Q i.
  case: tg inc => -> //= inc; case: (ltnP i R) => iR; last by rewrite h2.
  by rewrite (incr_same h1 (inc isT) h4 iR).
have tauE i : tau tag N R Q i = epi N R Q i by rewrite -tE; case: tg => ->.
have fE i l : (i < M)%N -> (l < N)%N ->
   getReducedEchelonForm bk Upper M N R Q X E0 false tag i (sigma Q 0 N l) = if (i < R)%N then Er R X (epi N R Q i) l else 0.
  by move=> iM lN; rewrite -rE redU // tauE.
have [e1 e2 e3] := elim_final el (epi_perm RN bQ RM) h1 h2 h4
   (fun i j iM jM => rtrs_gj X T0 tg RM RN bQ bP iM jM) fE.
split; last first.
  have [v [pv uv vu]] := perm_inv pu; move=> i j iM jN; cbv zeta; rewrite -(uv j jN); have vj := proj1 pv j jN.
  have e := fE i (v j) iM vj; rewrite -rE in e *.
  split=> [|iR]; first by rewrite (@redU_in F bk bk0 tag) // redU.
  by rewrite e (@redU F bk bk0 tag M N R Q X E0 true i (v j) RM RN bQ' iR vj) iR tauE.
have red : reduced_row_echelon M N R (getReducedEchelonForm bk Upper M N R Q X E0 false tag).
  exists (fun t => sigma Q 0 N (epi N R Q t)); split=> // a t aR tR.
  have tt := h1 t tR; rewrite fE ?aR; [|lia|lia].
  rewrite /Er tt; suff -> : (epi N R Q a == epi N R Q t) = (a == t) by [].
  by apply/eqP/eqP => [|->] //; apply: (proj2 (epi_perm RN bQ RM)); lia.
split=> //; rewrite -(echelon_rank red) -e2 eqmxMfull // row_full_unit //.
Qed.

(** Without the transformation, the tile variant is that of PLUQ. *)
Lemma gj_nt M N A P0 Q0 E0 : let: Pluq X P Q R := ReducedRowEchelonForm bk thr tthr bc GJTile false M N A P0 Q0 in
  exists T, rrow_answer M N A R (getReducedEchelonForm bk Upper M N R Q X E0 false GJTile) T.
Proof. exact: (@redrow_nt_ok F bk thr tthr bk0 tthr0 Tile (or_intror erefl) M N A P0 Q0 E0). Qed.

(** Invert: the nullity, and the inverse up to the order of its rows. *)
Lemma Invert_any M A P Q : let: (nu, B) := Invert bk thr tthr bc M A P Q in
  nu = (M - \rank (mx M M A))%N /\
  (nu = 0%N -> exists u, is_perm M u /\ mx M M B *m mx M M A = mx M M (fun i j => (u i == j)%:R)).
Proof.
rewrite /Invert; case: eqP => [->|_].
  by split=> // _; exists id; split=> //; apply/matrixP => -[].
have := gj_answer M M A P Q A A (or_intror erefl : gj_tag GJTile).
pose Q1 := iteri M (fun i q => upd1 q i i) Q; pose P1 := iteri M (fun i q => upd1 q i i) P.
have -> : ReducedRowEchelonForm bk thr tthr bc GJTile true M M A P Q = gj bk thr tthr bc M.+1 false M M 0 0 M A P1 Q1 by [].
have q1 x : (0 <= x < M)%N -> Q1 x = x by move=> xN; rewrite /Q1 iota_id ifT //; lia.
have q0 x : (x < 0)%N -> (Q1 x < 0)%N by [].
have := @gj_ok M.+1 false M M 0 0 M A P1 Q1 (ltnSn M) (leq0n M) (leqnn M) q0 q1.
case: (gj _ _ _ _ _ _ _ _ _ _ _ _ _ _) => X P2 Q2 R [u s] [[rk _ _ _] _].
have [el bP bQ _] := slice_elim s; split; first by rewrite rk.
move=> /eqP; rewrite subn_eq0 => MR; have [[ps pu] [RM _] law _ _] := el; have eR : R = M by lia.
rewrite eR in el ps pu law *; rewrite /pnum subn0 in ps law.
exists (sigma Q2 0 M); split=> //; rewrite mxM; apply/matrixP => i j; rewrite !mxE.
have [v [pv uv vu]] := perm_inv pu; have vj : (v j < M)%N := proj1 pv j (ltn_ord j).
have uvj := uv j (ltn_ord j); have vui := vu i (ltn_ord i).
rewrite -(rsum_perm _ ps).
have := law i (v j) (ltn_ord i) vj; rewrite ltn_ord /Er vj uvj => h.
rewrite (eq_rsum (g := fun t => Tm M X i t * A (sigma P2 0 M t) j)).
  rewrite h; congr (nat_of_bool _)%:R; apply/eqP/eqP => [->|<-]; [exact: uvj | by rewrite vui].
by move=> t tM; rewrite pR_NoTrans // /Tm tM.
Qed.

End Gj.

(** Two pivots in two columns: the first is at the corner. *)
Lemma not_echelon2 (F : fieldType) (R : nat) (E : grid F) : R = 2%N -> E 0%N 0%N == 0%R -> ~ row_echelon 2 2 R E.
Proof.
move=> -> /eqP e0 [piv [_ b inc n _]].
have h := inc 0%N 1%N isT; have h1 := b 1%N isT.
have p0 : piv 0%N = 0%N by lia.
by have [] := n 0%N isT; rewrite p0 e0 eqxx.
Qed.
