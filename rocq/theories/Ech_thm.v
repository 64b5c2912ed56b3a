(** * Echelon forms: the routines *)
From mathcomp Require Import all_ssreflect all_algebra zify.
From Verif Require Import Grid Perm_model Perm_spec Perm_proofs Tri_model Tri_spec Tri_proofs.
From Verif Require Import Pluq_model Pluq_spec Pluq_proofs Pluq_rank Pluq_api_proofs Api_model Api_proofs.
From Verif Require Import Ludiv_model Ludiv_spec Ludiv_proofs Ludiv_rank Ludiv_sub Ech_model Ech_spec Ech_proofs Ech_steps Ech_acc Ech_acc2 Ech_main.
Set Implicit Arguments.
Unset Strict Implicit.
Unset Printing Implicit Defensive.
Import GRing.Theory.
Local Open Scope ring_scope.

Section Thm.
Variable F : fieldType.
Implicit Types A B X Y T E V Z : grid F.
Variables (bk thr tthr : nat).
Hypotheses (bk0 : (0 < bk)%N) (tthr0 : (0 < tthr)%N).

Definition st_tag (tag : lutag) := tag = Slab \/ tag = Tile.

Definition rowlu tag M N A P Q : pluq_res F :=
  if tag is Slab then LUdivine bk NonUnit Trans false M N A P Q else PLUQ bk Unit thr M N A.
Definition collu tag M N A P Q : pluq_res F :=
  if tag is Slab then LUdivine bk NonUnit NoTrans false M N A P Q
  else let: Pluq X Q P r := PLUQ bk NonUnit thr M N A in Pluq X P Q r.

Lemma row_stage tag M N A P0 Q0 : st_tag tag ->
  let: Pluq X P Q R := rowlu tag M N A P0 Q0 in stage tag M N A X P Q R.
Proof.
case=> ->; rewrite /rowlu.
  have := @ludiv_full F bk bk0 N.+1 Trans NonUnit false N M A P0 Q0 (ltnSn N); rewrite /LUdivine.
  case: (ludiv _ _ _ _ _ _ _ _ _ _) => X P Q R /(_ _)[] // _ c /(_ isT erefl)[cl _].
  have := c => -[[RN RM] hP [hQ iQ] _ _]; split=> //.
  - exact: (@cup_lu _ M N A X P Q R c).
  - by move=> k kR; have := hP k kR; lia.
  - by rewrite -(@cup_rank _ NonUnit N M (tr A) (tr X) P Q R c) -mxrank_tr tr_mx.
have := @PLUQ_factors F bk Unit thr M N A bk0; have := @PLUQ_ordered F bk Unit thr M N A bk0; have := @PLUQ_rank F bk Unit thr M N A bk0.
case: (PLUQ _ _ _ _ _ _) => X P Q R /= -> [_ oU _ _] [lP lQ _ [ps le dg _ law] _]; split=> //.
- split=> // k l kM lN; by rewrite law // -(rsumE _ (fun t => Lo Unit X k t * Up Unit X t l)).
- by move=> k /lP; lia.
- by move=> k /lQ; lia.
Qed.

Lemma col_stage tag M N A P0 Q0 : st_tag tag ->
  let: Pluq X P Q R := collu tag M N A P0 Q0 in stage tag N M (tr A) (tr X) P Q R.
Proof.
case=> ->; rewrite /collu.
  have := @ludiv_full F bk bk0 M.+1 NoTrans NonUnit false M N A P0 Q0 (ltnSn M); rewrite /LUdivine.
  case: (ludiv _ _ _ _ _ _ _ _ _ _) => X P Q R /(_ _)[] // _ c /(_ isT erefl)[cl _].
  have := c => -[[RN RM] hP [hQ iQ] _ _]; split=> //.
  - exact: (@cup_lu _ N M (tr A) (tr X) P Q R c).
  - by move=> k kR; have := hP k kR; lia.
  - by rewrite -(@cup_rank _ NonUnit M N A X P Q R c) -mxrank_tr tr_mx.
have := @PLUQ_factors F bk NonUnit thr M N A bk0; have := @PLUQ_ordered F bk NonUnit thr M N A bk0; have := @PLUQ_rank F bk NonUnit thr M N A bk0.
case: (PLUQ _ _ _ _ _ _) => X P Q R /= -> [oL _ _ _] [lP lQ _ [[ps pu] [le le'] dg _ law] _]; split=> //.
- split=> // k l kM lN; last by move=> h; apply: oL.
  rewrite {1}/tr law // -(rsumE _ (fun t => Lo NonUnit X l t * Up NonUnit X t k)).
  apply: eq_rsum => t tR; rewrite mulrC; congr (_ * _).
  by rewrite /Lo /Up /tr; case: ltngtP => // ->.
- by move=> k /lQ; lia.
- by move=> k /lP; lia.
- by rewrite -mxrank_tr tr_mx.
Qed.

(** ** Reading the result *)

Lemma permE tag n R Q : st_tag tag -> rperm tag n R Q = perm_of tag n R Q /\ tperm tag n R Q = perm_of tag n R Q.
Proof. by case=> ->. Qed.

(** What the accessors for the rows return, with X as stored. *)
Lemma readU tag M N R Q X T only i l : st_tag tag -> (R <= M)%N -> (R <= N)%N -> bnd tag N R Q ->
  (if tag is Slab then incr R Q else True) -> (i < if only then R else M)%N -> (l < N)%N ->
  getEchelonForm bk Upper Unit M N R Q X T only tag i (perm_of tag N R Q l) =
  if (i < R)%N then Up Unit (Zof tag R Q X) (tau tag N R Q i) l else 0.
Proof.
case=> -> RM RN bQ iQ iM lN; rewrite /perm_of /tau /Zof; last by rewrite echU_tile.
rewrite echU_slab //; last by apply: (sigmaR_perm RN bQ).1.
by case: ifP => // iR; rewrite Up_cmpr.
Qed.
Lemma readU_in tag M N R Q X i l : st_tag tag -> (R <= M)%N -> (R <= N)%N -> bnd tag N R Q ->
  (if tag is Slab then incr R Q else True) -> (i < M)%N -> (l < N)%N ->
  getEchelonForm_in bk Upper Unit M N R Q X tag i (perm_of tag N R Q l) =
  if (i < R)%N then Up Unit (Zof tag R Q X) (tau tag N R Q i) l else 0.
Proof.
case=> -> RM RN bQ iQ iM lN; rewrite /perm_of /tau /Zof; last by rewrite echU_tile_in.
rewrite echU_slab_in //; last by apply: (sigmaR_perm RN bQ).1.
by case: ifP => // iR; rewrite Up_cmpr.
Qed.
Lemma readL tag M N R Q X T only i l : st_tag tag -> (R <= M)%N -> (R <= N)%N -> bnd tag M R Q ->
  (if tag is Slab then incr R Q else True) -> (i < if only then R else N)%N -> (l < M)%N ->
  getEchelonForm bk Lower Unit M N R Q X T only tag (perm_of tag M R Q l) i =
  if (i < R)%N then Up Unit (Zof tag R Q (tr X)) (tau tag M R Q i) l else 0.
Proof.
case=> -> RM RN bQ iQ iM lN; rewrite /perm_of /tau /Zof; last by rewrite echL_tile.
rewrite echL_slab //; last by apply: (sigmaR_perm RM bQ).1.
by case: ifP => // iR; rewrite Up_cmpr.
Qed.
Lemma readL_in tag M N R Q X i l : st_tag tag -> (R <= M)%N -> (R <= N)%N -> bnd tag M R Q ->
  (if tag is Slab then incr R Q else True) -> (i < N)%N -> (l < M)%N ->
  getEchelonForm_in bk Lower Unit M N R Q X tag (perm_of tag M R Q l) i =
  if (i < R)%N then Up Unit (Zof tag R Q (tr X)) (tau tag M R Q i) l else 0.
Proof.
case=> -> RM RN bQ iQ iM lN; rewrite /perm_of /tau /Zof; last by rewrite echL_tile_in.
rewrite echL_slab_in //; last by apply: (sigmaR_perm RM bQ).1.
by case: ifP => // iR; rewrite Up_cmpr.
Qed.

Lemma answer_row tag m n A X Y P Q R E T E' : st_tag tag -> stage tag m n A X P Q R ->
  elim m n A Y E (perm_of tag m R P) (perm_of tag n R Q) R ->
  (forall i j, (i < m)%N -> (j < m)%N -> T i (perm_of tag m R P j) = Tm R Y (tau tag n R Q i) j) ->
  (forall i l, (i < m)%N -> (l < n)%N -> E' i (perm_of tag n R Q l) = if (i < R)%N then E (tau tag n R Q i) l else 0) ->
  row_answer m n A R E' T.
Proof.
move=> tg st el hT hE; have [t1 t2 t3 t4] := stage_tau tg st.
have [h1 h2 h3] := elim_final el t1 t2 t3 t4 hT hE.
by split=> //; [case: st | eexists; exact: h3].
Qed.

Lemma answer_rrow tag m n A X Y P Q R X5 T E' : st_tag tag -> stage tag m n A X P Q R ->
  elim m n A Y (Er R X5) (perm_of tag m R P) (perm_of tag n R Q) R ->
  (forall i j, (i < m)%N -> (j < m)%N -> T i (perm_of tag m R P j) = Tm R Y (tau tag n R Q i) j) ->
  (forall i l, (i < m)%N -> (l < n)%N -> E' i (perm_of tag n R Q l) = if (i < R)%N then Er R X5 (tau tag n R Q i) l else 0) ->
  rrow_answer m n A R E' T.
Proof.
move=> tg st el hT hE; have [t1 t2 t3 t4] := stage_tau tg st.
have [h1 h2 h3] := elim_final el t1 t2 t3 t4 hT hE.
split=> //; first by case: st.
exists (fun t => perm_of tag n R Q (tau tag n R Q t)); split=> // s t sR tR.
have [_ [Rm Rn] _ _ _] := el; have tt := t2 t tR; rewrite hE ?sR; [|lia|lia].
rewrite /Er tt; suff -> : (tau tag n R Q s == tau tag n R Q t) = (s == t) by [].
by apply/eqP/eqP => [|->] //; apply: (proj2 t1); lia.
Qed.

(** Some transformation exists, from the elimination law. *)
Lemma some_T tag m n A X P Q R Y : st_tag tag -> stage tag m n A X P Q R ->
  exists T, forall i j, (i < m)%N -> (j < m)%N -> T i (perm_of tag m R P j) = Tm R Y (tau tag n R Q i) j.
Proof.
move=> tg st; have [hl _ _ _ _] := st; have [[ps _] _ _ _ _] := hl.
have [v [_ _ vp]] := perm_inv ps.
by exists (fun i j => Tm R Y (tau tag n R Q i) (v j)) => i j im jm; rewrite vp.
Qed.

Section Row.
Variables (tag : lutag) (tg : st_tag tag) (M N : nat) (A : grid F) (P0 Q0 : nat -> nat).

Lemma RowEchelonFormE tf : RowEchelonForm bk thr tthr tag tf M N A P0 Q0 =
  let: Pluq X P Q R := rowlu tag M N A P0 Q0 in
  Pluq (if tf then trow tthr M R X else X) P Q R.
Proof. by rewrite /RowEchelonForm /rowlu; case: tag; [case: (LUdivine _ _ _ _ _ _ _ _ _) | case: (PLUQ _ _ _ _ _ _) ..] => X P Q R; case: tf. Qed.

Lemma redrow_loop X2 P Q R Y0 : stage tag M N A Y0 P Q R ->
  (forall t i, (t < R)%N -> (t < i < N)%N -> X2 t i = Y0 t i) ->
  forall k l, (k < M)%N -> (l < N)%N ->
  (if tag is Slab then iteri R (fun i X => if (i < Q i)%N then fswap_col i (Q i) i X else X) X2 else X2) k l =
  Zof tag R Q X2 k l.
Proof.
case=> hl _ bQ _ hs e k l kM lN; rewrite /Zof; case: tag tg hl bQ hs => // _ [_ [_ RN] _ _ _] bQ [iQ cl].
apply: (@cloop_cmpr F M N) => // t i tR ti; rewrite e ?cl //; have := bQ t tR; lia.
Qed.

Theorem row_ok T0 E0 : let: Pluq X P Q R := RowEchelonForm bk thr tthr tag true M N A P0 Q0 in
  row_answer M N A R (getEchelonForm bk Upper Unit M N R Q X E0 false tag)
    (getEchelonTransform bk Upper Unit M N R P Q X T0 tag).
Proof.
rewrite RowEchelonFormE; have := row_stage M N A P0 Q0 tg; case: (rowlu _ _ _ _ _ _) => X P Q R st.
have [hl bP bQ _ hs] := st; have [_ [RM RN] dg _ _] := hl.
have tro : trow_ok M N R X (trow tthr M R X) by apply: trow_lo => // t tR; rewrite -(diag_Z tag R Q); exact: dg.
apply: (answer_row tg st (stage_elim st tro)) => i j iM jM; first by rewrite trsU.
by apply: readU => //; case: (tag) hs => // -[].
Qed.

Theorem row_nt_ok E0 : let: Pluq X P Q R := RowEchelonForm bk thr tthr tag false M N A P0 Q0 in
  exists T, row_answer M N A R (getEchelonForm bk Upper Unit M N R Q X E0 false tag) T.
Proof.
rewrite RowEchelonFormE; have := row_stage M N A P0 Q0 tg; case: (rowlu _ _ _ _ _ _) => X P Q R st.
have [hl bP bQ _ hs] := st; have [_ [RM RN] dg _ _] := hl.
have [Y el] := stage_none st; have [T hT] := some_T Y tg st; exists T.
apply: (answer_row tg st el) => // i j iM jM.
by apply: readU => //; case: (tag) hs => // -[].
Qed.

Lemma redrowE tf : redrow bk thr tthr tag tf M N A P0 Q0 =
  let: Pluq X P Q R := rowlu tag M N A (iteri M (fun i q => upd1 q i i) P0) (iteri N (fun i q => upd1 q i i) Q0) in
  let X := if tf then trow tthr M R X else X in
  let X := memo M N (if tag is Slab then iteri R (fun i X => if (i < Q i)%N then fswap_col i (Q i) i X else X) X else X) in
  Pluq (if tf then rrow tthr N R X else at_ 0 R (ftrsm SLeft Upper NoTrans Unit R (N - R) 1 X) X) P Q R.
Proof.
rewrite /redrow /RowEchelonForm /rowlu.
by case: tag; [case: (LUdivine _ _ _ _ _ _ _ _ _) | case: (PLUQ _ _ _ _ _ _) ..] => X P Q R; case: tf.
Qed.

Lemma redrow_elim : let: Pluq X P Q R := redrow bk thr tthr tag true M N A P0 Q0 in
  elim M N A X (Er R X) (perm_of tag M R P) (perm_of tag N R Q) R /\ exists X0, stage tag M N A X0 P Q R.
Proof.
rewrite redrowE; set P1 := iteri M _ _; set Q1 := iteri N _ _.
have := row_stage M N A P1 Q1 tg; case: (rowlu _ _ _ _ _ _) => X P Q R st.
have [hl bP bQ _ hs] := st; have [_ [RM RN] dg _ _] := hl.
have tro : trow_ok M N R X (trow tthr M R X) by apply: trow_lo => // t tR; rewrite -(diag_Z tag R Q); exact: dg.
cbv beta iota zeta; set Y := memo M N _; have eY k l : (k < M)%N -> (l < N)%N -> Y k l = Zof tag R Q (trow tthr M R X) k l.
  by move=> kM lN; rewrite /Y memoE (redrow_loop st) // => t i tR ti; rewrite tro.1.
by split; [exact: (stage_red st tro eY (rrow_ok tthr0 Y RN)) | exists X].
Qed.

Theorem redrow_ok T0 E0 : let: Pluq X P Q R := redrow bk thr tthr tag true M N A P0 Q0 in
  rrow_answer M N A R (getReducedEchelonForm bk Upper M N R Q X E0 false tag)
    (getReducedEchelonTransform bk Upper M N R P Q X T0 tag).
Proof.
have := redrow_elim; case: redrow => X P Q R [el [X0 st]].
have [hl bP bQ _ hs] := st; have [_ [RM RN] dg _ _] := hl.
have [p1 p2] := permE M R P tg; have [p3 p4] := permE N R Q tg.
apply: (answer_rrow tg st el) => i j iM jM.
  by rewrite -p2 rtrsU //; case: tg => ->.
by rewrite -p3 redU.
Qed.

Theorem redrow_nt_ok E0 : let: Pluq X P Q R := redrow bk thr tthr tag false M N A P0 Q0 in
  exists T, rrow_answer M N A R (getReducedEchelonForm bk Upper M N R Q X E0 false tag) T.
Proof.
rewrite redrowE; set P1 := iteri M _ _; set Q1 := iteri N _ _.
have := row_stage M N A P1 Q1 tg; case: (rowlu _ _ _ _ _ _) => X P Q R st.
have [hl bP bQ _ hs] := st; have [_ [RM RN] dg _ _] := hl.
cbv beta iota zeta; set Y := memo M N _; have eY k l : (k < M)%N -> (l < N)%N -> Y k l = Zof tag R Q X k l.
  by move=> kM lN; rewrite /Y memoE (redrow_loop st).
have [p3 p4] := permE N R Q tg.
have [Y' el] := stage_none_red st eY (srow_ok tthr0 Y RN); have [T hT] := some_T Y' tg st; exists T.
apply: (answer_rrow tg st el) => // i j iM jM.
by rewrite -p3 redU.
Qed.

(** The in-place accessor, and the one that only reads the first R rows. *)
Theorem row_same tf E0 : let: Pluq X P Q R := RowEchelonForm bk thr tthr tag tf M N A P0 Q0 in
  forall i j, (i < M)%N -> (j < N)%N ->
    let E := getEchelonForm bk Upper Unit M N R Q X E0 false tag i j in
    getEchelonForm_in bk Upper Unit M N R Q X tag i j = E /\
    ((i < R)%N -> getEchelonForm bk Upper Unit M N R Q X E0 true tag i j = E).
Proof.
rewrite RowEchelonFormE; have := row_stage M N A P0 Q0 tg; case: (rowlu _ _ _ _ _ _) => X P Q R st.
have [hl bP bQ _ hs] := st; have [[_ pu] [RM RN] dg _ _] := hl; have [v [pv uv vu]] := perm_inv pu.
have iq : (if tag is Slab then incr R Q else True) : Prop by case: (tag) hs => // -[].
move=> i j iM jN; cbv zeta; rewrite -(uv j jN); have vj := proj1 pv j jN.
have e := @readU tag M N R Q (if tf then trow tthr M R X else X) E0 false i (v j) tg RM RN bQ iq iM vj.
have e1 := @readU_in tag M N R Q (if tf then trow tthr M R X else X) i (v j) tg RM RN bQ iq iM vj.
split=> [|iR]; first by rewrite e1 e.
by rewrite e (@readU tag M N R Q _ E0 true i (v j) tg RM RN bQ iq iR vj).
Qed.

Theorem redrow_same tf E0 : let: Pluq X P Q R := redrow bk thr tthr tag tf M N A P0 Q0 in
  forall i j, (i < M)%N -> (j < N)%N ->
    let E := getReducedEchelonForm bk Upper M N R Q X E0 false tag i j in
    getReducedEchelonForm_in bk Upper M N R Q X tag i j = E /\
    ((i < R)%N -> getReducedEchelonForm bk Upper M N R Q X E0 true tag i j = E).
Proof.
rewrite redrowE; set P1 := iteri M _ _; set Q1 := iteri N _ _.
have := row_stage M N A P1 Q1 tg; case: (rowlu _ _ _ _ _ _) => X P Q R st.
have [hl bP bQ _ hs] := st; have [[_ pu] [RM RN] dg _ _] := hl; have [v [pv uv vu]] := perm_inv pu.
have [p3 _] := permE N R Q tg; rewrite -p3 in uv.
cbv beta iota zeta; set Y := (if tf then _ else _); clearbody Y.
move=> i j iM jN; cbv zeta; rewrite -(uv j jN); have vj := proj1 pv j jN.
have e := @redU F bk bk0 tag M N R Q Y E0 false i (v j) RM RN bQ iM vj.
split=> [|iR]; first by rewrite e redU_in.
by rewrite e (@redU F bk bk0 tag M N R Q Y E0 true i (v j) RM RN bQ iR vj).
Qed.

End Row.

(** ** Columns *)
Lemma tr_answer m n A R E T : row_answer n m (tr A) R (tr E) (tr T) -> col_answer m n A R E T.
Proof.
case=> h1 h2 h3 h4; split=> //.
- by rewrite -h1 -mxrank_tr tr_mx.
- by rewrite -unitmx_tr tr_mx.
by apply: trmx_inj; rewrite trmx_mul !tr_mx.
Qed.
Lemma tr_ranswer m n A R E T : rrow_answer n m (tr A) R (tr E) (tr T) -> rcol_answer m n A R E T.
Proof.
case=> h1 h2 h3 h4; split=> //.
- by rewrite -h1 -mxrank_tr tr_mx.
- by rewrite -unitmx_tr tr_mx.
by apply: trmx_inj; rewrite trmx_mul !tr_mx.
Qed.

Section Col.
Variables (tag : lutag) (tg : st_tag tag) (M N : nat) (A : grid F) (P0 Q0 : nat -> nat).

Lemma ColumnEchelonFormE tf : ColumnEchelonForm bk thr tthr tag tf M N A P0 Q0 =
  let: Pluq X P Q R := collu tag M N A P0 Q0 in
  Pluq (if tf then tcol tthr N R X else X) P Q R.
Proof. by rewrite /ColumnEchelonForm /collu; case: tag; [case: (LUdivine _ _ _ _ _ _ _ _ _) | case: (PLUQ _ _ _ _ _ _) ..] => X P Q R; case: tf. Qed.

Lemma redcol_loop X2 P Q R Y0 : stage tag N M (tr A) (tr Y0) P Q R ->
  (forall t i, (t < R)%N -> (t < i < M)%N -> X2 i t = Y0 i t) ->
  forall k l, (k < N)%N -> (l < M)%N ->
  (if tag is Slab then iteri R (fun i X => if (i < Q i)%N then fswap_row i (Q i) i X else X) X2 else X2) l k =
  Zof tag R Q (tr X2) k l.
Proof.
case=> hl _ bQ _ hs e k l kM lN; rewrite /Zof; case: tag tg hl bQ hs => // _ [_ [_ RN] _ _ _] bQ [iQ cl].
rewrite rloopE; apply: (@cloop_cmpr F N M) => // t i tR ti; rewrite {1}/tr e; last by have := bQ t tR; lia.
  exact: cl.
by [].
Qed.

Theorem col_ok T0 E0 : let: Pluq X P Q R := ColumnEchelonForm bk thr tthr tag true M N A P0 Q0 in
  col_answer M N A R (getEchelonForm bk Lower Unit M N R Q X E0 false tag)
    (getEchelonTransform bk Lower Unit M N R P Q X T0 tag).
Proof.
rewrite ColumnEchelonFormE; have := col_stage M N A P0 Q0 tg; case: (collu _ _ _ _ _ _) => X P Q R st.
have [hl bP bQ _ hs] := st; have [_ [RN RM] dg _ _] := hl.
have tro : trow_ok N M R (tr X) (tr (tcol tthr N R X)) by apply: tcol_lo => // t tR; rewrite -[X t t](diag_Z tag R Q (tr X)); exact: dg.
apply/tr_answer/(answer_row tg st (stage_elim st tro)) => i j iM jM; first by rewrite {1}/tr trsL.
by rewrite {1}/tr; apply: readL => //; case: (tag) hs => // -[].
Qed.

Theorem col_nt_ok E0 : let: Pluq X P Q R := ColumnEchelonForm bk thr tthr tag false M N A P0 Q0 in
  exists T, col_answer M N A R (getEchelonForm bk Lower Unit M N R Q X E0 false tag) T.
Proof.
rewrite ColumnEchelonFormE; have := col_stage M N A P0 Q0 tg; case: (collu _ _ _ _ _ _) => X P Q R st.
have [hl bP bQ _ hs] := st; have [_ [RN RM] dg _ _] := hl.
have [Y el] := stage_none st; have [T hT] := some_T Y tg st; exists (tr T).
apply/tr_answer/(answer_row tg st el) => // i j iM jM.
by rewrite {1}/tr; apply: readL => //; case: (tag) hs => // -[].
Qed.

Lemma redcolE tf : ReducedColumnEchelonForm bk thr tthr tag tf M N A P0 Q0 =
  let: Pluq X P Q R := collu tag M N A P0 Q0 in
  let X := if tf then tcol tthr N R X else X in
  let X := memo M N (if tag is Slab then iteri R (fun i X => if (i < Q i)%N then fswap_row i (Q i) i X else X) X else X) in
  Pluq (if tf then rcol tthr M R X else at_ R 0 (ftrsm SRight Lower NoTrans Unit (M - R) R 1 X) X) P Q R.
Proof.
rewrite /ReducedColumnEchelonForm ColumnEchelonFormE /collu.
by case: tag; [case: (LUdivine _ _ _ _ _ _ _ _ _) | case: (PLUQ _ _ _ _ _ _) ..] => X P Q R; case: tf.
Qed.

Theorem redcol_ok T0 E0 : let: Pluq X P Q R := ReducedColumnEchelonForm bk thr tthr tag true M N A P0 Q0 in
  rcol_answer M N A R (getReducedEchelonForm bk Lower M N R Q X E0 false tag)
    (getReducedEchelonTransform bk Lower M N R P Q X T0 tag).
Proof.
rewrite redcolE; have := col_stage M N A P0 Q0 tg; case: (collu _ _ _ _ _ _) => X P Q R st.
have [hl bP bQ _ hs] := st; have [_ [RN RM] dg _ _] := hl.
have tro : trow_ok N M R (tr X) (tr (tcol tthr N R X)) by apply: tcol_lo => // t tR; rewrite -[X t t](diag_Z tag R Q (tr X)); exact: dg.
cbv beta iota zeta; set Y := memo M N _; have eY k l : (k < N)%N -> (l < M)%N -> tr Y k l = Zof tag R Q (tr (tcol tthr N R X)) k l.
  move=> kN lM; rewrite /Y /tr memoE (redcol_loop st) // => t i tR ti; exact: tro.1.
have [p1 p2] := permE N R P tg; have [p3 p4] := permE M R Q tg.
apply/tr_ranswer/(answer_rrow tg st (stage_red st tro eY (rcol_ok tthr0 Y RM))) => i j iM jM.
  by rewrite {1}/tr -p2 rtrsL.
by rewrite {1}/tr -p3 redL.
Qed.

Theorem redcol_nt_ok E0 : let: Pluq X P Q R := ReducedColumnEchelonForm bk thr tthr tag false M N A P0 Q0 in
  exists T, rcol_answer M N A R (getReducedEchelonForm bk Lower M N R Q X E0 false tag) T.
Proof.
rewrite redcolE; have := col_stage M N A P0 Q0 tg; case: (collu _ _ _ _ _ _) => X P Q R st.
have [hl bP bQ _ hs] := st; have [_ [RN RM] dg _ _] := hl.
cbv beta iota zeta; set Y := memo M N _; have eY k l : (k < N)%N -> (l < M)%N -> tr Y k l = Zof tag R Q (tr X) k l.
  by move=> kN lM; rewrite /Y /tr memoE (redcol_loop st).
have [p3 p4] := permE M R Q tg.
have [Y' el] := stage_none_red st eY (scol_ok tthr0 Y RM); have [T hT] := some_T Y' tg st; exists (tr T).
apply/tr_ranswer/(answer_rrow tg st el) => // i j iM jM.
by rewrite {1}/tr -p3 redL.
Qed.

Theorem col_same tf E0 : let: Pluq X P Q R := ColumnEchelonForm bk thr tthr tag tf M N A P0 Q0 in
  forall i j, (i < M)%N -> (j < N)%N ->
    let E := getEchelonForm bk Lower Unit M N R Q X E0 false tag i j in
    getEchelonForm_in bk Lower Unit M N R Q X tag i j = E /\
    ((j < R)%N -> getEchelonForm bk Lower Unit M N R Q X E0 true tag i j = E).
Proof.
rewrite ColumnEchelonFormE; have := col_stage M N A P0 Q0 tg; case: (collu _ _ _ _ _ _) => X P Q R st.
have [hl bP bQ _ hs] := st; have [[_ pu] [RN RM] dg _ _] := hl; have [v [pv uv vu]] := perm_inv pu.
have iq : (if tag is Slab then incr R Q else True) : Prop by case: (tag) hs => // -[].
move=> i j iM jN; cbv zeta; rewrite -(uv i iM); have vj := proj1 pv i iM.
have e := @readL tag M N R Q (if tf then tcol tthr N R X else X) E0 false j (v i) tg RM RN bQ iq jN vj.
have e1 := @readL_in tag M N R Q (if tf then tcol tthr N R X else X) j (v i) tg RM RN bQ iq jN vj.
split=> [|iR]; first by rewrite e1 e.
by rewrite e (@readL tag M N R Q _ E0 true j (v i) tg RM RN bQ iq iR vj).
Qed.

Theorem redcol_same tf E0 : let: Pluq X P Q R := ReducedColumnEchelonForm bk thr tthr tag tf M N A P0 Q0 in
  forall i j, (i < M)%N -> (j < N)%N ->
    let E := getReducedEchelonForm bk Lower M N R Q X E0 false tag i j in
    getReducedEchelonForm_in bk Lower M N R Q X tag i j = E /\
    ((j < R)%N -> getReducedEchelonForm bk Lower M N R Q X E0 true tag i j = E).
Proof.
rewrite redcolE; have := col_stage M N A P0 Q0 tg; case: (collu _ _ _ _ _ _) => X P Q R st.
have [hl bP bQ _ hs] := st; have [[_ pu] [RN RM] dg _ _] := hl; have [v [pv uv vu]] := perm_inv pu.
have [p3 _] := permE M R Q tg; rewrite -p3 in uv.
cbv beta iota zeta; set Y := (if tf then _ else _); clearbody Y.
move=> i j iM jN; cbv zeta; rewrite -(uv i iM); have vj := proj1 pv i iM.
have e := @redL F bk bk0 tag M N R Q Y E0 false j (v i) RM RN bQ tg jN vj.
split=> [|iR]; first by rewrite e redL_in.
by rewrite e (@redL F bk bk0 tag M N R Q Y E0 true j (v i) RM RN bQ tg iR vj).
Qed.

End Col.

(** ReducedRowEchelonForm outside the Gauss-Jordan branch. *)
Lemma rref_redrow bc tag tf M N A P Q : st_tag tag ->
  ReducedRowEchelonForm bk thr tthr bc tag tf M N A P Q = redrow bk thr tthr tag tf M N A P Q.
Proof. by case=> ->; case: tf. Qed.

End Thm.

Lemma rref_ok (F : fieldType) bk thr tthr bc : (0 < bk)%N -> (0 < tthr)%N -> forall tag, tag = Slab \/ tag = Tile ->
  forall M N (A : grid F) P Q T0 E0,
  let: Pluq X P' Q' R := ReducedRowEchelonForm bk thr tthr bc tag true M N A P Q in
  rrow_answer M N A R (getReducedEchelonForm bk Upper M N R Q' X E0 false tag)
    (getReducedEchelonTransform bk Upper M N R P' Q' X T0 tag).
Proof. by move=> b t tag tg M N A P Q T0 E0; rewrite rref_redrow //; exact: redrow_ok. Qed.
Lemma rref_nt (F : fieldType) bk thr tthr bc : (0 < bk)%N -> (0 < tthr)%N -> forall tag, tag = Slab \/ tag = Tile ->
  forall M N (A : grid F) P Q E0,
  let: Pluq X P' Q' R := ReducedRowEchelonForm bk thr tthr bc tag false M N A P Q in
  exists T, rrow_answer M N A R (getReducedEchelonForm bk Upper M N R Q' X E0 false tag) T.
Proof. by move=> b t tag tg M N A P Q E0; rewrite rref_redrow //; exact: redrow_nt_ok. Qed.
Lemma rref_same (F : fieldType) bk thr tthr bc : (0 < bk)%N -> (0 < tthr)%N -> forall tag, tag = Slab \/ tag = Tile ->
  forall M N (A : grid F) P Q tf E0,
  let: Pluq X P' Q' R := ReducedRowEchelonForm bk thr tthr bc tag tf M N A P Q in
  forall i j, (i < M)%N -> (j < N)%N ->
    let E := getReducedEchelonForm bk Upper M N R Q' X E0 false tag i j in
    getReducedEchelonForm_in bk Upper M N R Q' X tag i j = E /\
    ((i < R)%N -> getReducedEchelonForm bk Upper M N R Q' X E0 true tag i j = E).
Proof. by move=> b t tag tg M N A P Q tf E0; rewrite rref_redrow //; exact: redrow_same. Qed.
Lemma row_all : forall (F : fieldType) bk thr tthr, (0 < bk)%N -> (0 < tthr)%N ->
  forall tag, tag = Slab \/ tag = Tile -> forall M N (A : grid F) P Q E0,
  [/\ forall T0, let: Pluq X P' Q' R := RowEchelonForm bk thr tthr tag true M N A P Q in
      row_answer M N A R (getEchelonForm bk Upper Unit M N R Q' X E0 false tag)
        (getEchelonTransform bk Upper Unit M N R P' Q' X T0 tag),
    let: Pluq X P' Q' R := RowEchelonForm bk thr tthr tag false M N A P Q in
      exists T, row_answer M N A R (getEchelonForm bk Upper Unit M N R Q' X E0 false tag) T &
    forall tf, let: Pluq X P' Q' R := RowEchelonForm bk thr tthr tag tf M N A P Q in
      forall i j, (i < M)%N -> (j < N)%N ->
      let E := getEchelonForm bk Upper Unit M N R Q' X E0 false tag i j in
      getEchelonForm_in bk Upper Unit M N R Q' X tag i j = E /\
      ((i < R)%N -> getEchelonForm bk Upper Unit M N R Q' X E0 true tag i j = E)].
Proof. by move=> b t tag tg M N A P Q E0; split=> *; [exact: row_ok | exact: row_nt_ok | exact: row_same]. Qed.
Lemma col_all : forall (F : fieldType) bk thr tthr, (0 < bk)%N -> (0 < tthr)%N ->
  forall tag, tag = Slab \/ tag = Tile -> forall M N (A : grid F) P Q E0,
  [/\ forall T0, let: Pluq X P' Q' R := ColumnEchelonForm bk thr tthr tag true M N A P Q in
      col_answer M N A R (getEchelonForm bk Lower Unit M N R Q' X E0 false tag)
        (getEchelonTransform bk Lower Unit M N R P' Q' X T0 tag),
    let: Pluq X P' Q' R := ColumnEchelonForm bk thr tthr tag false M N A P Q in
      exists T, col_answer M N A R (getEchelonForm bk Lower Unit M N R Q' X E0 false tag) T &
    forall tf, let: Pluq X P' Q' R := ColumnEchelonForm bk thr tthr tag tf M N A P Q in
      forall i j, (i < M)%N -> (j < N)%N ->
      let E := getEchelonForm bk Lower Unit M N R Q' X E0 false tag i j in
      getEchelonForm_in bk Lower Unit M N R Q' X tag i j = E /\
      ((j < R)%N -> getEchelonForm bk Lower Unit M N R Q' X E0 true tag i j = E)].
Proof. by move=> b t tag tg M N A P Q E0; split=> *; [exact: col_ok | exact: col_nt_ok | exact: col_same]. Qed.
Lemma rref_all : forall (F : fieldType) bk thr tthr bc, (0 < bk)%N -> (0 < tthr)%N ->
  forall tag, tag = Slab \/ tag = Tile -> forall M N (A : grid F) P Q E0,
  [/\ forall T0, let: Pluq X P' Q' R := ReducedRowEchelonForm bk thr tthr bc tag true M N A P Q in
      rrow_answer M N A R (getReducedEchelonForm bk Upper M N R Q' X E0 false tag)
        (getReducedEchelonTransform bk Upper M N R P' Q' X T0 tag),
    let: Pluq X P' Q' R := ReducedRowEchelonForm bk thr tthr bc tag false M N A P Q in
      exists T, rrow_answer M N A R (getReducedEchelonForm bk Upper M N R Q' X E0 false tag) T &
    forall tf, let: Pluq X P' Q' R := ReducedRowEchelonForm bk thr tthr bc tag tf M N A P Q in
      forall i j, (i < M)%N -> (j < N)%N ->
      let E := getReducedEchelonForm bk Upper M N R Q' X E0 false tag i j in
      getReducedEchelonForm_in bk Upper M N R Q' X tag i j = E /\
      ((i < R)%N -> getReducedEchelonForm bk Upper M N R Q' X E0 true tag i j = E)].
Proof. by move=> b t tag tg M N A P Q E0; split=> *; [exact: rref_ok | exact: rref_nt | exact: rref_same]. Qed.
Lemma redcol_all : forall (F : fieldType) bk thr tthr, (0 < bk)%N -> (0 < tthr)%N ->
  forall tag, tag = Slab \/ tag = Tile -> forall M N (A : grid F) P Q E0,
  [/\ forall T0, let: Pluq X P' Q' R := ReducedColumnEchelonForm bk thr tthr tag true M N A P Q in
      rcol_answer M N A R (getReducedEchelonForm bk Lower M N R Q' X E0 false tag)
        (getReducedEchelonTransform bk Lower M N R P' Q' X T0 tag),
    let: Pluq X P' Q' R := ReducedColumnEchelonForm bk thr tthr tag false M N A P Q in
      exists T, rcol_answer M N A R (getReducedEchelonForm bk Lower M N R Q' X E0 false tag) T &
    forall tf, let: Pluq X P' Q' R := ReducedColumnEchelonForm bk thr tthr tag tf M N A P Q in
      forall i j, (i < M)%N -> (j < N)%N ->
      let E := getReducedEchelonForm bk Lower M N R Q' X E0 false tag i j in
      getReducedEchelonForm_in bk Lower M N R Q' X tag i j = E /\
      ((j < R)%N -> getReducedEchelonForm bk Lower M N R Q' X E0 true tag i j = E)].
Proof. by move=> b t tag tg M N A P Q E0; split=> *; [exact: redcol_ok | exact: redcol_nt_ok | exact: redcol_same]. Qed.
