(** * Echelon forms: from the factorisations to the elimination law *)
From mathcomp Require Import all_ssreflect all_algebra zify.
From Verif Require Import Grid Perm_model Perm_spec Perm_proofs Tri_model Tri_spec Tri_proofs.
From Verif Require Import Pluq_model Pluq_spec Pluq_proofs Pluq_rank Pluq_api_proofs Api_model Api_proofs.
From Verif Require Import Ludiv_model Ludiv_spec Ludiv_proofs Ludiv_rank Ludiv_sub Ech_model Ech_spec Ech_proofs Ech_steps Ech_acc Ech_acc2.
Set Implicit Arguments.
Unset Strict Implicit.
Unset Printing Implicit Defensive.
Import GRing.Theory.
Local Open Scope ring_scope.

Section Cup.
Variable F : fieldType.
Implicit Types A B X Y T E V Z : grid F.

(** The upper factor with its columns brought in pivot order. *)
Definition cmpr (R : nat) (Q : nat -> nat) X : grid F :=
  fun k l => if ((k < R) && (k < l))%N then CL NonUnit (tr X) Q (sigma Q 0 R l) k else X k l.

Definition incr (R : nat) (Q : nat -> nat) : Prop := forall t t', (t < t' < R)%N -> (Q t < Q t')%N.

Lemma Lo_cmpr R Q X k t : Lo Unit (cmpr R Q X) k t = Lo Unit X k t.
Proof. by rewrite /Lo /cmpr; case: ltngtP => // h; rewrite ?ltnn ?andbF. Qed.

Lemma Up_cmpr R Q X k l : incr R Q -> (k < R)%N -> Up Unit (cmpr R Q X) k l = CL NonUnit (tr X) Q (sigma Q 0 R l) k.
Proof.
move=> iQ kR; rewrite /Up /cmpr kR /=; case: ltngtP => kl //; last by rewrite -kl sigma_incr // /CL ltnn eqxx.
have lR : (l < R)%N by lia.
rewrite sigma_incr // /CL; have := iQ l k; rewrite kl kR => /(_ isT) h.
by rewrite !ifF //; lia.
Qed.

Lemma sigmaR_perm n R Q : (R <= n)%N -> (forall t, (t < R)%N -> (Q t < n)%N) -> is_perm n (sigma Q 0 R).
Proof.
move=> Rn hQ; split=> [i iN|i j _ _]; last exact: sigma_inj.
by apply: sigma_lt => // k /andP[_]; exact: hQ.
Qed.

Lemma cup_lu m n A X P Q R : cup NonUnit n m (tr A) (tr X) P Q R ->
  lu m n A (cmpr R Q X) (sigma P 0 R) (sigma Q 0 R) R.
Proof.
case=> -[Rn Rm] hP [hQ iQ] piv law; split=> //.
- by split; apply: sigmaR_perm => // t tR; have := hP t tR; lia.
- by move=> t tR; rewrite /cmpr ltnn andbF; exact: piv.
- move=> k l km ln; have ul : (sigma Q 0 R l < n)%N by apply: (sigmaR_perm Rn hQ).1.
  have := law _ k ul km; rewrite {1}/tr => ->.
  rewrite -(rsumE R (fun t => CL NonUnit (tr X) Q (sigma Q 0 R l) t * Up NonUnit (tr X) t k)).
  apply: eq_rsum => t tR; rewrite Lo_cmpr Up_cmpr // mulrC; congr (_ * _).
  by rewrite /Up /Lo /tr; case: ltngtP => // ->.
move=> k l kR ln; rewrite Up_cmpr // (sigma_incr iQ kR) /CL.
by case: ltngtP => // _; rewrite eqxx.
Qed.

(** The loops bringing the columns in pivot order. *)
Lemma tij_id a x : transpose_ij a a x = x.
Proof. by rewrite /transpose_ij; case: eqP. Qed.

Lemma cloopE R Q X k l : (forall t, (t < R)%N -> (t <= Q t)%N) ->
  iteri R (fun i X => if (i < Q i)%N then fswap_col i (Q i) i X else X) X k l =
  if (k < R)%N then X k (sigma Q k.+1 R l) else X k l.
Proof.
elim: R l => [|R IH] l // h.
have IH' l' : iteri R (fun i X => if (i < Q i)%N then fswap_col i (Q i) i X else X) X k l' =
    if (k < R)%N then X k (sigma Q k.+1 R l') else X k l' by apply: IH => t tR; apply: h; lia.
have st : iteri R.+1 (fun i X => if (i < Q i)%N then fswap_col i (Q i) i X else X) X k l =
    if (k < R)%N then iteri R (fun i X => if (i < Q i)%N then fswap_col i (Q i) i X else X) X k (transpose_ij R (Q R) l)
    else iteri R (fun i X => if (i < Q i)%N then fswap_col i (Q i) i X else X) X k l.
  rewrite iteriS; have := h R (ltnSn R); case: (ltngtP R (Q R)) => // [h1 _|<- _].
    by rewrite fswap_colE tijC.
  by rewrite tij_id; case: ifP.
rewrite st !IH' ltnS; case: (ltngtP k R) => [kR|kR|->] //.
  by rewrite sigmaSr.
by rewrite sigma_nil.
Qed.

Lemma rloopE R Q X k l :
  iteri R (fun i X => if (i < Q i)%N then fswap_row i (Q i) i X else X) X k l =
  iteri R (fun i X => if (i < Q i)%N then fswap_col i (Q i) i X else X) (tr X) l k.
Proof.
elim: R k l => [|R IH] k l //=; case: ifP => // h.
by rewrite fswap_rowE fswap_colE !IH.
Qed.

Lemma cloop_cmpr m n R Q X k l : incr R Q -> (forall t, (t < R)%N -> (Q t < n)%N) -> (R <= n)%N ->
  (forall t i, (t < R)%N -> (t < i <= Q t)%N -> X t i = 0) -> (k < m)%N -> (l < n)%N ->
  iteri R (fun i X => if (i < Q i)%N then fswap_col i (Q i) i X else X) X k l = cmpr R Q X k l.
Proof.
move=> iQ hQ Rn cl km ln; have ge := incr_ge iQ; rewrite cloopE // /cmpr.
case: (ltnP k R) => kR //=; set c := sigma Q k.+1 R l.
case: (ltnP k l) => kl; last first.
  rewrite /c (@sigma_lo Q k.+1 R) // => i /andP[ki iR]; have := ge i iR; lia.
have ue : sigma Q 0 R l = sigma Q 0 k.+1 c by rewrite (@sigma_split Q 0 k.+1 R).
have ck : (k < c)%N.
  rewrite ltnNge; apply/negP => ck.
  have e : sigma Q k.+1 R c = c by apply: (@sigma_lo Q k.+1 R) => // i /andP[ki iR]; have := ge i iR; lia.
  by have := sigma_inj (etrans e (erefl c)); lia.
have Qle i : (i <= k)%N -> (Q i < (Q k).+1)%N.
  by move=> ik; case: (ltngtP i k) ik => // [h _|-> //]; have := iQ i k; lia.
have kQ := ge k kR.
rewrite ue; case: (leqP c (Q k)) => cQ.
  rewrite cl //; last by rewrite ck.
  have lt : (sigma Q 0 k.+1 c < (Q k).+1)%N.
    by apply: sigma_lt => // i /andP[_]; rewrite ltnS => /Qle.
  have ne : sigma Q 0 R l != Q k by rewrite -(sigma_incr iQ kR); apply/eqP => /sigma_inj; lia.
  by rewrite -ue in lt *; rewrite /CL !ifF //; lia.
have e : sigma Q 0 k.+1 c = c.
  by apply: (@sigma_ge _ (Q k).+1) => // i /andP[_]; rewrite ltnS => /Qle.
by rewrite e /CL cQ.
Qed.

(** ** State after the factorisation, rows oriented *)

Definition Zof (tag : lutag) (R : nat) (Q : nat -> nat) X : grid F := if tag is Slab then cmpr R Q X else X.

Definition stage (tag : lutag) (m n : nat) A X (P Q : nat -> nat) (R : nat) : Prop :=
  [/\ lu m n A (Zof tag R Q X) (perm_of tag m R P) (perm_of tag n R Q) R,
      bnd tag m R P, bnd tag n R Q, \rank (mx m n A) = R &
      if tag is Slab then incr R Q /\ (forall t i, (t < R)%N -> (t < i <= Q t)%N -> X t i = 0) else True].

Lemma Lo_Z tag R Q X k t : Lo Unit (Zof tag R Q X) k t = Lo Unit X k t.
Proof. by rewrite /Zof; case: tag => //; exact: Lo_cmpr. Qed.

Lemma diag_Z tag R Q X t : Zof tag R Q X t t = X t t.
Proof. by rewrite /Zof; case: tag => //; rewrite /cmpr ltnn andbF. Qed.

Lemma linv_ext m R X X' Y Y' : (forall k t, Lo Unit X k t = Lo Unit X' k t) ->
  (forall k t, (k < m)%N -> (t < R)%N -> Y k t = Y' k t) -> linv m R X Y -> linv m R X' Y'.
Proof.
move=> e e' h k j km jR; rewrite -h //; rewrite e; congr (_ + _).
by apply: eq_rsum => t tR; rewrite e e'.
Qed.

Lemma stage_trow tag m n A X P Q R X2 : stage tag m n A X P Q R -> trow_ok m n R X X2 ->
  trow_ok m n R (Zof tag R Q X) (Zof tag R Q X2).
Proof.
case=> hl _ bQ _ hs [h1 h2]; split; last first.
  by apply: linv_ext h2 => [k t|k t _ _]; rewrite Lo_Z.
have [_ [_ Rn] _ _ _] := hl.
rewrite /Zof; case: tag hl bQ hs => // _ bQ [iQ cl] k l kR kl; rewrite /cmpr kR /=; have -> : (k < l)%N by lia.
rewrite /CL /tr; case: ltnP => // h; rewrite h1 //; apply/andP; split.
  by have := incr_ge iQ kR; lia.
by apply: (sigmaR_perm Rn bQ).1; lia.
Qed.

Lemma stage_elim tag m n A X P Q R X2 : stage tag m n A X P Q R -> trow_ok m n R X X2 ->
  elim m n A (Lo Unit X2) (Up Unit (Zof tag R Q X2)) (perm_of tag m R P) (perm_of tag n R Q) R.
Proof.
move=> st tr; have := trow_elim (ltn0Sn 0) (let: And5 h _ _ _ _ := st in h) (stage_trow st tr).
case=> ps le law un ord; split=> // k l km ln; rewrite -law //.
by apply: eq_rsum => j jm; rewrite /Tm Lo_Z.
Qed.

(** After the loops (nothing to do with the tile variant). *)
Lemma elim_ext m n A X X' E E' s u R : (forall k l, (k < m)%N -> (l < R)%N -> X k l = X' k l) ->
  (forall k l, (k < R)%N -> (l < n)%N -> E k l = E' k l) ->
  elim m n A X E s u R -> elim m n A X' E' s u R.
Proof.
move=> eX eE [ps [Rm Rn] law un ord]; split=> // [k l km ln||k l kR ln].
- rewrite (eq_rsum (g := fun j => Tm R X k j * A (s j) (u l))) => [|j jm].
    by rewrite law //; case: ifP => // kR; rewrite eE.
  by rewrite /Tm; case: ifP => // jR; rewrite eX.
- by rewrite -(@eq_mx _ R R E) // => i j iR jR; apply: eE => //; lia.
by rewrite -!eE //; [exact: ord | lia].
Qed.

Lemma stage_red tag m n A X P Q R X2 Y X5 : stage tag m n A X P Q R -> trow_ok m n R X X2 ->
  (forall k l, (k < m)%N -> (l < n)%N -> Y k l = Zof tag R Q X2 k l) -> red_ok n R Y X5 ->
  elim m n A X5 (Er R X5) (perm_of tag m R P) (perm_of tag n R Q) R.
Proof.
move=> st tr eY [V [V1 V2 V3 V4]]; have hl : lu m n A (Zof tag R Q X) (perm_of tag m R P) (perm_of tag n R Q) R by case: st.
have [_ [Rm Rn] _ _ _] := hl.
pose X5' k l := if ((k < m) && (l < n))%N then X5 k l else Zof tag R Q X2 k l.
have ro : red_ok n R (Zof tag R Q X2) X5'.
  exists V; split.
  - by move=> k l kR lR; rewrite -V1 //; apply: eq_rsum => t tR; congr (_ * _); rewrite /Up; case: ifP => // tl; rewrite eY //; lia.
  - move=> k j kR jR; rewrite /X5' ifT; last lia.
    rewrite V2 //; apply: eq_rsum => t tR; congr (_ * _); rewrite /Lo.
    by case: ifP => h; [|case: ifP => // h']; rewrite eY //; lia.
  - move=> k l kR lR; rewrite /X5' ifT; last lia.
    by rewrite V3 //; apply: eq_rsum => t tR; rewrite eY //; lia.
  - by move=> k l kl; rewrite /X5'; case: ifP => // h; rewrite V4 // eY //; lia.
apply: elim_ext (red_elim (ltn0Sn 0) hl (stage_trow st tr) ro) => k l km ln; rewrite ?/Er; last first.
  by case: ifP => // lR; rewrite /X5' ifT //; lia.
by rewrite /X5' ifT //; lia.
Qed.

(** Without transformation matrix, one exists nevertheless. *)
Lemma stage_none tag m n A X P Q R : stage tag m n A X P Q R -> exists T,
  elim m n A T (Up Unit (Zof tag R Q X)) (perm_of tag m R P) (perm_of tag n R Q) R.
Proof.
move=> st; have [hl _ _ _ _] := st; have [_ [Rm Rn] dg _ _] := hl.
have := @trow_lo _ 1 isT m n R X Rm => /(_ _)/(stage_trow st)[].
  by move=> t tR; have := dg t tR; rewrite diag_Z.
move=> h1 h2; exists (Lo Unit (trow 1 m R X)).
have := trow_elim (ltn0Sn 0) hl (stage_trow st (@trow_lo _ 1 isT m n R X Rm _)) => /(_ _)[] => [t tR|ps le law un ord].
  by have := dg t tR; rewrite diag_Z.
apply: elim_ext (And5 ps le law un ord) => [k l km lR|k l kR ln]; first by rewrite Lo_Z.
by rewrite /Up; case: ifP => // kl; rewrite h1 //; lia.
Qed.

Lemma stage_none_red tag m n A X P Q R Y X5 : stage tag m n A X P Q R ->
  (forall k l, (k < m)%N -> (l < n)%N -> Y k l = Zof tag R Q X k l) -> sred_ok n R Y X5 ->
  exists T, elim m n A T (Er R X5) (perm_of tag m R P) (perm_of tag n R Q) R.
Proof.
move=> st eY [s1 s2]; have [hl _ _ _ _] := st; have [_ [Rm Rn] dg _ _] := hl.
have tro : trow_ok m n R X (trow 1 m R X).
  by apply: trow_lo => // t tR; have := dg t tR; rewrite diag_Z.
have [h1 h2] := stage_trow st tro; set Z2 := Zof tag R Q (trow 1 m R X) in h1 h2.
have [V [V1 V2 V3 V4]] := @rrow_ok _ 1 isT n R Z2 Rn.
exists (rrow 1 n R Z2); apply: elim_ext (red_elim (ltn0Sn 0) hl (stage_trow st tro) (@rrow_ok _ 1 isT n R Z2 Rn)) => // k l kR ln.
rewrite /Er; case: ltnP => lR //; rewrite V3 ?lR //.
rewrite (eq_rsum (g := fun t => V k t * rsum R (fun a => Up Unit Y t a * X5 a l))) => [|t tR].
  rewrite (sum_exch R R (V k) (Up Unit Y) (fun a => X5 a l)).
  rewrite (eq_rsum (g := fun a => (k == a)%:R * X5 a l)) ?rsum_delta // => a aR; congr (_ * _).
  rewrite -V1 //; apply: eq_rsum => t tR; congr (_ * _); rewrite /Up; case: ifP => // ta.
  by rewrite eY ?h1 //; lia.
by rewrite s1 ?lR // eY ?h1 //; lia.
Qed.

(** ** The final reading *)
Lemma stage_tau tag m n A X P Q R : tag = Slab \/ tag = Tile -> stage tag m n A X P Q R ->
  let t := tau tag n R Q in
  [/\ is_perm m t, forall i, (i < R)%N -> (t i < R)%N, forall i, (R <= i)%N -> t i = i &
      forall a b, (a < b < R)%N -> (perm_of tag n R Q (t a) < perm_of tag n R Q (t b))%N].
Proof.
move=> tg [hl _ bQ _ hs]; case: hl => _ [Rm Rn] _ _ _.
case: tg bQ hs => -> /= bQ hs.
  case: hs => iQ _; split=> // a b ab; rewrite !(sigma_incr iQ); try lia; exact: iQ.
have [h1 h2 h3 h4] := epi_ok Rn bQ; split=> //; exact: epi_perm.
Qed.

End Cup.
