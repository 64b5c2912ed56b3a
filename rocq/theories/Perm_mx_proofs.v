From mathcomp Require Import all_ssreflect all_algebra zify.
From Verif Require Import Grid Perm_model Perm_spec Perm_proofs.
Set Implicit Arguments.
Unset Strict Implicit.
Unset Printing Implicit Defensive.
Import GRing.Theory.
Local Open Scope ring_scope.

Section M.
Variable F : ringType.

(** Row selection by a map preserving {0..n-1}. *)
Definition selmx (n : nat) (s : nat -> nat) : 'M[F]_n := \matrix_(a < n, b < n) ((b : nat) == s a)%:R.

Lemma selmx_mul n m s (A : grid F) : (forall i, (i < n)%N -> (s i < n)%N) ->
  selmx n s *m mx n m A = mx n m (fun i j => A (s i) j).
Proof.
move=> H; apply/matrixP => i j; rewrite !mxE (bigD1 (Ordinal (H _ (ltn_ord i)))) //=.
rewrite !mxE /= eqxx mul1r big1 ?addr0 // => k kN.
rewrite !mxE; case: eqP => [E|_]; last by rewrite mul0r.
by case/eqP: kN; apply: val_inj.
Qed.

Lemma mul_selmxT n m s (A : grid F) : (forall i, (i < n)%N -> (s i < n)%N) ->
  mx m n A *m (selmx n s)^T = mx m n (fun i j => A i (s j)).
Proof.
move=> H; apply/matrixP => i j; rewrite !mxE (bigD1 (Ordinal (H _ (ltn_ord j)))) //=.
rewrite !mxE /= eqxx mulr1 big1 ?addr0 // => k kN.
rewrite !mxE; case: eqP => [E|_]; last by rewrite mulr0.
by case/eqP: kN; apply: val_inj.
Qed.

Lemma selmx_comp n s t : (forall i, (i < n)%N -> (s i < n)%N) ->
  selmx n s *m selmx n t = selmx n (fun x => t (s x)).
Proof.
move=> H; have -> : selmx n t = mx n n (fun a b => (b == t a)%:R) by [].
by rewrite selmx_mul.
Qed.

Lemma selmx_tr n s t : (forall i, (i < n)%N -> (s i < n)%N) -> cancel s t -> cancel t s ->
  (selmx n s)^T = selmx n t.
Proof.
move=> H c1 c2; apply/matrixP => i j; rewrite !mxE; congr (_%:R); congr nat_of_bool.
by apply/eqP/eqP => ->; rewrite ?c1 ?c2.
Qed.

Lemma selmx_id n : selmx n id = 1%:M.
Proof. by apply/matrixP => i j; rewrite !mxE eq_sym. Qed.

Lemma selmx_ext n s t : (forall i, (i < n)%N -> s i = t i) -> selmx n s = selmx n t.
Proof. by move=> H; apply/matrixP => i j; rewrite !mxE H. Qed.

Lemma tij_lt n i j x : (i < n)%N -> (j < n)%N -> (x < n)%N -> (transpose_ij i j x < n)%N.
Proof. by rewrite /transpose_ij; bsolve. Qed.

Lemma PmxE n p b e : (e <= n)%N -> (forall i, (b <= i < e)%N -> (p i < n)%N) ->
  Pmx F n p b e = selmx n (sigma p b e).
Proof.
case: (leqP b e) => [be|be _ _]; last first.
  rewrite /Pmx (_ : (e - b)%N = 0%N) /=; last lia.
  by rewrite -(selmx_id n); apply: selmx_ext => i _; rewrite sigma_nil // ltnW.
elim: e be => [|e IH].
  by case: b => // _ _ _; rewrite /Pmx /= -(selmx_id n); apply: selmx_ext => i _; rewrite sigma_nil.
rewrite leq_eqVlt => /orP[/eqP<- _ _|be en H].
  by rewrite /Pmx subnn /= -(selmx_id n); apply: selmx_ext => i _; rewrite sigma_nil.
have {}IH : Pmx F n p b e = selmx n (sigma p b e).
  by apply: IH; [lia..|move=> i ie; apply: H; lia].
rewrite /Pmx subSn // -[(e - b).+1]addn1 iotaD foldl_cat /= subnKC //.
rewrite -/(Pmx F n p b e) IH.
have Hpe : (p e < n)%N by apply: H; lia.
have -> : Tmx F n e (p e) = selmx n (transpose_ij e (p e)) by [].
rewrite selmx_comp; last by move=> i; apply: tij_lt.
by apply: selmx_ext => i _; rewrite sigmaSr.
Qed.

Lemma sigmaV_lt p n b e x : (forall i, (b <= i < e)%N -> (p i < n)%N) -> (e <= n)%N ->
  (x < n)%N -> (sigmaV p b e x < n)%N.
Proof.
move=> H en xn; rewrite ltnNge; apply/negP => N.
have := sigma_ge H en N; rewrite sigmaVK => E; move: N; rewrite -E; lia.
Qed.

Variables (bk M b e n : nat) (p : nat -> nat) (A : grid F).
Hypotheses (bk0 : (0 < bk)%N) (en : (e <= n)%N) (H : forall i, (b <= i < e)%N -> (p i < n)%N).

Lemma mx_ext m' n' (X Y : grid F) : (forall i j, (i < m')%N -> (j < n')%N -> X i j = Y i j) ->
  mx m' n' X = mx m' n' Y.
Proof. by move=> E; apply/matrixP => i j; rewrite !mxE E. Qed.

Lemma applyP_mx s t :
  let P := Pmx F n p b e in
  match s, t with
  | SLeft, NoTrans => mx n M (applyP bk s t M b e p A) = P *m mx n M A
  | SLeft, Trans => mx n M (applyP bk s t M b e p A) = P^T *m mx n M A
  | SRight, NoTrans => mx M n (applyP bk s t M b e p A) = mx M n A *m P
  | SRight, Trans => mx M n (applyP bk s t M b e p A) = mx M n A *m P^T
  end.
Proof.
have sl i : (i < n)%N -> (sigma p b e i < n)%N by move=> *; apply: sigma_lt.
have vl i : (i < n)%N -> (sigmaV p b e i < n)%N by move=> *; apply: sigmaV_lt.
move=> P; have EP : P = selmx n (sigma p b e) by apply: PmxE.
have EPT : P^T = selmx n (sigmaV p b e) by rewrite EP (selmx_tr sl (sigmaK _ _ _) (sigmaVK _ _ _)).
case: s; case: t.
- by rewrite EP selmx_mul //; apply: mx_ext => i j *; rewrite applyPE //= ifT.
- by rewrite EPT selmx_mul //; apply: mx_ext => i j *; rewrite applyPE //= ifT.
- by rewrite -[P]trmxK EPT mul_selmxT //; apply: mx_ext => i j *; rewrite applyPE //= ifT.
- by rewrite EP mul_selmxT //; apply: mx_ext => i j *; rewrite applyPE //= ifT.
Qed.

Lemma Pmx_orth : let P := Pmx F n p b e in P *m P^T = 1%:M /\ P^T *m P = 1%:M.
Proof.
have sl i : (i < n)%N -> (sigma p b e i < n)%N by move=> *; apply: sigma_lt.
have vl i : (i < n)%N -> (sigmaV p b e i < n)%N by move=> *; apply: sigmaV_lt.
rewrite /= (PmxE en H) (selmx_tr sl (sigmaK _ _ _) (sigmaVK _ _ _)) !selmx_comp //.
rewrite -(selmx_id n); split; apply: selmx_ext => i _.
  by rewrite sigmaK. by rewrite sigmaVK.
Qed.

End M.

Section R.
Variable T : Type.
Implicit Type A : grid T.

Lemma applyP_roundtrip bk bk' s t t' M b e p A i j : (0 < bk)%N -> (0 < bk')%N -> t <> t' ->
  applyP bk' s t' M b e p (applyP bk s t M b e p A) i j = A i j.
Proof.
move=> b0 b1; case: s; case: t; case: t' => // _; rewrite applyPE // /applyP_entry !applyPE // /applyP_entry;
  by case: (_ < M)%N; rewrite ?sigmaK ?sigmaVK.
Qed.

Lemma applyP_frame bk s t M b e p A n i j : (0 < bk)%N -> (e <= n)%N ->
  (forall i, (b <= i < e)%N -> (b <= p i < n)%N) ->
  (if s is SLeft then (M <= j) || (i < b) || (n <= i) else (M <= i) || (j < b) || (n <= j))%N ->
  applyP bk s t M b e p A i j = A i j.
Proof.
move=> b0 en H.
have H1 k : (b <= k < e)%N -> (p k < n)%N by move=> /H; lia.
have H2 k : (b <= k < e)%N -> (b <= p k)%N by move=> /H; lia.
have Hs x : (x < b)%N || (n <= x)%N -> sigma p b e x = x.
  by case/orP => xx; [apply: sigma_lo | apply: (sigma_ge (n := n))].
have Hv x : (x < b)%N || (n <= x)%N -> sigmaV p b e x = x by move=> xx; rewrite -{1}[x]Hs // sigmaK.
by case: s; case: t => C; rewrite applyPE //=; case: ifP => // ?; rewrite ?Hs ?Hv //; lia.
Qed.

(** Two orders of the same task decomposition. *)
Lemma applyP_tasks_full bk s t M b e P bl A i j : (0 < bk)%N ->
  (forall k, count (fun x => x.1 <= k < x.1 + x.2)%N bl = (k < M)%N) ->
  applyP_tasks bk s t b e P bl A i j = applyP bk s t M b e P A i j.
Proof.
move=> bk0 H; rewrite applyP_tasksE //; last by move=> k; rewrite H; case: (k < M)%N.
by rewrite applyPE // /applyP_entry !has_count !H; case: s; case: t; case: (_ < M)%N.
Qed.
End R.
