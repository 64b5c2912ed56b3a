(** * Certificates: proofs *)
From mathcomp Require Import all_ssreflect all_algebra zify ring.
From Verif Require Import Grid Perm_model Perm_spec Perm_proofs Perm_mx_proofs Tri_model Tri_spec Tri_proofs Trmm_proofs
  Pluq_model Pluq_spec Pluq_rank Pluq_api_proofs Api_model Api_spec Api_proofs Null_proofs Prof_proofs
  Check_model Check_spec.
Set Implicit Arguments.
Unset Strict Implicit.
Unset Printing Implicit Defensive.
Import GRing.Theory.
Local Open Scope ring_scope.

Section Accept.
Variable F : fieldType.
Implicit Types (A B C X : grid F) (v w x y : nat -> F).

Lemma iszeroP m w : iszero m w = (cv m w == 0).
Proof.
apply/allP/eqP => [H|H i].
  by apply/matrixP => i j; rewrite !mxE; apply/eqP/H; rewrite mem_iota add0n /=.
rewrite mem_iota add0n => /= im; move/matrixP/(_ (Ordinal im) 0): H.
by rewrite !mxE => /= ->.
Qed.

Lemma mx0N n (X Y : 'M[F]_(0, n)) : X = Y. Proof. by rewrite (flatmx0 X) (flatmx0 Y). Qed.

(** op(A) is m x k. *)
Lemma fgemvp_cv t m k alpha A x beta y : (rows_ t m k != 0)%N \/ beta = 0 /\ cv m y = 0 \/ (m == 0)%N ->
  cv m (fgemvp t (rows_ t m k) (cols_ t m k) alpha A x beta y) =
  alpha *: (mx m k (optr t A) *m cv k x) + beta *: cv m y.
Proof.
rewrite /fgemvp /cv mxM mxZ mxZ mxD.
case=> [h|[[-> e]|/eqP ->]]; last exact: mx0N.
  rewrite (negbTE h); apply: eq_mx => i j im j0; rewrite /fgemv.
  by case: t h => /= h; rewrite im.
case: eqP => h.
  case: t h => /= h; subst; first exact: mx0N.
  transitivity (0 : 'M[F]_(m, 1)); first exact: e.
  by apply/matrixP => i j; rewrite !mxE /= mulr0 mul0r addr0.
by apply: eq_mx => i j im j0; rewrite /fgemv; case: t h => /= h; rewrite im.
Qed.

Lemma cv0 m : cv m (fun=> 0 : F) = 0. Proof. by apply/matrixP => i j; rewrite !mxE. Qed.

(** Acceptance is the vanishing of (C - alpha op(A) op(B)) v. *)
Lemma freivaldsE ta tb m n k alpha A B C v jy jx :
  ~~ ((k == 0%N) && (if ta is Trans then true else false)) ->
  ~~ ((n == 0%N) && (if tb is Trans then true else false)) ->
  freivalds ta tb m n k alpha A B C v jy jx =
  ((alpha *: (mx m k (optr ta A) *m mx k n (optr tb B)) - mx m n C) *m cv n v == 0).
Proof.
move=> k0 n0; rewrite /freivalds iszeroP.
case: (posnP m) => [->|m0]; first by rewrite !(flatmx0 (_ : 'M_(0, _))) !eqxx.
rewrite (fgemvp_cv (t := NoTrans)) /=; last by left; rewrite -lt0n.
rewrite fgemvp_cv; last by left; case: (ta) k0 => /=; rewrite ?andbT // -lt0n.
case: (posnP k) => [k00|kp].
  subst k; rewrite [cv 0 _]flatmx0 [mx 0 n _]flatmx0 !mulmx0 !scaler0 scale0r addr0 scaler0 addr0 add0r.
  by rewrite scaleN1r mulNmx.
rewrite fgemvp_cv; last by left; case: (tb) n0 => /=; rewrite ?andbT // -lt0n.
by rewrite scale0r !scale1r addr0 scale0r addr0 scaleN1r addrC mulmxBl -scalemxAl mulmxA.
Qed.

Lemma check_fgemmE ta tb m n k alpha A B beta Cold C v :
  check_fgemm ta tb m n k alpha A B beta Cold C v =
  ((alpha *: (mx m k (optr ta A) *m mx k n (optr tb B)) + beta *: mx m n Cold - mx m n C) *m cv n v == 0).
Proof.
rewrite /check_fgemm iszeroP.
case: (posnP m) => [->|m0]; first by rewrite !(flatmx0 (_ : 'M_(0, _))) !eqxx.
have mz : (m == 0)%N = false by apply: negbTE; rewrite -lt0n.
set w1 := fgemvp NoTrans m n 1 C v _ _.
have E1 : cv m w1 = (mx m n C - beta *: mx m n Cold) *m cv n v.
  rewrite /w1 !(fgemvp_cv (t := NoTrans)) /= ?mz; try by left.
  by rewrite scale0r addr0 scale1r scaleN1r mulmxBl -scalemxAl.
set w2 := fgemvp tb _ _ _ _ _ _ _.
have E2 : cv k w2 = mx k n (optr tb B) *m cv n v.
  rewrite /w2 fgemvp_cv; first by rewrite scale0r addr0 scale1r.
  by right; left; rewrite cv0.
case e : (rows_ ta m k != 0)%N; last first.
  have k0 : k = 0%N by move/negbT: e; rewrite negbK; case: (ta) => /= /eqP // h; rewrite h in m0.
  subst k; move/negbT: e; rewrite negbK /fgemvp => ->.
  rewrite E1 [mx 0 n _]flatmx0 mulmx0 scaler0 add0r -[in RHS]oppr_eq0 -mulNmx opprB.
  by [].
rewrite fgemvp_cv; last by left; rewrite e.
by rewrite E1 E2 scaleN1r -mulNmx opprB scalemxAl mulmxA -mulmxDl scalemxAl addrA.
Qed.

Lemma check_invertE m A X nullity v :
  check_invert m A X nullity v = ((mx m m X *m mx m m A - 1%:M) *m cv m v == 0) || (nullity != 0%N).
Proof.
rewrite /check_invert iszeroP; congr (_ || _).
case: (posnP m) => [->|m0]; first by rewrite !(flatmx0 (_ : 'M_(0, _))) !eqxx.
have mz : (m == 0)%N = false by apply: negbTE; rewrite -lt0n.
rewrite !(fgemvp_cv (t := NoTrans)) /= ?mz; try by left.
by rewrite !scale1r scale0r addr0 scaleN1r mulmxBl mul1mx mulmxA.
Qed.

Lemma ftrmm_col u t d n A v :
  cv n (as_col (ftrmm SLeft u t d n 1 1 A) v) = opmx t (trimx u d n A) *m cv n v.
Proof.
have [_ E] := ftrmm_mx SLeft u t d n 1 1 A (fun i j => if j == 0%N then v i else 0).
have E0 : mx n 1 (fun i j => if j == 0%N then v i else 0) = cv n v.
  by apply: eq_mx => i j _; rewrite ltnS leqn0 => ->.
rewrite -E0 -[RHS]scale1r -E.
by apply: eq_mx => i j _; rewrite ltnS leqn0 => /eqP ->.
Qed.

Lemma ftrmm_col_frame u t d n A v i : (n <= i)%N -> as_col (ftrmm SLeft u t d n 1 1 A) v i = v i.
Proof.
have [f _] := ftrmm_mx SLeft u t d n 1 1 A (fun i j => if j == 0%N then v i else 0).
by move=> ni; rewrite /as_col f // negb_and -leqNgt ni.
Qed.

Lemma ftrmm_row u t d n A v :
  rv n (as_row (ftrmm SRight u t d 1 n 1 A) v) = rv n v *m opmx t (trimx u d n A).
Proof.
have [_ E] := ftrmm_mx SRight u t d 1 n 1 A (fun i j => if i == 0%N then v j else 0).
have E0 : mx 1 n (fun i j => if i == 0%N then v j else 0) = rv n v.
  by apply: eq_mx => i j; rewrite ltnS leqn0 => ->.
rewrite -E0 -[RHS]scale1r -E.
by apply: eq_mx => i j; rewrite ltnS leqn0 => /eqP ->.
Qed.

Lemma check_ftrsmE s u t d m n alpha A B X v :
  check_ftrsm s u t d m n alpha A B X v =
  ((alpha *: mx m n B - match s with
     | SLeft => opmx t (trimx u d m A) *m mx m n X
     | SRight => mx m n X *m opmx t (trimx u d n A) end) *m cv n v == 0).
Proof.
rewrite /check_ftrsm iszeroP.
case: (posnP m) => [->|m0]; first by rewrite !(flatmx0 (_ : 'M_(0, _))) !eqxx.
have mz : (m == 0)%N = false by apply: negbTE; rewrite -lt0n.
case: s.
  set w := fgemvp _ _ _ alpha _ _ _ _; set v1 := as_col _ _.
  have -> : cv m (fun i => if (i < m)%N then w i - v1 i else w i) = cv m w - cv m v1.
    by apply/matrixP => i j; rewrite !mxE ltn_ord.
  rewrite /w /v1 ftrmm_col !(fgemvp_cv (t := NoTrans)) /= ?mz; try by left.
  by rewrite !scale1r !scale0r !addr0 mulmxBl -scalemxAl mulmxA.
rewrite !(fgemvp_cv (t := NoTrans)) /= ?mz; try by left.
rewrite ftrmm_col scale0r addr0 scale1r scaleN1r -oppr_eq0 opprB mulmxBl -scalemxAl mulmxA.
by [].
Qed.

Lemma check_PLUQE bk d m n A X r P Q v junk : (0 < bk)%N -> is_lapack m P -> is_lapack n Q ->
  (r <= m)%N -> (r <= n)%N ->
  check_PLUQ bk d m n A X r P Q v junk =
  ((mx m n A - (Pmx F m P 0 m)^T *m Lmx d m r X *m Umx d r n X *m Pmx F n Q 0 n) *m cv n v == 0).
Proof.
move=> bk0 lP lQ rm rn; rewrite /check_PLUQ.
set w := fgemvp _ _ _ _ _ _ _ _.
set x1 := as_col (applyP bk SLeft NoTrans 1 0 n Q) _.
set x2 := as_col (ftrmm _ _ _ _ _ _ _ _) x1.
set x3 := if (r < n)%N then _ else x2.
set x4 := if (r < m)%N then _ else x3.
set x5 := as_col (ftrmm _ _ _ _ _ _ _ _) x4.
set x6 := as_col (applyP _ _ _ _ _ _ _) x5.
have -> : all (fun i => w i == x6 i) (iota 0 m) = (cv m w - cv m x6 == 0).
  rewrite (_ : all _ _ = iszero m (fun i => w i - x6 i)); last by apply: eq_all => i; rewrite subr_eq0.
  by rewrite iszeroP; congr (_ == _); apply/matrixP => i j; rewrite !mxE.
have E1 : cv n x1 = Pmx F n Q 0 n *m cv n v.
  rewrite as_col_mx //; congr (_ *m _); apply: eq_cv => i iN; by rewrite iN.
have E3 : cv r x3 = Umx d r n X *m cv n x1.
  have E3' i : (i < r)%N -> x3 i = x2 i + rsum (n - r) (fun t => X i (r + t)%N * x2 (r + t)%N).
    move=> ir; rewrite /x3; case: ltnP => rn'; last first.
      by rewrite (_ : (n - r = 0)%N) ?addr0 //; lia.
    by rewrite /as_col fgemmE ir /= !mul1r addrC; congr (_ + _); apply: eq_rsum => t _; rewrite /sub /= add0n.
  have e : n = (r + (n - r))%N by lia.
  transitivity (cv r x2 + mx r (n - r) (sub 0 r X) *m cv (n - r) (fun t => x2 (r + t)%N)).
    rewrite {2 3}/cv mxM; rewrite {1}/cv mxD; apply: eq_mx => i j ir _; rewrite E3' //.
  rewrite ftrmm_col /=.
  have -> : cv (n - r) (fun t => x2 (r + t)%N) = cv (n - r) (fun t => x1 (r + t)%N).
    by apply: eq_cv => i ii; rewrite /x2 ftrmm_col_frame //; lia.
  rewrite -mul_row_col; move: (n - r)%N e => n2 e; subst n.
  rewrite Umx_row; congr (_ *m _); rewrite {3}/cv mx_col; congr col_mx.
have E5 : cv m x5 = Lmx d m r X *m cv r x3.
  have E4 i : x4 i = if (r <= i < m)%N then rsum r (fun t => X i t * x3 t) else x3 i.
    rewrite /x4; case: ltnP => rm'; last by case: ifP => //; lia.
    rewrite /as_col /at_ fgemmE subn0 /=; case: (leqP r i) => ri //=.
    have -> : (i - r < m - r)%N = (i < m)%N by lia.
    rewrite andbT; case: ifP => im; last by rewrite /sub subnKC.
    by rewrite mul0r addr0 mul1r; apply: eq_rsum => t _; rewrite /sub /= add0n subnKC.
  have E6 i : (r <= i < m)%N -> x5 i = rsum r (fun t => X i t * x3 t).
    by move=> h; case/andP: (h) => h1 h2; rewrite /x5 ftrmm_col_frame // E4 h.
  have E7 : cv r x5 = trimx Lower (odiag d) r X *m cv r x3.
    by rewrite ftrmm_col /=; congr (_ *m _); apply: eq_cv => i ir; rewrite E4 leqNgt ir.
  have e : m = (r + (m - r))%N by lia.
  move: {-}(m - r)%N e => m2 e; rewrite e Lmx_col {1}/cv mx_col mul_col_mx; congr col_mx; first exact: E7.
  rewrite /cv mxM; apply: eq_mx => i j ii _; rewrite /sub E6; last by lia.
  by apply: eq_rsum => t _; rewrite add0n.
rewrite /x6 as_col_mx // E5 E3 E1.
case: (posnP m) => [->|m0]; first by rewrite !(flatmx0 (_ : 'M_(0, _))) !eqxx.
rewrite /w (fgemvp_cv (t := NoTrans)) /=; last by left; rewrite -lt0n.
by rewrite scale1r scale0r addr0 mulmxBl !mulmxA.
Qed.


(** ** Determinant *)

Lemma cv_mx n (uv : grid F) j : cv n (uv^~ j) = mx n 1 (fun i _ => uv i j). Proof. by []. Qed.

Lemma dot_mx n x y : (rv n x *m cv n y) 0 0 = dot n x y.
Proof. by rewrite /rv /cv mxM mxE. Qed.

Lemma count_iteri n (P : nat -> nat) c0 :
  iteri n (fun i c => if P i != i then c.+1 else c) c0 = (c0 + count (fun i => P i != i) (iota 0 n))%N.
Proof.
elim: n => [|n IH]; first by rewrite addn0.
by rewrite iteriS IH -[in RHS](addn1 n) iotaD count_cat /= addn0; case: eqP => _ /=; lia.
Qed.

Definition lu n X : 'M[F]_n := trimx Lower Unit n X *m trimx Upper NonUnit n X.

Lemma det_lu n X : \det (lu n X) = \prod_(i < n) X i i.
Proof.
rewrite det_mulmx [\det (trimx Lower _ _ _)]det_trig; last first.
  by apply/is_trig_mxP => i j ij; rewrite mxE /tri; case: ltngtP ij.
rewrite big1 ?mul1r; last by move=> i _; rewrite mxE /tri eqxx.
rewrite -det_tr det_trig; last by apply/is_trig_mxP => i j ij; rewrite !mxE /tri; case: ltngtP ij.
by apply: eq_bigr => i _; rewrite !mxE /tri eqxx.
Qed.

Lemma prod_iteri n X (d : F) : iteri n (fun i d => d * X i i) d = d * \prod_(i < n) X i i.
Proof. by elim: n => [|n IH]; rewrite ?big_ord0 ?mulr1 // iteriS big_ord_recr /= IH mulrA. Qed.

Lemma signed_diagE n X P Q : is_lapack n P -> is_lapack n Q ->
  signed_diag n X P Q 1 = \det ((Pmx F n P 0 n)^T *m lu n X *m Pmx F n Q 0 n).
Proof.
move=> lP lQ; rewrite /signed_diag !count_iteri add0n prod_iteri mul1r !det_mulmx det_tr !det_Pmx // -det_mulmx det_lu.
rewrite -signr_odd -[X in _ * _ * X]signr_odd oddD.
by do 2 case: odd; rewrite /= ?expr0 ?expr1 ?mulr1 ?mul1r ?mulN1r ?mulrN1 ?opprK.
Qed.

Lemma applyP_2 bk n p (uv : grid F) : (0 < bk)%N -> is_lapack n p ->
  mx n 2 (applyP bk SLeft NoTrans 2 0 n p uv) = Pmx F n p 0 n *m mx n 2 uv.
Proof. by move=> bk0 lp; apply: (applyP_mx 2 uv bk0 (leqnn _) (is_lapack_lt lp) SLeft NoTrans). Qed.

Lemma check_DetE bk n A det X P Q uv w : (0 < bk)%N -> is_lapack n P -> is_lapack n Q ->
  check_Det bk n A det X P Q uv w =
  (rv n w *m ((Pmx F n P 0 n)^T *m lu n X *m Pmx F n Q 0 n - mx n n A) *m mx n 2 uv == 0) &&
  (signed_diag n X P Q 1 == det).
Proof.
move=> bk0 lP lQ; rewrite /check_Det andbA; congr (_ && _).
set t := fgemvp _ _ _ _ _ _ _ _; set u1 := applyP _ _ _ _ _ _ _ uv; set w1 := as_row _ w.
set u2 := ftrmm _ _ _ _ _ _ _ _ _; set w2 := as_row _ w1.
have Et : rv n t = rv n w *m mx n n A.
  rewrite (_ : rv n t = (cv n t)^T); last by apply/matrixP => i j; rewrite !mxE.
  rewrite /t (fgemvp_cv (t := Trans)) /=; last by right; left; rewrite cv0.
  rewrite scale1r scale0r addr0 trmx_mul; congr (_ *m _); last by apply/matrixP => i j; rewrite !mxE.
  by apply/matrixP => i j; rewrite !mxE.
have Eu : mx n 2 u2 = trimx Upper NonUnit n X *m Pmx F n Q 0 n *m mx n 2 uv.
  have [_] := ftrmm_mx SLeft Upper NoTrans NonUnit n 2 1 X u1; rewrite -/u2 scale1r => -> /=.
  by rewrite /u1 applyP_2 // mulmxA.
have Ew : rv n w2 = rv n w *m (Pmx F n P 0 n)^T *m trimx Lower Unit n X.
  by rewrite /w2 ftrmm_row /w1 as_row_mx.
have dC x y : dot n x y = dot n y x by apply: eq_rsum => i _; rewrite mulrC.
have E j : (j < 2)%N -> (dot n w2 (u2^~ j) == dot n (uv^~ j) t) =
  ((rv n w2 *m mx n 2 u2 - rv n t *m mx n 2 uv) 0 (inord j) == 0).
  move=> j2; rewrite (dC (uv^~ j)) mxE [X in _ + X == 0]mxE subr_eq0 /rv !mxM !mxE.
  by rewrite inordK.
rewrite (E 0%N) // (E 1%N) //.
have -> : rv n w *m ((Pmx F n P 0 n)^T *m lu n X *m Pmx F n Q 0 n - mx n n A) *m mx n 2 uv =
  rv n w2 *m mx n 2 u2 - rv n t *m mx n 2 uv.
  by rewrite Eu Ew Et /lu mulmxBr mulmxBl !mulmxA.
move: (rv n w2 *m _ - _) => Z; apply/andP/eqP => [[/eqP h0 /eqP h1]|->]; last by rewrite !mxE.
apply/matrixP => i j; rewrite (ord1 i) [RHS]mxE.
by case: j => [[|[|j]] jP] //; [rewrite -[RHS]h0|rewrite -[RHS]h1]; congr (Z _ _); apply: val_inj; rewrite /= inordK.
Qed.

(** ** Characteristic polynomial *)

Lemma horner_foldr (g : seq F) a : foldr (fun c h => h * a + c) 0 g = (Poly g).[a].
Proof. by rewrite horner_Poly; elim: g => //= c g ->. Qed.

Lemma char_poly_eval n (M : 'M[F]_n) a : (char_poly M).[a] = \det (a%:M - M).
Proof.
rewrite /char_poly -horner_evalE -det_map_mx; congr (\det _).
apply/matrixP => i j; rewrite !mxE /= horner_evalE; case: eqP => _ /=.
  by rewrite !mulr1n !hornerE.
by rewrite !mulr0n !hornerE.
Qed.

Lemma PLUQ_lu bk thr n A : (0 < bk)%N ->
  let: Pluq X P Q R := PLUQ bk NonUnit thr n n A in
  [/\ is_lapack n P, is_lapack n Q, (R <= n)%N,
      mx n n A = (Pmx F n P 0 n)^T *m Lmx NonUnit n R X *m Umx NonUnit R n X *m Pmx F n Q 0 n &
      mx n n A = (Pmx F n P 0 n)^T *m lu n X *m Pmx F n Q 0 n].
Proof.
move=> bk0; have := PLUQ_factors NonUnit thr n n A bk0.
case: PLUQ => X P Q R [lP lQ fr fac EA]; have [_ [RN _] _ z _] := fac; split=> //.
rewrite EA -(mulmxA _ (Lmx _ _ _ _)); congr (_ *m _ *m _); rewrite /lu /Lmx /Umx /trimx !mxM; apply: eq_mx => i j ii jn.
rewrite -(subnKC RN) rsum_cat [X in _ = _ + X]rsum0 ?addr0 => [|t tt].
  by apply: eq_rsum => t tR; rewrite /Lo /Up /tri (eq_sym i); case: (ltngtP t i) => [?|?|->]; case: (ltngtP _ j) => [?|?|->].
rewrite /tri; case: eqP => [e|_]; case: eqP => [e'|_]; rewrite ?mulr0 //.
- by rewrite z ?mulr0 //; lia.
- by case: (ltnP (R + t) j) => h; rewrite ?mulr0 //; rewrite z ?mulr0 //; lia.
- by rewrite (z (R + t)%N (R + t)%N) ?mulr0 //; lia.
by case: (ltnP (R + t) j) => h; rewrite ?mulr0 //; rewrite (z (R + t)%N) ?mulr0 //; lia.
Qed.

Lemma check_charpolyE bk thr n A g a v junk : (0 < bk)%N -> (0 < n)%N ->
  check_charpoly bk thr n A g a v junk = Some ((Poly g).[a] == (char_poly (mx n n A)).[a]).
Proof.
move=> bk0 n0; rewrite /check_charpoly.
set Ac := fun i j => _.
have := PLUQ_lu thr n Ac bk0; case: PLUQ => X P Q R [lP lQ Rn E1 E2].
rewrite check_PLUQE // -E1 subrr mul0mx eqxx /= (gtn_eqF n0) horner_foldr; congr (Some (_ == _)).
set c := iteri n _ 0%N.
have -> : c = (count (fun i => P i != i) (iota 0 n) + count (fun i => Q i != i) (iota 0 n))%N.
  rewrite /c; elim: (n) => [|k IH] //; rewrite iteriS IH -[in RHS](addn1 k) iotaD !count_cat /= !addn0.
  by do 2 case: eqP => _ /=; lia.
have -> : iteri n.-1 (fun i d => d * X i.+1 i.+1) (X 0%N 0%N) = \prod_(i < n) X i i.
  have G k : iteri k (fun i d => d * X i.+1 i.+1) (X 0%N 0%N) = \prod_(i < k.+1) X i i.
    by elim: k => [|k IH]; rewrite ?big_ord1 // iteriS big_ord_recr IH.
  by rewrite G prednK.
rewrite char_poly_eval.
have -> : a%:M - mx n n A = - 1 *: mx n n Ac.
  apply/matrixP => i j; rewrite !mxE /Ac ltn_ord andbT -val_eqE /=.
  by case: eqP => _; rewrite ?mulr1n ?mulr0n; ring.
rewrite detZ E2 -(signed_diagE X lP lQ) /signed_diag !count_iteri add0n prod_iteri mul1r -signr_odd.
by case: (odd n); case: odd; rewrite /= ?expr0 ?expr1 ?mul1r ?mulN1r ?opprK.
Qed.

End Accept.

(** ** Counting *)
Section Counting.
Variable F : finFieldType.

Lemma count_kernel (m n c : nat) (D : 'M[F]_(m, n)) : D != 0 ->
  (#|[pred V : 'M[F]_(n, c) | D *m V == 0%R]| * #|F| ^ c <= #|{: 'M[F]_(n, c)}|)%N.
Proof.
move=> D0; have [i [j dij]] : exists i j, D i j != 0.
  case: (pickP (fun p : 'I_m * 'I_n => D p.1 p.2 != 0)) => [[i j] h|H]; first by exists i, j.
  by case/eqP: D0; apply/matrixP => i j; rewrite mxE; apply/eqP; move: (H (i, j)) => /= /negbFE.
have -> : (#|F| ^ c)%N = #|{: 'rV[F]_c}| by rewrite card_matrix mul1n.
rewrite -cardX -(card_in_imset (f := fun p => p.1 + delta_mx j 0 *m p.2)); first exact: max_card.
move=> [V a] [W b]; rewrite !inE /= !andbT => /eqP hV /eqP hW E.
have ab : a = b.
  have : row i D *m (V + delta_mx j 0 *m a) = row i D *m (W + delta_mx j 0 *m b) by rewrite E.
  rewrite -!row_mul !mulmxDr hV hW !add0r !mulmxA => /rowP K; apply/rowP => l.
  have := K l; rewrite !mxE !big_ord1 !mxE.
  have -> : \sum_j0 D i j0 * (delta_mx j 0 : 'cV[F]_n) j0 0 = D i j.
    rewrite (bigD1 j) //= big1 ?addr0 ?mxE ?eqxx ?mulr1 // => k kj.
    by rewrite mxE (negbTE kj) mulr0.
  by move/(mulfI dij).
by move: E; rewrite ab => /addIr ->.
Qed.

Lemma cv_vec n (v : 'cV[F]_n) : cv n (vec v) = v.
Proof. by apply/matrixP => i j; rewrite mxE /vec insubT //= (ord1 j) => h; congr (v _ _); apply: val_inj. Qed.

Lemma rv_vec n (v : 'cV[F]_n) : rv n (vec v) = v^T.
Proof. by apply/matrixP => i j; rewrite !mxE /vec insubT //= (ord1 i) => h; congr (v _ _); apply: val_inj. Qed.

Lemma mx_vec2 n (uv : 'M[F]_(n, 2)) : mx n 2 (vec2 uv) = uv.
Proof.
by apply/matrixP => i j; rewrite mxE /vec2 insubT //= => h; rewrite insubT //= => h'; congr (uv _ _); apply: val_inj.
Qed.

(** A test which is D v = 0 always succeeds for D = 0 and rarely otherwise. *)
Lemma linear_test m n (D : 'M[F]_(m, n)) (test : (nat -> F) -> bool) :
  (forall v, test v = (D *m cv n v == 0)) ->
  (D = 0 -> forall v, test v) /\ (D <> 0 -> rarely #|F| (fun v : 'cV[F]_n => test (vec v))).
Proof.
move=> E; split=> [D0 v|/eqP D0]; first by rewrite E D0 mul0mx.
rewrite /rarely -[#|F|]expn1; apply: leq_trans (count_kernel 1 D0); rewrite leq_mul2r; apply/orP; right.
by apply: eq_leq; apply: eq_card => v; rewrite !inE E cv_vec.
Qed.

Lemma freivalds_test ta tb m n k alpha A B C jy jx :
  (ta = Trans -> (0 < k)%N) -> (tb = Trans -> (0 < n)%N) ->
  let right := mx m n C = alpha *: (mx m k (optr ta A) *m mx k n (optr tb B)) in
  let test v := freivalds ta tb m n k alpha A B C v jy jx in
  (right -> forall v, test v) /\ (~ right -> rarely #|F| (fun v : 'cV[F]_n => test (vec v))).
Proof.
move=> k0 n0 right test.
have [h1 h2] := @linear_test _ _ (alpha *: (mx m k (optr ta A) *m mx k n (optr tb B)) - mx m n C) test
  (fun v => @freivaldsE F ta tb m n k alpha A B C v jy jx
     (ltac:(by case: (ta) k0 => h; rewrite ?andbF // andbT -lt0n h)) (ltac:(by case: (tb) n0 => h; rewrite ?andbF // andbT -lt0n h))).
split=> [r|nr]; first by apply: h1; rewrite r subrr.
by apply: h2 => /eqP; rewrite subr_eq0 => /eqP e; apply: nr.
Qed.

Lemma check_fgemm_test ta tb m n k alpha A B beta Cold C :
  let right := mx m n C = alpha *: (mx m k (optr ta A) *m mx k n (optr tb B)) + beta *: mx m n Cold in
  let test v := check_fgemm ta tb m n k alpha A B beta Cold C v in
  (right -> forall v, test v) /\ (~ right -> rarely #|F| (fun v : 'cV[F]_n => test (vec v))).
Proof.
move=> right test; have [h1 h2] := linear_test (test := test) (fun v => check_fgemmE ta tb m n k alpha A B beta Cold C v).
split=> [r|nr]; first by apply: h1; rewrite r subrr.
by apply: h2 => /eqP; rewrite subr_eq0 => /eqP e; apply: nr.
Qed.

Lemma check_ftrsm_test s u t d m n alpha A B X :
  let right := match s with
     | SLeft => opmx t (trimx u d m A) *m mx m n X
     | SRight => mx m n X *m opmx t (trimx u d n A) end = alpha *: mx m n B in
  let test v := check_ftrsm s u t d m n alpha A B X v in
  (right -> forall v, test v) /\ (~ right -> rarely #|F| (fun v : 'cV[F]_n => test (vec v))).
Proof.
move=> right test; have [h1 h2] := linear_test (test := test) (fun v => check_ftrsmE s u t d m n alpha A B X v).
split=> [r|nr]; first by apply: h1; rewrite r subrr.
by apply: h2 => /eqP; rewrite subr_eq0 => /eqP e; apply: nr.
Qed.

Lemma check_invert_test m A X :
  let right := mx m m X *m mx m m A = 1%:M in
  let test v := check_invert m A X 0 v in
  (right -> forall v, test v) /\ (~ right -> rarely #|F| (fun v : 'cV[F]_m => test (vec v))).
Proof.
move=> right test; have [|h1 h2] := @linear_test _ _ (mx m m X *m mx m m A - 1%:M) test.
  by move=> v; rewrite /test check_invertE orbF.
split=> [r|nr]; first by apply: h1; rewrite r subrr.
by apply: h2 => /eqP; rewrite subr_eq0 => /eqP e; apply: nr.
Qed.

Lemma check_PLUQ_test bk d m n A X r P Q junk : (0 < bk)%N -> is_lapack m P -> is_lapack n Q ->
  (r <= m)%N -> (r <= n)%N ->
  let right := mx m n A = (Pmx F m P 0 m)^T *m Lmx d m r X *m Umx d r n X *m Pmx F n Q 0 n in
  let test v := check_PLUQ bk d m n A X r P Q v junk in
  (right -> forall v, test v) /\ (~ right -> rarely #|F| (fun v : 'cV[F]_n => test (vec v))).
Proof.
move=> bk0 lP lQ rm rn right test.
have [h1 h2] := linear_test (test := test) (fun v => check_PLUQE d A X v junk bk0 lP lQ rm rn).
split=> [e|nr]; first by apply: h1; rewrite -e subrr.
by apply: h2 => /eqP; rewrite subr_eq0 => /eqP e; apply: nr.
Qed.

(** Two vectors on one side, one on the other. *)
Lemma bilinear_count n (D : 'M[F]_n) : D <> 0 ->
  rarely2 #|F| (fun x : 'M[F]_(n, 2) * 'cV[F]_n => x.2^T *m D *m x.1 == 0).
Proof.
move=> D0; rewrite /rarely2.
set q := #|F|; set S := [pred w : 'cV[F]_n | D^T *m w == 0].
have S1 : (#|S| * q <= #|{: 'cV[F]_n}|)%N.
  rewrite -[q]expn1; apply: count_kernel; apply/eqP => /(congr1 trmx); rewrite trmxK trmx0; exact: D0.
set T := #|{: 'M[F]_(n, 2)}|; set W := #|{: 'cV[F]_n}|.
have K (w : 'cV[F]_n) : (#|[pred uv : 'M[F]_(n, 2) | w^T *m D *m uv == 0%R]| * q ^ 2 <= T * (if w \in S then q ^ 2 else 1))%N.
  case: ifP => [_|/negbT h].
    by rewrite leq_mul2r; apply/orP; right; exact: max_card.
  rewrite muln1; apply: count_kernel; apply: contraNneq h => e.
  by rewrite inE -(trmxK (D^T *m w)) trmx_mul trmxK e trmx0.
have -> : #|[pred x : 'M[F]_(n, 2) * 'cV[F]_n | x.2^T *m D *m x.1 == 0]| =
  (\sum_(w : 'cV[F]_n) #|[pred uv : 'M[F]_(n, 2) | w^T *m D *m uv == 0%R]|)%N.
  rewrite -sum1_card; transitivity (\sum_(w : 'cV[F]_n) \sum_(uv : 'M[F]_(n, 2) | w^T *m D *m uv == 0%R) 1)%N; last first.
    by apply: eq_bigr => w _; rewrite sum1_card.
  rewrite [RHS](exchange_big_dep xpredT) //= pair_big_dep /=.
  by apply: eq_bigl => -[uv w]; rewrite !inE.
rewrite big_distrl /=; apply: (@leq_trans (\sum_(w : 'cV[F]_n) (T * (if w \in S then q ^ 2 else 1)))%N).
  by apply: leq_sum => w _; exact: K.
rewrite -big_distrr /= card_prod -/T -/W -mulnA leq_mul2l; apply/orP; right.
rewrite (bigID (mem S)) /= (eq_bigr (fun=> q ^ 2)%N) => [|w ->] //.
rewrite [X in (_ + X)%N](eq_bigr (fun=> 1%N)) => [|w /negbTE ->] //.
rewrite !sum_nat_const muln1 mulnS addnC leq_add ?max_card //.
by rewrite expnS expn1 mulnA leq_mul2r S1 orbT.
Qed.

Lemma check_Det_complete bk thr n (A : grid F) uv w : (0 < bk)%N ->
  let: Pluq X P Q R := PLUQ bk NonUnit thr n n A in
  check_Det bk n A (\det (mx n n A)) X P Q uv w.
Proof.
move=> bk0; have := PLUQ_lu thr n A bk0; case: PLUQ => X P Q R [lP lQ Rn _ E2].
by rewrite check_DetE // -E2 subrr mulmx0 mul0mx signed_diagE // -E2 !eqxx.
Qed.

Lemma check_Det_sound bk n (A : grid F) det X P Q : (0 < bk)%N -> is_lapack n P -> is_lapack n Q ->
  det <> \det (mx n n A) ->
  rarely2 #|F| (fun x : 'M[F]_(n, 2) * 'cV[F]_n => check_Det bk n A det X P Q (vec2 x.1) (vec x.2)).
Proof.
move=> bk0 lP lQ nd.
set D := (Pmx F n P 0 n)^T *m lu n X *m Pmx F n Q 0 n - mx n n A.
case: (D =P 0) => [e|D0].
  rewrite /rarely2 (eq_card (B := pred0)) ?card0 // => x; rewrite !inE check_DetE //.
  rewrite signed_diagE // andbC; case: eqP => //= e'; case: nd.
  by rewrite -e'; congr (\det _); apply/eqP; rewrite -subr_eq0 -/D e.
apply: leq_trans (bilinear_count D0); rewrite leq_mul2r; apply/orP; right.
apply: subset_leq_card; apply/subsetP => x; rewrite !inE check_DetE // => /andP[].
by rewrite rv_vec mx_vec2.
Qed.

Lemma check_charpoly_complete bk thr n A (g : seq F) a v junk : (0 < bk)%N -> (0 < n)%N ->
  Poly g = char_poly (mx n n A) -> check_charpoly bk thr n A g a v junk = Some true.
Proof. by move=> bk0 n0 e; rewrite check_charpolyE // e eqxx. Qed.

Lemma check_charpoly_sound bk thr n A (g : seq F) v junk : (0 < bk)%N -> (0 < n)%N ->
  Poly g <> char_poly (mx n n A) ->
  (#|[pred a | check_charpoly bk thr n A g a v junk == Some true]| <= maxn (size g).-1 n)%N.
Proof.
move=> bk0 n0 ng; set p := Poly g - char_poly (mx n n A).
have p0 : p != 0 by rewrite subr_eq0; apply/eqP.
set s := enum [pred a | p.[a] == 0].
have E : #|[pred a | check_charpoly bk thr n A g a v junk == Some true]| = size s.
  rewrite -cardE; apply: eq_card => a; rewrite !inE check_charpolyE //.
  by rewrite /p hornerD hornerN subr_eq0; case: ((Poly g).[a] == _).
have : (size s < size p)%N.
  apply: max_poly_roots => //; last exact: enum_uniq.
  by apply/allP => a; rewrite mem_enum inE => h; rewrite rootE.
have sp : (size p <= maxn (size g) n.+1)%N.
  apply: leq_trans (size_add _ _) _; rewrite size_opp size_char_poly.
  rewrite geq_max leq_maxr andbT; apply: leq_trans (size_Poly g) _; exact: leq_maxl.
rewrite E; move: sp; rewrite /maxn; do 2 case: ifP; lia.
Qed.

Lemma check_charpoly_test bk thr n A (g : seq F) v junk : (0 < bk)%N -> (0 < n)%N ->
  (Poly g = char_poly (mx n n A) -> forall a, check_charpoly bk thr n A g a v junk = Some true) /\
  (Poly g <> char_poly (mx n n A) ->
   (#|[pred a | check_charpoly bk thr n A g a v junk == Some true]| <= maxn (size g).-1 n)%N).
Proof. by move=> bk0 n0; split=> [e a|]; [exact: check_charpoly_complete|exact: check_charpoly_sound]. Qed.

End Counting.
