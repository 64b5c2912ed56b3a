(** * LUdivine_construct, MatVecMinPoly *)
From mathcomp Require Import all_ssreflect all_algebra.
From mathcomp Require Import zify ring.
From Verif Require Import Grid Perm_spec Perm_model Perm_proofs Perm_mx_proofs Tri_model Tri_spec Tri_proofs Trtri_proofs.
From Verif Require Import Pluq_spec Pluq_model Pluq_rank Pluq_proofs Pluq_combine Ludiv_model Ludiv_spec Ludiv_proofs Charp_model Charp_spec.
Set Implicit Arguments.
Unset Strict Implicit.
Unset Printing Implicit Defensive.
Import GRing.Theory.
Local Open Scope ring_scope.

Section Kry.
Variable F : fieldType.
Variable bk : nat.
Hypothesis bk0 : (0 < bk)%N.
Implicit Types A X : grid F.

Lemma kry_ext N A u v i : (forall y, (y < N)%N -> u y = v y) ->
  forall y, (y < N)%N -> kry N A u i y = kry N A v i y.
Proof.
move=> e; elim: i => [|i IH] y yN /=; first exact: e.
by apply: eq_rsum => c cN; rewrite IH.
Qed.

Lemma kry_add N A v i j y : (y < N)%N -> kry N A (kry N A v i) j y = kry N A v (i + j) y.
Proof.
elim: j y => [|j IH] y yN; first by rewrite addn0.
by rewrite addnS /=; apply: eq_rsum => c cN; rewrite IH.
Qed.

Lemma con_rows_ok Nup Ndown N A X u :
  let: (X', u') := con_rows Nup Ndown N A (X, u) in
  [/\ forall x y, ~~ ((Nup <= x < Nup + Ndown) && (y < N))%N -> X' x y = X x y,
      forall i y, (i < Ndown)%N -> (y < N)%N -> X' (Nup + i)%N y = kry N A u i.+1 y &
      forall y, (y < N)%N -> u' y = kry N A u Ndown y].
Proof.
rewrite /con_rows; set step := fun i s => _.
have H n : let: (X', u') := iteri n step (X, u) in
  [/\ forall x y, ~~ ((Nup <= x < Nup + n) && (y < N))%N -> X' x y = X x y,
      forall i y, (i < n)%N -> (y < N)%N -> X' (Nup + i)%N y = kry N A u i.+1 y &
      forall y, (y < N)%N -> u' y = kry N A u n y].
  elim: n => [|n IH] //; rewrite iteriS; move: IH; case: (iteri n _ _) => [X1 u1] [h1 h2 h3] /=.
  split=> [x y xN|i y iN yN|y yN].
  - by rewrite memoE ifF ?h1 //; lia.
  - rewrite memoE yN andbT; case: eqP => e; last by rewrite h2 //; lia.
    rewrite memo1E; have -> : i = n by lia.
    by apply: eq_rsum => c cN; rewrite h3.
  - by rewrite yN memo1E; apply: eq_rsum => c cN; rewrite h3.
by have := H Ndown; case: (iteri Ndown _ _).
Qed.

Lemma con_base_ok cX M N A X u P K : minn M N = 1%N ->
  (if cX then (forall y, (y < N)%N -> X 0%N y = u y) /\ (forall i l, (i < M)%N -> (l < N)%N -> K i l = kry N A u i l)
   else forall i l, (i < M)%N -> (l < N)%N -> K i l = X i l) ->
  let: (X', P', R) := con_base cX M N A X P in cup Unit (minn R.+1 M) N K X' P' id R /\ frame M N X' X.
Proof.
move=> mn hK; have [M0 N0] : (0 < M)%N /\ (0 < N)%N by lia.
have K0 l : (l < N)%N -> K 0%N l = X 0%N l.
  by move=> lN; case: (cX) hK => [[h1 h2]|h]; [rewrite h2 // h1|exact: h].
rewrite /con_base; have := find_iota bk0 (fun c => X 0%N c != 0) 0 N; set ip := find _ _; cbv zeta => -[ipN [bf af]].
case: eqP => eN.
  split=> //; apply: (cup0 bk0) => i l i1 lN; have -> : i = 0%N by lia.
  by rewrite K0 //; apply/eqP; have := bf l; rewrite eN add0n => /(_ lN)/negbFE.
have ip1 : (ip < N)%N by lia.
move: (af ip1); rewrite add0n => X0.
set X1 := if ip != 0%N then _ else X.
have X1E i l : X1 i l = if i == 0%N then (if (l < N)%N then X 0%N (transpose_ij 0 ip l) else X i l) else X i l.
  rewrite /X1 /transpose_ij /upd; case: (eqVneq ip 0%N) => [e|ne] /=.
    by rewrite e; case: (eqVneq i 0%N) => // ->; case: (eqVneq l 0%N) => [->|_]; case: ltnP.
  case: (eqVneq i 0%N) => // -> /=; case: (eqVneq l ip) => [->|_].
    rewrite ip1 (negPf ne) /=; have := bf 0%N; rewrite add0n lt0n ne => /(_ isT)/negbFE.
    by move/eqP->.
  by case: (eqVneq l 0%N) => [->|_]; rewrite ?N0 //; case: ltnP.
have p0 : X1 0%N 0%N = X 0%N ip by rewrite X1E N0.
set X2 := at_ 0 1 _ X1.
have X2E i l : X2 i l = if (i == 0%N) && (0 < l < N)%N then X1 0%N l / X 0%N ip else X1 i l.
  rewrite /X2 /at_ /fscalin memoE /fill /sub p0 leq0n subn0 add0n.
  case: (ltnP 0 l) => l0; rewrite ?andbF //= subnKC //.
  have -> : ((i < 1) && (l - 1 < N - 1))%N = (i == 0%N) && (l < N)%N by lia.
  by case: eqP => // ->; case: ltnP => // lN; rewrite mulrC.
set X3 := if _ then _ else X2.
have X3E i l : X3 i l = if [&& N == 1%N, (1 < M)%N, cX, i == 1%N & l == 0%N] then X 0%N ip * A 0%N 0%N else X2 i l.
  rewrite /X3; case: (boolP [&& _, _ & _]) => h; last by rewrite ifF //; lia.
  rewrite /upd X2E /= p0; case: (boolP ((i == 1%N) && (l == 0%N))) => h'; first by rewrite ifT //; lia.
  by rewrite ifF //; lia.
have p1 : X3 0%N 0%N = X 0%N ip by rewrite X3E !andbF X2E /= p0.
split; last first.
  move=> i l il; rewrite X3E ifF; last by lia.
  rewrite X2E ifF; last by lia.
  by rewrite X1E; case: eqP => // i0; rewrite ifF //; lia.
apply: (cup1 bk0) => //; first by lia.
- by rewrite p1.
move=> i l i2 lN; rewrite /upd1 eqxx /CL /Up.
have tl : (transpose_ij 0 ip l < N)%N by rewrite /transpose_ij; repeat case: eqP => ?; lia.
case: i i2 => [|i] i2 /=.
  rewrite K0 // p1 X3E !andbF /= X2E /= lN andbT X1E lN /=.
  case: (posnP l) => [->|l0] /=; first by rewrite mulr1.
  by rewrite mulrC divfK.
have [i0 N1] : i = 0%N /\ N = 1%N by lia.
have l0 : l = 0%N by lia.
have ip0 : ip = 0%N by lia.
rewrite i0 l0 ip0 /transpose_ij /= mulr1 X3E X2E X1E N1 /= ip0 andbT.
have M1 : (1 < M)%N by lia.
rewrite M1 /=; case: (cX) hK => [[h1 h2]|h].
  by rewrite h2 ?N1 //= add0r mulrC h1 // N1.
by rewrite h // X1E.
Qed.

Lemma construct_ok n cX M N A X u P K : (minn M N <= n)%N -> (0 < M)%N -> (0 < N)%N ->
  (if cX then (forall y, (y < N)%N -> X 0%N y = u y) /\ (forall i l, (i < M)%N -> (l < N)%N -> K i l = kry N A u i l)
   else forall i l, (i < M)%N -> (l < N)%N -> K i l = X i l) ->
  let: (X', u', P', R) := construct bk n cX M N A X u P in
  [/\ cup Unit (minn R.+1 M) N K X' P' id R, frame M N X' X &
      if cX then R = M -> forall y, (y < N)%N -> u' y = K M.-1 y else u' = u].
Proof.
elim: n cX M N X u P K => [|n IH] cX M N X u P K fu M0 N0 hK; first by lia.
rewrite [construct _ _ _ _ _ _ _ _ _]/=; case: eqP => mn.
  have := con_base_ok P mn hK; case: (con_base _ _ _ _ _ _) => [[X' P'] R] [c f]; split; first by apply: (cup_extX bk0) c => // i l _ _; rewrite memoE.
    by move=> i l il; rewrite memoE f.
  case: (cX) hK => [[_ hK]|] // RM y yN.
  have [[_ RN] _ _ _ _] := c; have M1 : M = 1%N by lia.
  by rewrite hK ?M1.
set Nup := (minn M N)./2; set Ndown := (M - Nup)%N.
have [Nu0 [Nd0 [NuN MD]]] : (0 < Nup)%N /\ (0 < Ndown)%N /\ (Nup < N)%N /\ M = (Nup + Ndown)%N by rewrite /Ndown /Nup; lia.
have := IH cX Nup N X u P K; case: (construct bk n cX Nup N A X u P) => [[[X1 u1] P1] R] /(_ _ _ _ _)[||||c1 f1 e1] //.
- by rewrite /Nup; lia.
- case: (cX) hK => [[h1 h2]|h]; first by split=> // i l iN; apply: h2; lia.
  by move=> i l iN; apply: h; lia.
have [[R1 RN] hP1 _ piv1 _] := c1.
case: eqP => RE; last first.
  have RNu : (R < Nup)%N by lia.
  split=> [|i l il|]; [by rewrite (_ : minn _ M = minn R.+1 Nup) //; lia | by rewrite f1 //; lia | by case: (cX) e1 => // _ RM; lia].
subst R.
set rows := if cX then con_rows _ _ _ _ _ else _.
have : let: (X2, u2) := rows in
  [/\ forall i l, ~~ ((Nup <= i < Nup + Ndown) && (l < N))%N -> X2 i l = X1 i l,
      forall i l, (i < Ndown)%N -> (l < N)%N -> X2 (Nup + i)%N l = K (Nup + i)%N l &
      if cX then forall y, (y < N)%N -> u2 y = K M.-1 y else u2 = u].
  rewrite /rows; case: (cX) hK e1 => [[h1 h2] /(_ erefl) e1|h e1].
    have := con_rows_ok Nup Ndown N A X1 u1; case: (con_rows _ _ _ _ _) => [X2 u2] [g1 g2 g3].
    have uE y : (y < N)%N -> u1 y = kry N A u Nup.-1 y by move=> yN; rewrite e1 // h2 //; lia.
    split=> // [i l iN lN|y yN].
      by rewrite g2 // (kry_ext _ _ uE) // kry_add // h2; [congr (kry _ _ _ _ _)| |]; lia.
    by rewrite g3 // (kry_ext _ _ uE) // kry_add // h2; [congr (kry _ _ _ _ _)| |]; lia.
  by split=> // i l iN lN; rewrite h ?f1 //; lia.
case: rows => X2 u2 [x1 x2 e2].
have := @lud_elim_ok F bk bk0 NoTrans Unit Nup Ndown N Nup P1 X2 (leqnn _) (ltnW NuN).
case=> [k kN| |]; [by have := hP1 k kN; lia|by []|]; rewrite /optr => fr eY eW.
set X3 := memo M N (lud_elim _ _ _ _ _ _ _ _ _).
have X3E i l : X3 i l = lud_elim bk NoTrans Unit Nup Ndown N Nup P1 X2 i l by rewrite /X3 memoE.
have := IH false Ndown (N - Nup)%N (sub Nup Nup X3) u2 (fun x => P1 (Nup + x)%N) (sub Nup Nup X3).
case: (construct bk n false Ndown _ _ _ _ _) => [[[W u3] P2] R2] /(_ _ _ _ _)[||||c3 f3 u3E] //.
- by rewrite /Ndown /Nup; lia.
- by rewrite subn_gt0.
have [[R2D R2NR] hP2 [hQ2 iQ2] piv2 _] := c3.
set P3 := iteri R2 _ _.
have P3E x : P3 x = if (Nup <= x < Nup + R2)%N then (Nup + P2 (x - Nup))%N else at1 Nup (fun=> P2) P1 x.
  by rewrite /P3 (addR_ok bk0); case: ifP => // /andP[h _]; rewrite /at1 h addnC.
have s2 x : sigma P3 Nup (Nup + R2) x = dsum Nup (sigma P2 0 R2) x.
  by apply: sigma_shift => k kR; rewrite P3E ifT ?addKn //; lia.
set X4 := at_ Nup Nup _ X3.
set X5 := at_ (Nup %/ bk * bk) _ _ _; rewrite -/(applyP bk SRight Trans Nup Nup (Nup + R2) P3 X4) in X5 *.
have X5E i l : X5 i l = if (i < Nup)%N then X4 i (dsum Nup (sigma P2 0 R2) l) else X4 i l.
  by rewrite /X5; have := applyP_view bk0 NoTrans Nup Nup (Nup + R2) P3 X4 i l; rewrite /optr s2.
have X4E i l : X4 i l = if ((Nup <= i) && (Nup <= l))%N then W (i - Nup)%N (l - Nup)%N
    else lud_elim bk NoTrans Unit Nup Ndown N Nup P1 X2 i l by rewrite /X4 /at_ X3E.
have V1E t l : (t < Nup)%N -> X2 t l = X1 t l by move=> tN; rewrite x1 //; lia.
split.
- have -> : minn (Nup + R2).+1 M = (Nup + minn R2.+1 Ndown)%N by lia.
  have c1' : cup Unit Nup N K X1 P1 id Nup by move: c1; rewrite (minn_idPr (leqnSn _)).
  have hs l : (l < N)%N -> (sigma P1 0 Nup l < N)%N.
    by move=> lN; apply: sigma_lt lN => [k /andP[_ /hP1]|]; lia.
  apply: (@cup_step F Unit Nup (minn R2.+1 Ndown) N K X1 P1 id Nup
    (fun i k => lud_elim bk NoTrans Unit Nup Ndown N Nup P1 X2 (Nup + i)%N k) (sub Nup Nup X3) W P2 id R2) => //.
  + move=> i l iD lR; rewrite -x2 ?hs //; try lia.
    rewrite eY //; last by lia.
    by apply: eq_rsum => k kN; congr (_ * _); rewrite /Up !V1E.
  + move=> i l iD lR; rewrite -x2 ?hs //; try lia.
    rewrite /sub X3E eW //; last by lia.
    by congr (_ - _); apply: eq_rsum => k kN; rewrite V1E.
  + move=> i l iN lN il; rewrite memoE X5E iN X4E ifF; last by lia.
    by rewrite fr ?V1E //; lia.
  + move=> i k iD kR; rewrite memoE X5E ifF; last by lia.
    by rewrite X4E ifF //; lia.
  + move=> k l kR lN h; rewrite memoE X5E ifF; last by lia.
    by rewrite X4E ifT ?addKn //; lia.
  + move=> i k iD kR h; rewrite memoE X5E ifF; last by lia.
    by rewrite X4E ifT ?addKn //; lia.
  + by move=> k kR; rewrite P3E ifF; [rewrite /at1 ifF //; lia | lia].
  + by move=> k kR; rewrite P3E ifT ?addKn //; lia.
- have f4 i l : ~~ ((i < M) && (l < N))%N -> X4 i l = X i l.
    move=> il; rewrite X4E; case: ifP => h.
      rewrite f3; last by lia.
      by rewrite /sub X3E !subnKC ?fr ?x1 ?f1 //; lia.
    by rewrite fr ?x1 ?f1 //; lia.
  move=> i l il; rewrite memoE X5E; case: ifP => iN; last exact: f4.
  suff -> : dsum Nup (sigma P2 0 R2) l = l by exact: f4.
  rewrite /dsum ifF; last by lia.
  by rewrite (@sigma_ge _ (N - Nup)) ?subnKC //; try lia; move=> k /andP[_ /hP2]; lia.
- by rewrite u3E; case: (cX) e2.
Qed.

(** ** MatVecMinPoly *)
Lemma MatVecMinPoly_full N A v K0 P0 : (0 < N)%N ->
  let: (p, K, P) := MatVecMinPoly_ bk N A v K0 P0 in
  let k := (size p).-1 in
  [/\ size p = k.+1, cup Unit k N (kry N A v) K P id k,
      exists2 x : nat -> F, p = rcons [seq - x j | j <- iota 0 k] 1 &
        forall r, (r < N)%N -> kry N A v k r = rsum k (fun j => x j * kry N A v j r) &
      (exists2 c, (c < N)%N & v c != 0) -> (0 < k)%N].
Proof.
move=> N0; rewrite /MatVecMinPoly_; set K1 := fun i j => _.
have := @construct_ok N.+2 true N.+1 N A K1 v P0 (kry N A v).
case: (construct _ _ _ _ _ _ _ _ _) => [[[X u] P] k] /(_ _ _ _ _)[||||c _ _] //; first by lia.
- by split=> // y yN; rewrite /K1 yN.
have [[_ kN] hP _ piv law] := c; have mk : minn k.+1 N.+1 = k.+1 by lia.
rewrite mk in c law.
have hs l : (l < N)%N -> (sigma P 0 k l < N)%N.
  by move=> lN; apply: sigma_lt lN => [t /andP[_ /hP]|]; lia.
have hsV l : (l < N)%N -> (sigmaV P 0 k l < N)%N.
  by move=> lN; apply: sigmaV_lt lN => [t /andP[_ /hP]|]; lia.
have dX : inv_diag NonUnit k X by move=> _ i ik; apply: (piv i ik).
pose x := ftrsv Lower Trans NonUnit k X (X k).
have xE t : (t < k)%N -> rsum k (fun j => x j * CL Unit X id j t) = X k t.
  move=> tk; rewrite -((@ftrsv_ok _ Lower Trans NonUnit k X (X k) dX).1 t tk) -/x; apply: eq_rsum => j jk.
  rewrite mulrC /triop /optr /tr /tri /CL; congr (_ * _).
  by case: ltngtP => // ->.
have dep r : (r < N)%N -> kry N A v k r = rsum k (fun j => x j * kry N A v j r).
  move=> rN; rewrite -(sigmaVK P 0 k r); set l := sigmaV _ _ _ _.
  have lN : (l < N)%N by apply: hsV.
  rewrite law // (@eq_rsum _ k _ (fun j => \sum_(t < k) x j * CL Unit X id j t * Up Unit X t l)); last first.
    by move=> j jk; rewrite law // ?mulr_sumr; [apply: eq_bigr => t _; rewrite mulrA|lia].
  rewrite rsumE exchange_big /=; apply: eq_bigr => t _.
  by rewrite -mulr_suml -(rsumE k (fun j => x j * CL Unit X id j t)) xE // /CL ltn_ord.
have kp : (exists2 c, (c < N)%N & v c != 0) -> (0 < k)%N.
  case=> r rN vr; rewrite lt0n; apply/eqP => k0; move: vr.
  by rewrite -[v r]/(kry N A v 0 r) -k0 dep // k0 eqxx.
have ck : cup Unit k N (kry N A v) X P id k.
  by split=> // [|i l ik lN]; [split=> // t t' /andP[] | apply: law; lia].
case: (boolP ((k == 1%N) && (X 1%N 0%N == 0))) => [/andP[/eqP k1 /eqP X1]|h0] /=.
  subst k; split=> //; exists x => //.
  have := xE 0%N isT; rewrite /= add0r /CL /= X1 => /eqP; rewrite mulf_eq0.
  by rewrite (negPf (piv 0%N isT)) orbF => /eqP ->; rewrite oppr0.
rewrite size_rcons size_map size_iota /=; split=> //; last by exists x.
apply: (cup_extX bk0) ck => // i l ik _; by rewrite ifF //; lia.
Qed.

Lemma cup_free k N (B : grid F) X P (c : nat -> F) : cup Unit k N B X P id k ->
  (forall r, (r < N)%N -> \sum_(i < k) c i * B i r = 0) -> forall i, (i < k)%N -> c i = 0.
Proof.
move=> [[_ kN] hP _ piv law] h.
have hs l : (l < N)%N -> (sigma P 0 k l < N)%N.
  by move=> lN; apply: sigma_lt lN => [t /andP[_ /hP]|]; lia.
pose L := mx k k (CL Unit X id); pose U := mx k k (Up Unit X).
have Lu : L \in unitmx.
  rewrite unitmxE det_trig; last by apply/is_trig_mxP => i j ij; rewrite mxE /CL ltnNge (ltnW ij) /= ifF //; lia.
  by rewrite unitfE; apply/prodf_neq0 => i _; rewrite mxE /CL ltnn eqxx piv.
have Uu : U^T \in unitmx.
  rewrite unitmxE det_trig; last by apply/is_trig_mxP => i j ij; rewrite !mxE /Up ltnNge (ltnW ij) /= ifF //; lia.
  by rewrite unitfE; apply/prodf_neq0 => i _; rewrite !mxE /Up ltnn eqxx oner_neq0.
rewrite unitmx_tr in Uu.
pose w := (\row_(i < k) c i).
have : w *m (L *m U) = 0.
  apply/rowP => l; rewrite !mxE -[RHS](h (sigma P 0 k l)) ?hs //; last by have := ltn_ord l; lia.
  apply: eq_bigr => i _; rewrite !mxE law //; last by have := ltn_ord l; lia.
  by congr (_ * _); apply: eq_bigr => t _; rewrite !mxE.
move/(congr1 (mulmx^~ (invmx (L *m U)))); rewrite mul0mx mulmxK ?unitmx_mul ?Lu // => /rowP w0 i ik.
by have := w0 (Ordinal ik); rewrite !mxE.
Qed.

Theorem MatVecMinPoly_ok N A v K0 P0 : (0 < N)%N -> vec_minpoly N A v (MatVecMinPoly bk N A v K0 P0).
Proof.
move=> N0; rewrite /MatVecMinPoly; have := MatVecMinPoly_full A v K0 P0 N0.
case: (MatVecMinPoly_ _ _ _ _ _ _) => [[p K] P] /=; move: (size p).-1 => k -[sp c [x pE dep] _].
split; first by rewrite pE last_rcons.
- move=> r rN; rewrite sp big_ord_recr /= {2}pE nth_rcons size_map size_iota ltnn eqxx mul1r.
  rewrite dep // -(rsumE k (fun i => nth 0 p i * kry N A v i r)) -rsumD rsum0 // => i ik.
  by rewrite pE nth_rcons size_map size_iota ik (nth_map 0%N) ?size_iota // nth_iota // mulNr addNr.
move=> q; rewrite sp ltnS => sq aq i; case: (ltnP i (size q)) => iq; last by rewrite nth_default.
apply: (cup_free c) => [r rN|]; last by lia.
apply: etrans (aq r rN); rewrite -!(rsumE _ (fun i => nth 0 q i * kry N A v i r)).
rewrite -(subnKC sq) rsum_cat [X in _ + X]rsum0 ?addr0 // => j _.
by rewrite nth_default ?mul0r // leq_addr.
Qed.
End Kry.
