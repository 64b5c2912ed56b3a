(** * LUKrylov: the characteristic polynomial by Krylov blocks *)
From mathcomp Require Import all_ssreflect all_algebra zify ring.
From Verif Require Import Grid Perm_spec Perm_model Perm_proofs Perm_mx_proofs Tri_model Tri_spec Tri_proofs Trtri_proofs.
From Verif Require Import Pluq_spec Pluq_model Pluq_rank Pluq_proofs Pluq_combine Ludiv_model Ludiv_spec Ludiv_proofs.
From Verif Require Import Ech_proofs Ech_main Charp_model Charp_spec Charp_proofs Charp_kry.
Set Implicit Arguments.
Unset Strict Implicit.
Unset Printing Implicit Defensive.
Import GRing.Theory.
Local Open Scope ring_scope.

Section Luk.
Variable F : fieldType.
Variable bk : nat.
Hypothesis bk0 : (0 < bk)%N.
Implicit Types A X : grid F.

(** The transposed matrix, permuted *)
Definition conj (s : nat -> nat) A : grid F := fun i j => A (s j) (s i).

Lemma char_poly_conj N s A : is_perm N s -> char_poly (mx N N (conj s A)) = char_poly (mx N N A).
Proof.
move=> sp; rewrite -char_poly_tr (char_poly_perm A sp); congr char_poly.
by apply/matrixP => i j; rewrite !mxE.
Qed.

Lemma luk_sim k e A v X P x (Y Z : grid F) : (0 < k)%N ->
  let N := (k + e)%N in let s := sigma P 0 k in
  cup Unit k N (kry N A v) X P id k ->
  (forall r, (r < N)%N -> kry N A v k r = rsum k (fun j => x j * kry N A v j r)) ->
  (forall i j, (i < e)%N -> (j < k)%N -> rsum k (fun t => Y i t * Up Unit X t j) = conj s A (k + i)%N j) ->
  (forall i j, (i < e)%N -> (j < e)%N -> Z i j = conj s A (k + i)%N (k + j)%N - rsum k (fun t => Y i t * X t (k + j)%N)) ->
  char_poly (mx N N A) = Poly (rcons [seq - x j | j <- iota 0 k] 1) * char_poly (mx e e Z).
Proof.
move=> k0 N s [[_ kN] hP _ piv law] dep hY hZ.
have sp : is_perm N s by apply: sigmaR_perm => // t /hP; lia.
have [hs si] := sp.
pose B := conj s A; rewrite -(char_poly_conj _ sp) -/B.
pose L := mx k k (CL Unit X id).
have Lu : L \in unitmx.
  rewrite unitmxE det_trig; last by apply/is_trig_mxP => i j ij; rewrite mxE /CL ltnNge (ltnW ij) /= ifF //; lia.
  by rewrite unitfE; apply/prodf_neq0 => i _; rewrite mxE /CL ltnn eqxx piv.
pose U1 := mx k k (Up Unit X); pose U2 := mx k e (fun i j => X i (k + j)%N).
have U1u : U1 \in unitmx.
  rewrite -unitmx_tr unitmxE det_trig; last by apply/is_trig_mxP => i j ij; rewrite !mxE /Up ltnNge (ltnW ij) /= ifF //; lia.
  by rewrite unitfE; apply/prodf_neq0 => i _; rewrite !mxE /Up ltnn eqxx oner_neq0.
pose Ym := mx e k Y; pose Zm := mx e e Z.
pose Cm : 'M[F]_k := mx k k (fun i j => if i == k.-1 then x j else (i.+1 == j)%:R).
pose Km := mx k (k + e) (fun i l => kry N A v i (s l)).
have KE : L *m row_mx U1 U2 = Km.
  apply/matrixP => i l; rewrite !mxE law //; apply: eq_bigr => t _; rewrite !mxE; congr (_ * _).
  case: splitP => j ->; rewrite !mxE // /Up ifT //; have := ltn_ord t; lia.
have KB : Km *m mx (k + e) (k + e) B = Cm *m Km.
  rewrite !mxM; apply/matrixP => i l; rewrite !mxE.
  rewrite (@eq_rsum _ _ _ (fun t => A (s l) (s t) * kry N A v i (s t))); last by move=> t _; rewrite mulrC.
  rewrite (rsum_perm (fun c => A (s l) c * kry N A v i c) sp) -[LHS]/(kry N A v i.+1 (s l)).
  case: (eqVneq (nat_of_ord i) k.-1) => [->|ne]; first by rewrite prednK // dep // hs.
  by rewrite (rsum_delta (fun t => kry N A v t (s l))) //; have := ltn_ord i; lia.
pose B11 := mx k k B; pose B12 := mx k e (fun i j => B i (k + j)%N).
pose B21 := mx e k (fun i j => B (k + i)%N j); pose B22 := mx e e (fun i j => B (k + i)%N (k + j)%N).
have BE : mx (k + e) (k + e) B = block_mx B11 B12 B21 B22.
  by apply/matrixP => i j; rewrite !mxE; case: splitP => i' ->; rewrite !mxE; case: splitP => j' ->; rewrite !mxE.
pose C' := invmx L *m Cm *m L.
have UB : row_mx U1 U2 *m mx (k + e) (k + e) B = C' *m row_mx U1 U2.
  rewrite -[LHS](mulKmx Lu) [X in invmx L *m X]mulmxA KE KB -KE /C'; by rewrite !mulmxA.
pose W := block_mx C' 0 Ym Zm.
pose T := block_mx U1 U2 0 1%:M.
have Tu : T \in unitmx by rewrite unitmxE det_ublock det1 mulr1 -unitmxE.
have TB : T *m mx (k + e) (k + e) B = W *m T.
  move: UB; rewrite BE mul_row_block mul_mx_row => /eq_row_mx[u1 u2].
  rewrite !mulmx_block !mul0mx !mul1mx !mulmx0 !mulmx1 !addr0 !add0r u1 u2; congr block_mx.
    by rewrite mxM; apply/matrixP => i j; rewrite !mxE hY.
  by rewrite mxM; apply/matrixP => i j; rewrite !mxE hZ // addrCA subrr addr0.
rewrite -(char_poly_sim Tu TB) char_poly_lblock; congr (_ * _).
rewrite -char_poly_comp; apply: esym; apply: (char_poly_sim Lu).
by rewrite /C' !mulmxA mulmxV // mul1mx.
Qed.

Lemma luk_rest_ok N k A v X P x : (0 < k < N)%N ->
  cup Unit k N (kry N A v) X P id k ->
  (forall r, (r < N)%N -> kry N A v k r = rsum k (fun j => x j * kry N A v j r)) ->
  char_poly (mx N N A) = Poly (rcons [seq - x j | j <- iota 0 k] 1) *
    char_poly (mx (N - k) (N - k) (luk_rest bk N k A X P).1).
Proof.
move=> /andP[k0 kN] c dep; have [[_ _] hP _ _ _] := c.
set e := (N - k)%N; have NE : N = (k + e)%N by rewrite /e; lia.
set s := sigma P 0 k.
rewrite /luk_rest -/e; cbv zeta.
set AP := applyP _ _ _ _ _ _ _ A.
set X1 := at_ k 0 _ X; set X2 := at_ k 0 _ X1; set X3 := memo _ _ X2; set X4 := at_ k 0 _ X3.
have hs l : (l < N)%N -> (s l < N)%N by move=> lN; apply: sigma_lt lN => [t /andP[_ /hP]|]; lia.
have APE i j : (i < N)%N -> AP i j = A i (s j).
  by move=> iN; rewrite /AP applyPE // /applyP_entry iN.
have X1E i j : X1 i j = if (k <= i < N)%N && (j < N)%N then A j (s i) else X i j.
  rewrite /X1 /at_ leq0n andbT subn0 /fill /sub add0n; case: (leqP k i) => //= ki.
  rewrite (_ : i - k < e = (i < N))%N; last by rewrite /e; lia.
  case: (boolP ((i < N)%N && (j < N)%N)) => [/andP[_ jN]|_]; last by rewrite subnKC.
  by rewrite APE // subnKC.
have X2E i j : X2 i j = if (k <= i < N)%N && (j < N)%N then conj s A i j else X i j.
  have jE : ((s j < N) = (j < N))%N.
    case: (ltnP j N) => jN; first by rewrite hs.
    rewrite /s (@sigma_ge _ N) ?(ltnNge, jN) //; try lia.
    by move=> t /andP[_ /hP]; lia.
  rewrite /X2 /at_ leq0n andbT subn0 applyPE // /applyP_entry /sub add0n; case: (leqP k i) => //= ki; last by rewrite X1E leqNgt ki.
  rewrite (_ : i - k < e = (i < N))%N; last by rewrite /e; lia.
  rewrite !subnKC //; case: (ltnP i N) => iN; rewrite !X1E ki ?add0n -/s ?jE ?iN /=; last by rewrite ltnNge iN.
  case: (ltnP j N) => // jN.
  by rewrite /s (@sigma_ge _ N) ?jN //; try lia; move=> t /andP[_ /hP]; lia.
have X3E i j : X3 i j = X2 i j by rewrite /X3 memoE.
have Xu i j : (i < k)%N -> X3 i j = X i j by move=> ik; rewrite X3E X2E leqNgt ik.
have hd : inv_diag Unit k X3 by [].
have [fX4 eX4] := @trsm_view F NoTrans Unit e k X3 (sub k 0 X3) hd; rewrite /= in fX4 eX4.
have X4E i j : X4 i j = if (k <= i)%N then ftrsm SRight Upper NoTrans Unit e k 1 X3 (sub k 0 X3) (i - k)%N j else X3 i j.
  by rewrite /X4 /at_ andbT subn0.
pose Y : grid F := fun i j => X4 (k + i)%N j.
rewrite [X in mx e e X]/=; set Zg := memo e e _.
have ZE i j : (i < e)%N -> (j < e)%N -> Zg i j = conj s A (k + i)%N (k + j)%N - rsum k (fun t => Y i t * X t (k + j)%N).
  move=> ie je; rewrite /Zg memoE fgemmE ie je mul1r mulN1r addrC /fill ie je /=; congr (_ - _).
    rewrite /sub X4E leq_addr addKn fX4; last by lia.
    by rewrite /sub X3E X2E add0n ifT //; lia.
  by apply: eq_rsum => t tk; rewrite /sub /Y !add0n [X4 t _]X4E leqNgt tk /= Xu.
have YE i j : (i < e)%N -> (j < k)%N -> rsum k (fun t => Y i t * Up Unit X t j) = conj s A (k + i)%N j.
  move=> ie jk; have := eX4 i j ie jk; rewrite /sub X3E X2E add0n ifT; last by lia.
  move=> <-; apply: eq_rsum => t tk; rewrite /Y X4E leq_addr addKn; congr (_ * _).
  by rewrite /Up !Xu.
move: c dep {hs X1E X2E APE hP kN fX4 eX4 X4E X3E Xu hd}; move: ZE YE; move: Zg Y => Zg Y ZE YE.
by rewrite NE => c dep; apply: (luk_sim k0 c dep YE ZE).
Qed.

Lemma char_poly0 n (A : grid F) : (forall i j, (i < n)%N -> (j < n)%N -> A i j = 0) -> char_poly (mx n n A) = 'X^n.
Proof.
move=> A0; rewrite /char_poly; have -> : mx n n A = 0 by apply/matrixP => i j; rewrite !mxE A0.
by rewrite /char_poly_mx map_mx0 subr0 det_scalar.
Qed.

Lemma Poly_Xn n : Poly (rcons (nseq n 0) 1) = 'X^n :> {poly F}.
Proof.
apply/polyP => i; rewrite coef_Poly coefXn nth_rcons size_nseq nth_nseq.
by case: ltngtP => //; case: ifP.
Qed.

Definition monics (l : seq (seq F)) := all (fun p => last 0 p == 1) l.

Lemma monic_rcons (s : seq F) : last 0 (rcons s 1) == 1.
Proof. by rewrite last_rcons. Qed.

Lemma LUKrylovS n N A X v junk charp : LUKrylov bk n.+1 N A X v junk charp =
  if N == 0%N then charp else
    let mv := MatVecMinPoly_ bk N A (v N) X junk in
    let k := (size mv.1.1).-1 in
    let zero := [&& k == 1%N, nth 0 mv.1.1 0 == 0 & all (fun i => all (fun j => A i j == 0) (iota 0 N)) (iota 0 N)] in
    let minP := if zero then rcons (nseq N 0) 1 else mv.1.1 in
    let k := if zero then N else k in
    if k == N then minP :: charp
    else
      let r := luk_rest bk N k A mv.1.2 mv.2 in
      LUKrylov bk n (N - k) r.1 r.2 v junk (minP :: charp).
Proof. by rewrite {1}/LUKrylov; case: (MatVecMinPoly_ _ _ _ _ _ _) => [[p K] P]; case: (N == 0%N). Qed.

Theorem LUKrylov_ok n N A X v junk charp : (N <= n)%N ->
  (forall m, (0 < m <= N)%N -> exists2 c, (c < m)%N & v m c != 0) -> monics charp ->
  let r := LUKrylov bk n N A X v junk charp in
  \prod_(p <- r) Poly p = (\prod_(p <- charp) Poly p) * char_poly (mx N N A) /\ monics r.
Proof.
elim: n N A X charp => [|n IH] N A X charp Nn hv mc.
  have -> : N = 0%N by lia.
  by rewrite /= /char_poly det_mx00 mulr1.
rewrite LUKrylovS; case: eqP => [->|N0]; first by rewrite /char_poly det_mx00 mulr1.
have N0' : (0 < N)%N by lia.
have := MatVecMinPoly_full bk0 A (v N) X junk N0'.
case: (MatVecMinPoly_ _ _ _ _ _ _) => [[p K] P]; cbv zeta; rewrite ![(p, K, P).1]/= ![(p, K).1]/= ![(p, K).2]/= ![(p, K, P).2]/=.
move: (size p).-1 => k -[sp c [x pE dep] kp].
have k0 : (0 < k)%N by apply/kp/hv; lia.
have [[_ kN] _ _ _ _] := c.
set z := [&& _, _ & _].
case: (boolP z) => [/and3P[_ _ /allP zA]|_].
  rewrite eqxx big_cons mulrC; split; last by rewrite /= monic_rcons.
  rewrite Poly_Xn char_poly0 // => i j iN jN; apply/eqP.
  have /zA/allP : i \in iota 0 N by rewrite mem_iota.
  by apply; rewrite mem_iota.
case: eqP => kE.
  rewrite big_cons mulrC; split; last by rewrite /= pE monic_rcons.
  congr (_ * _); have NE : N = (k + 0)%N by lia.
  move: (v N) c dep => w; rewrite NE => c dep.
  rewrite (@luk_sim k 0 A w K P x (fun _ _ => 0) (fun _ _ => 0) k0 c dep) //.
  by rewrite /char_poly det_mx00 mulr1 pE.
have kN' : (0 < k < N)%N by lia.
have := luk_rest_ok kN' c dep; rewrite -pE => ->; case: (luk_rest _ _ _ _ _ _) => A' X'.
case: (@IH (N - k)%N A' X' (p :: charp)) => [|m mN||e h]; [by lia|by apply: hv; lia|by rewrite /= pE monic_rcons|].
by split=> //; rewrite e big_cons mulrA [Poly p * _]mulrC.
Qed.

(** ** The product of the factors, CharPoly *)
Lemma mulpE (p q : seq F) : last 0 p != 0 -> last 0 q != 0 -> mulp p q = Poly p * Poly q :> seq F.
Proof.
move=> p0 q0.
have [sp sq] : Poly p = p :> seq F /\ Poly q = q :> seq F by rewrite !(PolyK (c := 0)).
have [Np Nq] : Poly p != 0 /\ Poly q != 0.
  by split; rewrite -lead_coef_eq0 lead_coefE ?sp ?sq nth_last.
apply: (@eq_from_nth _ 0) => [|i].
  by rewrite size_map size_iota size_mul // sp sq.
rewrite size_map size_iota => ip; rewrite (nth_map 0%N) ?size_iota // nth_iota // add0n.
by rewrite coefM rsumE; apply: eq_bigr => l _; rewrite !coef_Poly.
Qed.

Lemma mulp_last (p q : seq F) : last 0 p == 1 -> last 0 q == 1 -> last 0 (mulp p q) == 1.
Proof.
move=> p1 q1.
have [p0 q0] : last 0 p != 0 /\ last 0 q != 0 by rewrite (eqP p1) (eqP q1) oner_eq0.
rewrite (mulpE p0 q0) -nth_last -lead_coefE lead_coefM !lead_coefE !nth_last !(PolyK (c := 0)) //.
by rewrite (eqP p1) (eqP q1) mulr1.
Qed.

Lemma foldl_mulp (l : seq (seq F)) f : last 0 f == 1 -> monics l ->
  last 0 (foldl (@mulp F) f l) == 1 /\ Poly (foldl (@mulp F) f l) = Poly f * \prod_(p <- l) Poly p.
Proof.
elim: l f => [|p l IH] f f1 /=; first by rewrite big_nil mulr1.
case/andP=> p1 ml; have [h1 h2] := IH _ (mulp_last f1 p1) ml; split=> //.
rewrite h2 big_cons mulrA; congr (_ * _); rewrite mulpE ?(eqP f1) ?(eqP p1) ?oner_eq0 //.
by rewrite polyseqK.
Qed.

Lemma Danilevski_monics N A : monics (Danilevski N A).
Proof.
rewrite /Danilevski; elim: {1}N => [|n IH] //.
rewrite iteriS; move: IH; case: (iteri n _ _) => [[B d] cs] /= IH.
by case: ltnP => _ //=; rewrite IH /dani_block monic_rcons.
Qed.

Theorem CharPoly_ok tag p deg N A X v junk s :
  (forall m, (0 < m <= N)%N -> exists2 c, (c < m)%N & v m c != 0) ->
  CharPoly bk tag p deg N A X v junk = Some s -> s = char_poly (mx N N A).
Proof.
move=> hv; rewrite /CharPoly; case: eqP => [->|N0].
  by case=> <-; rewrite /char_poly det_mx00 polyseq1.
have D : \prod_(p <- Danilevski N A) Poly p = char_poly (mx N N A) /\ monics (Danilevski N A).
  by split; [exact: Danilevski_ok | exact: Danilevski_monics].
have [K1 K2] := @LUKrylov_ok N N A X v junk [::] (leqnn _) hv isT; rewrite big_nil mul1r in K1.
have fin l : \prod_(p <- l) Poly p = char_poly (mx N N A) /\ monics l ->
  (if Some l is Some (f :: l) then Some (foldl (@mulp F) f l) else None) = Some s -> s = char_poly (mx N N A).
  case: l => [|f l] [h1] //= /andP[f1 ml] [<-].
  have [g1 g2] := foldl_mulp f1 ml; rewrite -h1 big_cons -g2 (PolyK (c := 0)) // (eqP g1) oner_neq0 //.
rewrite /CharPoly_list; case: tag => /=; [case: ifP => _| | |]; do ?[case: ifP => _ //]; by apply: fin.
Qed.

(** ** Divisibility *)
Lemma kry_mx n A (v : nat -> F) i : let N := n.+1 in
  mx N N A ^+ i *m mx N 1 (fun r _ => v r) = mx N 1 (fun r _ => kry N A v i r).
Proof.
move=> N; elim: i => [|i IH]; first by rewrite expr0 mul1mx.
by rewrite exprS -mulmxE -mulmxA IH mxM; apply/matrixP => r c; rewrite !mxE.
Qed.

Lemma annulsE n A v p : let N := n.+1 in
  annuls N A v p <-> horner_mx (mx N N A) (Poly p) *m mx N 1 (fun r _ => v r) = 0.
Proof.
move=> N.
have -> : Poly p = \sum_(i < size p) nth 0 p i *: 'X^i.
  rewrite -(poly_def (size p) (fun i => nth 0 p i)); apply/polyP => i; rewrite coef_Poly coef_poly.
  by case: ltnP => // h; rewrite nth_default.
have E : horner_mx (mx N N A) (\sum_(i < size p) nth 0 p i *: 'X^i) *m mx N 1 (fun r _ => v r) =
  mx N 1 (fun r _ => \sum_(i < size p) nth 0 p i * kry N A v i r).
  rewrite rmorph_sum mulmx_suml; apply/matrixP => r c; rewrite summxE mxE; apply: eq_bigr => i _.
  by rewrite linearZ /= rmorphX /= horner_mx_X -scalemxAl mxE kry_mx mxE.
rewrite E; split=> [h|/matrixP h r rN].
  by apply/matrixP => r c; rewrite !mxE h.
by have := h (Ordinal rN) 0; rewrite !mxE.
Qed.

(** The annihilating polynomials of v are the multiples of the one computed. *)
Lemma vec_minpoly_dvd N A v p q : (0 < N)%N -> vec_minpoly N A v p ->
  (annuls N A v q <-> Poly p %| Poly q).
Proof.
case: N => // n _ [p1 ap mp].
have p0 : Poly p != 0.
  by rewrite -lead_coef_eq0 lead_coefE (PolyK (c := 0)) ?nth_last p1 oner_eq0.
have sp : size (Poly p) = size p by rewrite (PolyK (c := 0)) ?p1 ?oner_eq0.
have mulA a b : horner_mx (mx n.+1 n.+1 A) a *m mx n.+1 1 (fun r _ => v r) = 0 ->
  horner_mx (mx n.+1 n.+1 A) (b * a) *m mx n.+1 1 (fun r _ => v r) = 0.
  by move=> h; rewrite rmorphM /= -mulmxE -mulmxA h mulmx0.
split=> [/annulsE aq|/dvdpP[d e]]; last first.
  by apply/annulsE; rewrite e; apply: mulA; apply/annulsE.
rewrite /dvdp; set r := Poly q %% Poly p; apply/eqP.
have rE : r = Poly q - (Poly q %/ Poly p) * Poly p by rewrite [X in X - _](divp_eq _ (Poly p)) addrC addKr.
have ar : annuls n.+1 A v r.
  apply/annulsE; rewrite polyseqK rE rmorphB mulmxBl aq sub0r; apply/eqP; rewrite oppr_eq0; apply/eqP.
  by apply: mulA; apply/annulsE.
have sr : (size r < size p)%N by rewrite -sp ltn_modp.
by apply/polyP => i; rewrite (mp _ sr ar) coef0.
Qed.

Theorem MinPoly_dvd n A v K P : Poly (MinPoly bk n.+1 A v K P) %| mxminpoly (mx n.+1 n.+1 A).
Proof.
set N := n.+1; have h := @MatVecMinPoly_ok F bk bk0 N A v K P isT.
have := (vec_minpoly_dvd (mxminpoly (mx N N A)) (ltn0Sn n) h).1; rewrite polyseqK; apply.
by apply/annulsE; rewrite polyseqK mx_root_minpoly mul0mx.
Qed.

Theorem MatVecMinPoly_ideal N A v K P q : (0 < N)%N ->
  (annuls N A v q <-> Poly (MatVecMinPoly bk N A v K P) %| Poly q).
Proof. by move=> N0; apply: vec_minpoly_dvd => //; exact: MatVecMinPoly_ok. Qed.

Theorem LUKrylov_prod N A X v junk :
  (forall m, (0 < m <= N)%N -> exists2 c, (c < m)%N & v m c != 0) ->
  \prod_(p <- LUKrylov bk N N A X v junk [::]) Poly p = char_poly (mx N N A).
Proof. by move=> hv; case: (@LUKrylov_ok N N A X v junk [::] (leqnn _) hv isT) => -> _; rewrite big_nil mul1r. Qed.
End Luk.

Lemma CharPoly_none (F : fieldType) bk (bk0 : (0 < bk)%N) tag p deg N (A : grid F) X v junk :
  (forall m, (0 < m <= N)%N -> exists2 c, (c < m)%N & v m c != 0) ->
  CharPoly bk tag p deg N A X v junk = None ->
  (p >= N)%N /\ (tag = TagArithProgKrylovPrecond \/ tag = TagAuto /\ (deg <= N)%N).
Proof.
move=> hv; rewrite /CharPoly; case: eqP => // N0.
have ne l : \prod_(p <- l) Poly p = char_poly (mx N N A) ->
    (if Some l is Some (f :: l) then Some (foldl (@mulp F) f l) else None) <> None.
  case: l => // /(congr1 (fun p : {poly F} => size p)); rewrite big_nil size_poly1 size_char_poly => -[] /esym.
  by move/N0.
have D := @Danilevski_ok F N A; have K := LUKrylov_prod bk0 A X junk hv.
rewrite /CharPoly_list; case: tag => /=.
- by case: ltnP => dN; [move/(ne _ D)|case: ltnP => pN; [move/(ne _ K)|split=> //; right]].
- by move/(ne _ D).
- by move/(ne _ K).
- by case: ltnP => pN; [move/(ne _ K)|split=> //; left].
Qed.

(** The examples *)
From Verif Require Import Lit.
Definition D2 : grid 'F_7 := gl 7 [:: [:: 1; 0]; [:: 0; 2]]%N.
Definition dirt : grid 'F_7 := fun i j => (i + 3)%:R.
Definition dirtP : nat -> nat := fun=> 9%N.

Lemma MinPoly_one_vector : exists v w, v 0%N != 0 /\
  ~ annuls 2 D2 w (MinPoly 1 2 D2 v dirt dirtP).
Proof.
exists (fun i => (i == 0%N)%:R), (fun i => (i == 1%N)%:R); split; first by vm_compute.
have -> : MinPoly 1 2 D2 (fun i => (i == 0%N)%:R) dirt dirtP = [:: 6%:R; 1] by apply/eqP; vm_compute.
by move/(_ 1%N isT); rewrite !big_ord_recl big_ord0 => /eqP; vm_compute.
Qed.
