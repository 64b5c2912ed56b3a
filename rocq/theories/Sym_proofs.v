From mathcomp Require Import all_ssreflect all_algebra zify ring.
From Verif Require Import Grid Perm_model Perm_spec Tri_model Tri_spec Tri_proofs Sym_model Sym_spec.
Set Implicit Arguments.
Unset Strict Implicit.
Unset Printing Implicit Defensive.
Import GRing.Theory.
Local Open Scope ring_scope.

Section Sym.
Variable F : fieldType.
Implicit Types A B C D : grid F.

(** ** Loops *)
Lemma row_loop i s n (g : nat -> F -> F) C r c :
  iteri n (fun x C => upd C i (s + x)%N (g (s + x)%N (C i (s + x)%N))) C r c =
  if (r == i) && (s <= c < s + n)%N then g c (C r c) else C r c.
Proof.
elim: n r c => [|n IH] r c /=; first by case: ifP => //; lia.
rewrite /upd !IH; case: (altP (r =P i)) => [->|] //=.
case: (altP (c =P (s + n)%N)) => [->|ne] /=.
  by rewrite eqxx /= ltnn leq_addr andbF /= addnS ltnSn.
by rewrite addnS ltnS [(c <= _)%N]leq_eqVlt (negbTE ne).
Qed.

Lemma outer_loop m (f : nat -> grid F -> grid F) (P : nat -> nat -> bool) (g : nat -> nat -> F -> F) C r c :
  (forall i C r c, (i < m)%N -> f i C r c = if (r == i) && P i c then g i c (C r c) else C r c) ->
  iteri m f C r c = if (r < m)%N && P r c then g r c (C r c) else C r c.
Proof.
elim: m r c => [|m IH] r c //= H.
have IH' r' c' : iteri m f C r' c' = if (r' < m)%N && P r' c' then g r' c' (C r' c') else C r' c'.
  by apply: IH => i C' r1 c1 im; apply: H; lia.
rewrite H ?ltnSn // !IH'; case: (altP (r =P m)) => [->|ne] /=; first by rewrite ltnn leqnn.
by rewrite [(r < m.+1)%N]ltnS [(r <= m)%N]leq_eqVlt (negbTE ne).
Qed.

Lemma fsyrk_defaultE u t N K al A be C i j :
  fsyrk_default u t N K al A be C i j =
  if [&& i < N, j < N & in_tri u i j]%N then be * C i j + al * rsum K (fun l => optr t A i l * optr t A j l) else C i j.
Proof.
rewrite /fsyrk_default memoE.
pose g i j x := be * x + al * rsum K (fun l => optr t A i l * optr t A j l).
rewrite (outer_loop (P := fun i j => (j < N)%N && in_tri u i j) (g := g)) // => {}i {}C r c iN.
case: u.
  by rewrite (row_loop i i _ (g i)) /=; congr (if _ then _ else _); lia.
by rewrite (row_loop i 0 i.+1 (g i)); congr (if _ then _ else _); rewrite /in_tri; case: (altP (r =P i)) => // _; lia.
Qed.

Lemma gramE' t K A i j : gram t K A i j = rsum K (fun l => optr t A i l * optr t A j l).
Proof. by rewrite rsumE. Qed.

Lemma fsyrk_default_ok u t N K al A be C :
  let X := fsyrk_default u t N K al A be C in
  tri_update u N al (gram t K A) be C X /\ tri_only u N C X.
Proof.
split=> [i j iN jN ij|i j ne]; rewrite fsyrk_defaultE ?iN ?jN ?ij /= ?gramE' ?(addrC (al * _)) //.
by rewrite (negbTE ne).
Qed.

Lemma fsyrk_ok u t N K al A be C :
  tri_update u N al (gram t K A) be C (fsyrk u t N K al A be C).
Proof.
rewrite /fsyrk; case: eqP => [->|N0] //; case: ifP => [KA|_]; last first.
  by have [] := fsyrk_default_ok u t N K al A be C.
move=> i j iN jN ij; rewrite fscalinE iN jN /= gramE'.
by case/orP: KA => /eqP->; rewrite ?mul0r ?add0r //= mulr0 add0r.
Qed.

Lemma fsyrk_only u t N K al A be C : (0 < K)%N -> al != 0 ->
  tri_only u N C (fsyrk u t N K al A be C).
Proof.
move=> K0 al0; rewrite /fsyrk; case: eqP => [->|N0] //.
by rewrite eqn0Ngt K0 (negbTE al0) /=; have [] := fsyrk_default_ok u t N K al A be C.
Qed.

Lemma fsyrk_delayed_ok u t N K al A be C :
  tri_update u N al (gram t K A) be C (fsyrk_delayed u t N K al A be C).
Proof.
rewrite /fsyrk_delayed; case: eqP => [->|N0] //; case: ifP => [KA|KA].
  have H := @fsyrk_ok u t N K al A be C.
  by move=> i j iN jN ij; rewrite -H // /fsyrk KA; case: eqP.
case gen: ((al != 1) && (al != -1)); last by have [] := fsyrk_default_ok u t N K al A be C.
move=> i j iN jN ij; rewrite fscalinE iN jN /=.
have [H _] := fsyrk_default_ok u t N K 1 A (be / al) C.
rewrite H // mul1r mulrDr mulrA mulrCA mulfV ?mulr1 //.
by move: KA => /negbT; rewrite negb_or => /andP[].
Qed.

Lemma fsyrk_delayed_only u t N K al A be C : (0 < K)%N -> al = 1 \/ al = -1 ->
  tri_only u N C (fsyrk_delayed u t N K al A be C).
Proof.
move=> K0 al1; rewrite /fsyrk_delayed; case: eqP => [->|N0] //.
have al0 : al != 0 by case: al1 => ->; rewrite ?oppr_eq0 oner_eq0.
rewrite eqn0Ngt K0 (negbTE al0) /=.
have -> : (al != 1) && (al != -1) = false by case: al1 => ->; rewrite eqxx ?andbF.
by have [] := fsyrk_default_ok u t N K al A be C.
Qed.

Lemma fsyrk_convert_ok u t N K al A be junk C :
  tri_update u N al (gram t K A) be C (fsyrk_convert u t N K al A be junk C).
Proof.
rewrite /fsyrk_convert; case: eqP => [->|N0] //; case: ifP => [KA|KA].
  have H := @fsyrk_ok u t N K al A be C.
  by move=> i j iN jN ij; rewrite -H // /fsyrk KA; case: eqP.
move=> i j iN jN ij; rewrite {1}/fill iN jN /= fsyrk_delayed_ok //.
case: (altP (be =P 0)) => [->|_] /=; first by rewrite !mul0r.
by rewrite /fill iN jN.
Qed.

Lemma fsyrk_convert_frame u t N K al A be junk C : frame N N (fsyrk_convert u t N K al A be junk C) C.
Proof.
move=> i j ne; rewrite /fsyrk_convert; case: eqP => // _; case: ifP => _.
  by rewrite fscalinE (negbTE ne).
by rewrite /fill (negbTE ne).
Qed.

Lemma optr_flip t B i j : optr (flip t) B i j = optr t B j i.
Proof. by case: t. Qed.

Lemma cross_gemm t m n k al A B be C i j : (i < m)%N -> (j < n)%N ->
  fgemm t (flip t) m n k al A B be C i j = al * cross t k A B i j + be * C i j.
Proof.
move=> im jn; rewrite fgemmE im jn /= /cross; congr (_ * _ + _); rewrite -(rsumE k (fun l => optr t A i l * optr t B j l)).
by apply: eq_rsum => l _; rewrite optr_flip.
Qed.

Lemma fgemm_out ta tb m n k al A B be C i j : ~~ ((i < m) && (j < n))%N ->
  fgemm ta tb m n k al A B be C i j = C i j.
Proof. by move=> ne; rewrite fgemmE (negbTE ne). Qed.

Lemma fsyrk_dcE r u t N K al A be C i j :
  fsyrk_dc r u t N K al A be C i j =
  if [&& i < N, j < N & in_tri u i j]%N then be * C i j + al * rsum K (fun l => optr t A i l * optr t A j l) else C i j.
Proof.
elim: r N A C i j => [|r IH] N A C i j; first exact: fsyrk_defaultE.
rewrite [fsyrk_dc r.+1]lock /= -lock /=.
have N1 : (N./2 <= N)%N by lia.
have S k l : (N./2 <= k)%N -> optr t (subop t N./2 0 A) (k - N./2)%N l = optr t A k l.
  by move=> le; rewrite optr_subop subnKC.
pose V i j := be * C i j + al * rsum K (fun l => optr t A i l * optr t A j l).
set C2 := at_ _ _ (fsyrk_dc _ _ _ _ _ _ _ _) _.
have C2E i' j' : C2 i' j' = if [&& i' < N, j' < N, in_tri u i' j' & (N./2 <= i') == (N./2 <= j')]%N then V i' j' else C i' j'.
  rewrite /C2 /at_; case: (leqP N./2 i') => i1; case: (leqP N./2 j') => j1; rewrite /= ?IH /sub ?IH ?subnKC //.
  - have -> : (i' < N./2)%N = false by lia.
    have -> : [&& i' - N./2 < N - N./2, j' - N./2 < N - N./2 & in_tri u (i' - N./2) (j' - N./2)]%N =
              [&& i' < N, j' < N, in_tri u i' j' & true == true]%N.
      by case: (u); rewrite /in_tri; lia.
    rewrite /V; case: ifP => // _; congr (_ + _ * _).
    by apply: eq_rsum => l _; rewrite !S.
  - by rewrite (leq_gtF i1) /= !andbF.
  - by rewrite (leq_gtF j1) /= !andbF.
  - by rewrite (_ : [&& _, _, _ & _] = [&& i' < N./2, j' < N./2 & in_tri u i' j']%N) //; lia.
have -> : (match u with Upper => at_ 0 N./2 (fgemm t (flip t) N./2 (N - N./2) K al A (subop t N./2 0 A) be) C2
  | Lower => at_ N./2 0 (fgemm t (flip t) (N - N./2) N./2 K al (subop t N./2 0 A) A be) C2 end) i j =
  if [&& i < N, j < N, in_tri u i j & (N./2 <= i) != (N./2 <= j)]%N then V i j else C2 i j.
  clearbody C2; move: C2E; case: (u) => /= C2E.
    rewrite /at_ /= fgemmE; case: (leqP N./2 j) => j1; last first.
      by rewrite (_ : [&& _, _, _ & _] = false) //; lia.
    rewrite (_ : [&& i < N, _, _ & _] = (i - 0 < N./2) && (j - N./2 < N - N./2))%N; last lia.
    rewrite subn0 /sub add0n subnKC //; case: ifP => // cond.
    rewrite C2E /V (_ : [&& _, _, _ & _] = false) 1?addrC; last lia.
    by congr (_ + _ * _); apply: eq_rsum => l _; rewrite optr_flip S.
  rewrite /at_ andbT /= fgemmE; case: (leqP N./2 i) => i1; last first.
    by rewrite (_ : [&& _, _, _ & _] = false) //; lia.
  rewrite (_ : [&& i < N, _, _ & _] = (i - N./2 < N - N./2) && (j - 0 < N./2))%N; last lia.
  rewrite subn0 /sub add0n subnKC //; case: ifP => // cond.
  rewrite C2E /V (_ : [&& _, _, _ & _] = false) 1?addrC; last lia.
  by congr (_ + _ * _); apply: eq_rsum => l _; rewrite optr_flip S.
rewrite C2E /V; case: (i < N)%N (j < N)%N (in_tri u i j) => [] [] [] //=.
by case: eqP.
Qed.

Lemma fsyrk_dc_ok r u t N K al A be C :
  let X := fsyrk_dc r u t N K al A be C in
  tri_update u N al (gram t K A) be C X /\ tri_only u N C X.
Proof.
split=> [i j iN jN ij|i j ne]; rewrite fsyrk_dcE ?iN ?jN ?ij /= ?gramE' ?(addrC (al * _)) //.
by rewrite (negbTE ne).
Qed.

(** ** With a diagonal *)
Lemma fillopE t N K g A i l :
  optr t (fillop t N K g A) i l = if ((i < N) && (l < K))%N then g i l else optr t A i l.
Proof. by case: t; rewrite /= /tr memoE /fill // andbC. Qed.

Lemma optr_atop t N1 X A i l :
  optr t (atop t N1 0 (fun _ => X) A) i l = if (N1 <= i)%N then optr t X (i - N1)%N l else optr t A i l.
Proof. by case: t; rewrite /= /tr /at_ /= ?subn0 ?andbT. Qed.

Lemma sum_dmx K (D : nat -> F) (f : nat -> F) l : (l < K)%N ->
  \sum_(m < K) f m * dmx D m l = f l * D l.
Proof.
move=> lK; rewrite (bigD1 (Ordinal lK)) //= big1 ?addr0 /dmx ?eqxx // => m ne.
by rewrite ifN ?mulr0.
Qed.

(** What one call does, E being the block diagonal matrix. *)
Definition syrkE_post u t N K al A (E : grid F) be C A' C' : Prop :=
  [/\ tri_update u N al (gramE t K A E) be C C', frame N N C' C & scaled_by t N K E A A'].

(** The recursion on the rows of op(A), for both versions. *)
Lemma syrkE_base u t N K al A (E : grid F) be junk C (X : grid F) :
  (forall l m, E l m = E m l) ->
  (forall i l, (l < K)%N -> X i l = \sum_(m < K) optr t A i m * E m l) ->
  syrkE_post u t N K al A E be C (fillop t N K X A)
    (fgemm t (flip t) N N K al (fillop t N K X A) (fillop t N K (optr t A) junk) be C).
Proof.
move=> symE XE; split.
- move=> i j iN jN ij; rewrite cross_gemm //; congr (_ * _ + _).
  rewrite /cross /gramE exchange_big /=; apply: eq_bigr => l _.
  rewrite !fillopE iN jN ltn_ord /= XE // mulr_suml; apply: eq_bigr => m _; ring.
- by move=> i j ne; rewrite fgemm_out.
- by move=> i l; rewrite fillopE; case: ifP => // /andP[_ lK]; rewrite XE.
Qed.

Lemma gramE_cross t K A (E : grid F) (T : grid F) i j i' :
  (forall l m, E l m = E m l) ->
  (forall l, (l < K)%N -> optr t T i' l = \sum_(m < K) optr t A i m * E m l) ->
  gramE t K A E j i = \sum_(l < K) optr t A j l * optr t T i' l.
Proof.
move=> symE TE; apply: eq_bigr => l _; rewrite TE // mulr_sumr.
by apply: eq_bigr => m _; rewrite symE; ring.
Qed.

Lemma gramE_sym t K A (E : grid F) i j : (forall l m, E l m = E m l) -> gramE t K A E i j = gramE t K A E j i.
Proof.
move=> symE; rewrite /gramE exchange_big /=; apply: eq_bigr => l _; apply: eq_bigr => m _.
by rewrite symE; ring.
Qed.

Lemma syrkE_rec u t N N1 K al A (E : grid F) be C temp A' C2 A2' C22 :
  (N1 <= N)%N -> (forall l m, E l m = E m l) ->
  (forall i l, (i < N - N1)%N -> (l < K)%N ->
     optr t temp i l = \sum_(m < K) optr t (subop t N1 0 A) i m * E m l) ->
  let C1 := match u with
    | Upper => at_ 0 N1 (fgemm t (flip t) N1 (N - N1) K al A temp be) C
    | Lower => at_ N1 0 (fgemm t (flip t) (N - N1) N1 K al temp A be) C end in
  syrkE_post u t N1 K al A E be C1 A' C2 ->
  syrkE_post u t (N - N1) K al (subop t N1 0 A') E be (sub N1 N1 C2) A2' C22 ->
  syrkE_post u t N K al A E be C (atop t N1 0 (fun _ => A2') A') (at_ N1 N1 (fun _ => C22) C2).
Proof.
move=> leN symE tempE C1 [U1 F1 S1] [U2 F2 S2].
have tE i l : (N1 <= i < N)%N -> (l < K)%N -> optr t temp (i - N1)%N l = \sum_(m < K) optr t A i m * E m l.
  by move=> iN lK; rewrite tempE //; [apply: eq_bigr => m _; rewrite optr_subop subnKC //; lia|lia].
have A'out i l : (N1 <= i)%N -> optr t A' i l = optr t A i l.
  by move=> i1; rewrite S1 (leq_gtF i1).
have C1E i j : C1 i j = if [&& i < N, j < N, in_tri u i j & (N1 <= i) != (N1 <= j)]%N
    then al * gramE t K A E i j + be * C i j else C i j.
  rewrite /C1; case: (u) => /=; rewrite /at_ /= ?andbT.
    case: (leqP N1 j) => j1; last by rewrite (_ : [&& _, _, _ & _] = false) //; lia.
    rewrite fgemmE (_ : [&& i < N, _, _ & _] = (i - 0 < N1) && (j - N1 < N - N1))%N; last lia.
    rewrite subn0 /sub add0n subnKC //; case: ifP => // cond.
    rewrite (@gramE_cross t K A E temp j i (j - N1)%N) //; last first.
      by move=> l lK; rewrite tE //; lia.
    congr (_ * _ + _); rewrite -(rsumE K (fun l => optr t A i l * optr t temp (j - N1)%N l)).
    by apply: eq_rsum => l _; rewrite optr_flip.
  case: (leqP N1 i) => i1; last by rewrite (_ : [&& _, _, _ & _] = false) //; lia.
  rewrite fgemmE (_ : [&& i < N, _, _ & _] = (i - N1 < N - N1) && (j - 0 < N1))%N; last lia.
  rewrite subn0 /sub add0n subnKC //; case: ifP => // cond.
  rewrite gramE_sym // (@gramE_cross t K A E temp i j (i - N1)%N) //; last first.
    by move=> l lK; rewrite tE //; lia.
  congr (_ * _ + _); rewrite -(rsumE K (fun l => optr t A j l * optr t temp (i - N1)%N l)).
  by apply: eq_rsum => l _; rewrite optr_flip mulrC.
have G i j : (N1 <= i)%N -> (N1 <= j)%N -> gramE t K (subop t N1 0 A') E (i - N1)%N (j - N1)%N = gramE t K A E i j.
  move=> i1 j1; apply: eq_bigr => l _; apply: eq_bigr => m _.
  by rewrite !optr_subop !subnKC // !A'out.
split.
- move=> i j iN jN ij; rewrite /at_.
  case: (leqP N1 i) => i1; case: (leqP N1 j) => j1 /=.
  + rewrite U2; [|lia|lia|by move: ij; case: (u) => /=; lia].
    rewrite G // /sub !subnKC // F1 ?C1E; last lia.
    by rewrite i1 j1 eqxx !andbF.
  + by rewrite F1 ?C1E; [rewrite iN jN ij i1 (ltn_geF j1)|lia].
  + by rewrite F1 ?C1E; [rewrite iN jN ij j1 (ltn_geF i1)|lia].
  + by rewrite U1 // C1E (ltn_geF i1) (ltn_geF j1) eqxx !andbF.
- move=> i j ne; rewrite /at_; case: ifP => [/andP[i1 j1]|n1].
    rewrite F2; last lia.
    rewrite /sub !subnKC // F1; last lia.
    by rewrite C1E i1 j1 eqxx !andbF.
  rewrite F1 ?C1E; last lia.
  by rewrite (_ : [&& _, _, _ & _] = false) //; apply/negP => /and4P[iN jN _ _]; move: ne; rewrite iN jN.
- move=> i l; rewrite optr_atop; case: (leqP N1 i) => i1.
    rewrite S2 (_ : (i - N1 < N - N1)%N = (i < N)%N); last lia.
    case: ifP => _; last by rewrite optr_subop subnKC // A'out.
    by apply: eq_bigr => m _; rewrite optr_subop subnKC // A'out.
  by rewrite S1 i1 (_ : (i < N)%N) //; lia.
Qed.

Lemma dmx_sym (D : nat -> F) l m : dmx D l m = dmx D m l.
Proof. by rewrite /dmx eq_sym; case: eqP => [->|]. Qed.

Lemma fsyrk_d_ok n u t N K al A (D : nat -> F) be junk C th : (N < n)%N -> (0 < th)%N ->
  exists A' C', fsyrk_d n u t N K al A D be junk C th = Some (A', C') /\
    syrkE_post u t N K al A (dmx D) be C A' C'.
Proof.
elim: n N A C => [//|n IH] N A C Nn th0 /=.
case: leqP => Nth.
  do 2 eexists; split; first by reflexivity.
  apply: syrkE_base; first exact: dmx_sym.
  by move=> i l lK; rewrite sum_dmx // mulrC.
have [|//|A' [C2 [-> P1]]] := IH N./2 A (match u with
    | Upper => at_ 0 N./2 (fgemm t (flip t) N./2 (N - N./2) K al A (fillop t (N - N./2) K (fun i l => D l * optr t (subop t N./2 0 A) i l) junk) be) C
    | Lower => at_ N./2 0 (fgemm t (flip t) (N - N./2) N./2 K al (fillop t (N - N./2) K (fun i l => D l * optr t (subop t N./2 0 A) i l) junk) A be) C end); first lia.
have [|//|A2' [C22 [-> P2]]] := IH (N - N./2)%N (subop t N./2 0 A') (sub N./2 N./2 C2); first lia.
do 2 eexists; split; first by reflexivity.
apply: syrkE_rec P1 P2; [lia|exact: dmx_sym|].
by move=> i l iN lK; rewrite fillopE iN lK /= sum_dmx // mulrC.
Qed.

(** ** With 2x2 blocks *)
Lemma bmx_sym K tb (D : nat -> F) l m : blocks_ok K tb -> bmx tb D l m = bmx tb D m l.
Proof.
move=> [_ ok].
wlog lm : l m / (l < m)%N.
  by move=> H; case: (ltngtP l m) => [/H//|/H//|->].
have prev k : nth false tb k -> nth false tb k.-1 -> (k == 0)%N.
  by case: k => [|k] //= h h2; have [_] := ok _ h2; rewrite h.
rewrite /bmx.
have -> : (m == l) = false by lia.
have -> : (l == m.+1) = false by lia.
have -> : (l == m) = false by lia.
case: (altP (m =P l.+1)) => [mE|ne].
  rewrite mE /= eqxx; case: ifP => h1.
    by have [_ ->] := ok _ h1.
  by case: ifP => _; case: ifP => h2 //; case: ifP => //; lia.
have -> : (m == l.-1) = false by lia.
have -> : (l == m.-1) = false by lia.
by do !case: ifP.
Qed.

Lemma sum_bmx K tb (D : nat -> F) (f : nat -> F) l : blocks_ok K tb -> (l < K)%N ->
  \sum_(m < K) f m * bmx tb D m l =
  if nth false tb l then f l.+1 * D l
  else if (0 < l)%N && nth false tb l.-1 then f l.-1 * D l.-1 else f l * D l.
Proof.
move=> ok lK; under eq_bigr => m _ do rewrite (bmx_sym D m l ok).
have one k x (kK : (k < K)%N) : \sum_(m < K) f m * (if m == k :> nat then x else 0) = f k * x.
  rewrite (bigD1 (Ordinal kK)) //= eqxx big1 ?addr0 // => m ne.
  by rewrite ifN ?mulr0.
rewrite /bmx; case: ifP => h1; last case: ifP => h2; rewrite one //; first by have [] := (proj2 ok) _ h1.
by lia.
Qed.

Lemma two_cols_ok n K tb (D : nat -> F) i (X Y : grid F) : blocks_ok K tb ->
  (K - i < n)%N -> (i == 0)%N || ~~ nth false tb i.-1 ->
  exists2 Z, two_cols n tb D K i X Y = Some Z &
    forall r c, Z r c = if (i <= c < K)%N then \sum_(m < K) X r m * bmx tb D m c else Y r c.
Proof.
move=> ok; elim: n i Y => [//|n IH] i Y ni st /=.
case: leqP => iK; first by exists Y => // r c; case: ifP => //; lia.
have -> : (size tb <= i)%N = false by rewrite (proj1 ok); lia.
case: ifP => h1 /=.
  have [||Z -> ZE] := IH i.+1 (fun r c => if c == i then D i * X r i else Y r c); [lia|by []|].
  exists Z => // r c; rewrite ZE.
  case: (altP (c =P i)) => [->|ne].
    rewrite ltnn leqnn iK /= sum_bmx // ?(negbTE h1).
    by case: ifP => [h2|_]; [move: st; case: (i) h2 => //= k -> |rewrite mulrC].
  by rewrite (_ : (i <= c)%N = (i < c)%N) //; lia.
have [iK2 h2] := (proj2 ok) _ (negbFE h1).
rewrite (ltn_geF iK2).
have [||Z -> ZE] := IH i.+2 (fun r c => if c == i then D i * X r i.+1 else if c == i.+1 then D i * X r i else Y r c);
  [lia|by rewrite /= h2|].
exists Z => // r c; rewrite ZE.
case: (altP (c =P i)) => [->|ne].
  by rewrite (_ : (i.+2 <= i)%N = false) ?leqnn ?iK /= ?sum_bmx // ?(negbFE h1) 1?mulrC //; lia.
case: (altP (c =P i.+1)) => [->|ne2].
  by rewrite ltnn leqnSn iK2 /= sum_bmx // h2 /= (negbFE h1) mulrC.
by rewrite (_ : (i <= c)%N = (i.+1 < c)%N) //; lia.
Qed.

Local Arguments two_cols : simpl never.

Lemma fsyrk_2_ok n u t N K al A (D : nat -> F) tb be junk C th : blocks_ok K tb ->
  (N < n)%N -> (1 < th)%N -> (N <= th)%N || (N./2 <= K)%N ->
  exists A' C', fsyrk_2 n u t N K al A D tb be junk C th = Some (A', C') /\
    syrkE_post u t N K al A (bmx tb D) be C A' C'.
Proof.
move=> ok; have symE l m := bmx_sym D l m ok.
elim: n N A C => [//|n IH] N A C Nn th0 NK /=.
case: (leqP N th) => Nth.
  have [|//|X -> XE] := @two_cols_ok K.+1 K tb D 0 (optr t A) (optr t A) ok; first lia.
  do 2 eexists; split; first by reflexivity.
  by apply: syrkE_base => // i l lK; rewrite XE lK.
rewrite (ltn_geF Nth) /= in NK.
have -> : (N./2 == 0)%N || (size tb < N./2)%N = false by rewrite (proj1 ok); lia.
set N1 := if _ then _ else _.
have N1E : (N1 = N./2 \/ N1 = N./2.+1)%N by rewrite /N1; case: ifP => _; [right|left].
clearbody N1.
have [|//|X -> XE] := @two_cols_ok K.+1 K tb D 0 (optr t (subop t N1 0 A)) (optr t junk) ok; first lia.
set C1 := match u with Upper => _ | Lower => _ end.
have [|//||A' [C2 [-> P1]]] := IH N1 A C1; try lia.
have [|//||A2' [C22 [-> P2]]] := IH (N - N1)%N (subop t N1 0 A') (sub N1 N1 C2); try lia.
do 2 eexists; split; first by reflexivity.
apply: syrkE_rec P1 P2 => //; [lia|].
by move=> i l iN lK; rewrite fillopE iN lK /= XE lK.
Qed.

(** The row split reads past a short vector of blocks. *)
Lemma fsyrk_2_oob n u t N K al A (D : nat -> F) tb be junk C th :
  (th < N)%N -> (size tb < N./2)%N ->
  fsyrk_2 n u t N K al A D tb be junk C th = None.
Proof. by case: n => //= n thN short; rewrite (ltn_geF thN) short orbT. Qed.
End Sym.
