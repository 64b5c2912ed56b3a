From mathcomp Require Import all_ssreflect all_algebra zify ring.
From Verif Require Import Grid Perm_model Perm_spec Tri_model Tri_spec Tri_proofs Trmm_proofs Trtri_proofs Sym_model Sym_spec Sym_proofs Sym2_proofs Sym3_proofs Sym4_proofs Sym5_proofs.
Set Implicit Arguments.
Unset Strict Implicit.
Unset Printing Implicit Defensive.
Import GRing.Theory.
Local Open Scope ring_scope.

Section Sym.
Variable F : fieldType.
Implicit Types A B C D X S W Z : grid F.
Implicit Types E : nat -> F.

Local Arguments rsum : simpl never.
Local Arguments fsyrk_d : simpl never.
Lemma rsumS k (f : nat -> F) : rsum k.+1 f = rsum k f + f k.
Proof. by []. Qed.

Lemma ldl_cat n1 m Z E S S' :
  (forall r c, (r < n1)%N -> (r <= c < n1 + m)%N -> S r c = Z r c + rsum r (fun l => Z l r * E l * Z l c)) ->
  (forall r c, (r <= c < m)%N -> S (n1 + r)%N (n1 + c)%N = S' r c + rsum n1 (fun l => Z l (n1 + r)%N * E l * Z l (n1 + c)%N)) ->
  ldl m (sub n1 n1 Z) (fun l => E (n1 + l)%N) S' -> ldl (n1 + m) Z E S.
Proof.
move=> H1 H2 H3 r c rc; have [rn|rn] := ltnP r n1; first exact: H1.
have := H2 (r - n1)%N (c - n1)%N; rewrite !subnKC; try lia.
move=> ->; last lia.
rewrite H3; last lia.
have -> : rsum r (fun l => Z l r * E l * Z l c) = rsum n1 (fun l => Z l r * E l * Z l c) +
    rsum (r - n1) (fun l => Z (n1 + l)%N r * E (n1 + l)%N * Z (n1 + l)%N c) by rewrite -rsum_cat subnKC.
rewrite /sub !subnKC; try lia.
by rewrite -!addrA; congr (_ + _); rewrite addrC.
Qed.

(** The coordinates of op(A12) for the update. *)
Definition tt (u : uplo) : transp := if u is Upper then Trans else NoTrans.

Lemma optr_off u n1 A i l : optr (tt u) (sub (off u n1).1 (off u n1).2 A) i l = optr (st u) A l (n1 + i)%N.
Proof. by case: u. Qed.

Lemma optr_at_off u n1 (f : grid F -> grid F) A r c : (r < n1)%N || (c < n1)%N -> 
  optr (st u) (at_ (off u n1).1 (off u n1).2 f A) r c =
  if (n1 <= c)%N then optr (tt u) (f (sub (off u n1).1 (off u n1).2 A)) (c - n1)%N r else optr (st u) A r c.
Proof. by case: u; rewrite /= /tr /at_ /= ?subn0 ?andbT. Qed.

Lemma rsum_trunc n k (f : nat -> F) : (k <= n)%N -> (forall l, (k <= l < n)%N -> f l = 0) -> rsum n f = rsum k f.
Proof.
move=> kn f0; rewrite -(subnKC kn) rsum_cat [X in _ + X]rsum0 ?addr0 // => l ln.
by apply: f0; lia.
Qed.

Lemma trsm_step u n1 n2 A1 : (forall l, (l < n1)%N -> A1 l l != 0) ->
  let A2 := at_ (off u n1).1 (off u n1).2 (ftrsm (if u is Upper then SLeft else SRight) u Trans NonUnit (offd u n1 n2).1 (offd u n1 n2).2 1 A1) A1 in
  (forall r c, (r < n1)%N -> (c < n2)%N -> rsum r.+1 (fun l => optr (st u) A1 l r * optr (st u) A2 l (n1 + c)%N) = optr (st u) A1 r (n1 + c)%N) /\
  (forall r c, ~~ [&& r < n1, n1 <= c & c < n1 + n2]%N -> optr (st u) A2 r c = optr (st u) A1 r c).
Proof.
move=> nz A2; rewrite {}/A2; case: u => /=.
- have dA : inv_diag NonUnit n1 A1 by move=> _.
  have [fr E] := @ftrsm_mx F SLeft Upper Trans NonUnit n1 n2 1 A1 (sub 0 n1 A1) dA.
  split=> [r c rn cn|r c rc].
    rewrite /= scale1r in E; have := congr1 (fun M : 'M_(n1, n2) => M (Ordinal rn) (Ordinal cn)) E.
    rewrite /trimx !mxE /= [X in _ = X -> _]/sub => <-.
    transitivity (rsum n1 (fun l => tri Upper NonUnit A1 l r * ftrsm SLeft Upper Trans NonUnit n1 n2 1 A1 (sub 0 n1 A1) l c)).
      rewrite (@rsum_trunc n1 r.+1) //; last by move=> l ln; rewrite /tri ifN ?ifN ?mul0r //; lia.
      apply: eq_rsum => l lr; congr (_ * _); last by rewrite -[l]add0n at_in.
      by rewrite /tri; case: eqP => [->|ne] //; rewrite ifT //; lia.
    by rewrite rsumE; apply: eq_bigr => l _; rewrite !mxE.
  by rewrite /at_ /=; case: ifP => // nc; rewrite fr /sub ?subn0 ?subnKC //; lia.
- have dA : inv_diag NonUnit n1 A1 by move=> _.
  have [fr E] := @ftrsm_mx F SRight Lower Trans NonUnit n2 n1 1 A1 (sub n1 0 A1) dA.
  split=> [r c rn cn|r c rc].
    rewrite /= scale1r in E; have := congr1 (fun M : 'M_(n2, n1) => M (Ordinal cn) (Ordinal rn)) E.
    rewrite /trimx !mxE /= [X in _ = X -> _]/sub add0n {3}/tr => <-.
    transitivity (rsum n1 (fun l => ftrsm SRight Lower Trans NonUnit n2 n1 1 A1 (sub n1 0 A1) c l * tri Lower NonUnit A1 r l)).
      rewrite (@rsum_trunc n1 r.+1) //; last by move=> l ln; rewrite /tri ifN ?ifN ?mulr0 //; lia.
      apply: eq_rsum => l lr; rewrite mulrC; congr (_ * _); first by rewrite /tr -{1}[l]add0n at_in.
      by rewrite /tri /tr; case: eqP => [->|ne] //; rewrite ifT //; lia.
    by rewrite rsumE; apply: eq_bigr => l _; rewrite !mxE.
  by rewrite /at_ /tr /= andbT; case: ifP => // nc; rewrite fr /sub ?subn0 ?subnKC //; lia.
Qed.

Lemma gramE_dmx t K A E i j : gramE t K A (dmx E) i j = rsum K (fun l => optr t A i l * E l * optr t A j l).
Proof.
rewrite rsumE; apply: eq_bigr => l _.
rewrite (bigD1 l) //= big1 ?addr0 /dmx ?eqxx // => m ne.
by rewrite eq_sym ifN ?mulr0 ?mul0r.
Qed.

Lemma fails_le N1 N S : (N1 <= N)%N -> fails N1 S -> fails N S.
Proof. by move=> le [k [W [E [kN L I W0]]]]; exists k, W, E; split=> //; apply: leq_trans le. Qed.

Lemma ldl_ext n W W' E E' S : (forall r c, (r <= c < n)%N -> W r c = W' r c) -> (forall l, (l < n)%N -> E l = E' l) ->
  ldl n W E S -> ldl n W' E' S.
Proof.
move=> EW EE L r c rc; rewrite L // EW //; congr (_ + _); apply: eq_rsum => l lr.
by rewrite !EW ?EE //; lia.
Qed.

Lemma invs_ext n W W' E E' : (forall r, (r < n)%N -> W r r = W' r r) -> (forall l, (l < n)%N -> E l = E' l) ->
  invs n W E -> invs n W' E'.
Proof. by move=> EW EE I l ln; rewrite -EW -?EE ?I. Qed.

Lemma optr_at_diag t n1 (f : grid F -> grid F) A r c :
  optr t (at_ n1 n1 f A) r c = if (n1 <= r)%N && (n1 <= c)%N then optr t (f (sub n1 n1 A)) (r - n1)%N (c - n1)%N else optr t A r c.
Proof. by case: t; rewrite /= /tr /at_ //= andbC. Qed.

(** One level of the recursion, once all its steps are known in the
    coordinates of [optr (st u)]: V1 after the first call, V2 after ftrsm, Z
    at the end, S' what the second call receives, m its size. *)
Lemma sytrf_level n1 n2 m S V1 V2 Z S' E : (m <= n2)%N ->
  ldl n1 V1 E S -> invs n1 V1 E ->
  (forall r c, (n1 <= c)%N -> V1 r c = S r c) ->
  (forall r c, (r < n1)%N -> (c < n2)%N -> rsum r.+1 (fun l => V1 l r * V2 l (n1 + c)%N) = V1 r (n1 + c)%N) ->
  (forall r c, (r <= c < n1)%N -> Z r c = V1 r c) ->
  (forall r c, (r < n1)%N -> (c < m)%N -> Z r (n1 + c)%N = V2 r (n1 + c)%N * V1 r r) ->
  (forall r c, (r <= c < n2)%N -> S' r c = S (n1 + r)%N (n1 + c)%N - rsum n1 (fun l => V2 l (n1 + r)%N * V1 l l * V2 l (n1 + c)%N)) ->
  ldl m (sub n1 n1 Z) (fun l => E (n1 + l)%N) S' ->
  ldl (n1 + m) Z E S.
Proof.
move=> mn L I V1S T Z1 Z2 S'E L2; apply: ldl_cat L2 => [r c rn rc|r c rc].
  have [cn|cn] := ltnP c n1.
    rewrite L ?Z1; try lia.
    by congr (_ + _); apply: eq_rsum => l lr; rewrite !Z1 //; lia.
  rewrite -(subnKC cn) -V1S ?leq_addr // -T; try lia.
  rewrite rsumS addrC Z2; try lia.
  congr (_ + _); first by rewrite mulrC.
  apply: eq_rsum => l lr; rewrite Z1 ?Z2; try lia.
  have Il := I l; have {1}-> : V2 l (n1 + (c - n1))%N = V2 l (n1 + (c - n1))%N * (E l * V1 l l) by rewrite Il ?mulr1 //; lia.
  ring.
rewrite S'E ?subrK; last lia.
rewrite -[LHS](subrK (rsum n1 (fun l => V2 l (n1 + r)%N * V1 l l * V2 l (n1 + c)%N))); congr (_ + _).
apply: eq_rsum => l ln; rewrite !Z2; try lia.
have {1}-> : V1 l l = V1 l l * (E l * V1 l l) by rewrite I ?mulr1.
ring.
Qed.

Lemma fsytrf_nonunitS n crout u N A E junk th :
  fsytrf_nonunit n.+1 crout u N A E 1 junk th =
  if (N <= th)%N then (if crout then @sytrf_Crout F else @sytrf_RL F) u N A E 1%N else
  let n1 := N./2 in let n2 := (N - n1)%N in
  match fsytrf_nonunit n crout u n1 A E 1 junk th with
  | Not_generic => Not_generic
  | No_result => No_result
  | Done (A1, E1) =>
    let A2 := at_ (off u n1).1 (off u n1).2 (ftrsm (if u is Upper then SLeft else SRight) u Trans NonUnit (offd u n1 n2).1 (offd u n1 n2).2 1 A1) A1 in
    match fsyrk_d n2.+1 u (tt u) n2 n1 (-1) (sub (off u n1).1 (off u n1).2 A2) (fun i => A2 i i) 1 junk (sub n1 n1 A2) 3000 with
    | None => No_result
    | Some (A12, A22) =>
      let A3 := at_ n1 n1 (fun _ => A22) (at_ (off u n1).1 (off u n1).2 (fill (offd u n1 n2).1 (offd u n1 n2).2 A12) A2) in
      match fsytrf_nonunit n crout u n2 (sub n1 n1 A3) (fun i => E1 (n1 + i)%N) 1 junk th with
      | Not_generic => Not_generic
      | No_result => No_result
      | Done (A22', D2) =>
        Done (at_ n1 n1 (fun _ => A22') A3, fun i => if (i < n1)%N then E1 i else D2 (i - n1)%N)
      end
    end
  end.
Proof. by case: u. Qed.

Lemma optr_fill_off u n1 n2 A12 B i l : 
  optr (tt u) (fill (offd u n1 n2).1 (offd u n1 n2).2 A12 B) i l = if ((i < n2) && (l < n1))%N then optr (tt u) A12 i l else optr (tt u) B i l.
Proof. by case: u; rewrite /= /tr /fill //= andbC. Qed.

Lemma frame_offd u n1 n2 A B : frame (offd u n1 n2).1 (offd u n1 n2).2 A B -> 
  forall i l, ~~ ((i < n2) && (l < n1))%N -> optr (tt u) A i l = optr (tt u) B i l.
Proof. by case: u => fr i l il /=; rewrite /tr fr //= andbC. Qed.

Lemma frame_optr t N A B : (forall r c, ~~ ((r < N) && (c < N))%N -> optr t A r c = optr t B r c) -> frame N N A B.
Proof. by case: t => H i j ij; [apply: H|apply: (H j i); rewrite andbC]. Qed.

Lemma fsytrf_nonunit_ok n crout u N A E junk th : (N < n)%N -> (0 < th)%N ->
  sytrf_post u N A E (fsytrf_nonunit n crout u N A E 1 junk th).
Proof.
elim: n N A E => [//|n IH] N A E Nn th0; rewrite fsytrf_nonunitS; cbv zeta.
case: (leqP N th) => Nth.
  by case: crout {IH}; [apply: sytrf_Crout_ok|apply: sytrf_RL_ok].
have NE : N = (N./2 + (N - N./2))%N by lia.
have L1 : (N./2 < n)%N by lia.
have L2 : (N - N./2 < n)%N by lia.
move: (N./2) (N - N./2)%N NE L1 L2 => n1 n2 NE L1 L2; subst N.
have := IH n1 A E L1 th0; case: fsytrf_nonunit => [[A1 E1]| |] //=; last first.
  by apply: fails_le; rewrite leq_addr.
move=> [fr1 ldl1 inv1 out1].
have nz l : (l < n1)%N -> A1 l l != 0.
  move=> ln; have := inv1 l ln; rewrite optr_diag; case: eqP => // ->; rewrite mulr0 => /esym/eqP.
  by rewrite oner_eq0.
have [T O2] := @trsm_step u n1 n2 A1 nz.
set A2 := at_ _ _ (ftrsm _ _ _ _ _ _ _ _) A1 in T O2 *.
have D2 l : (l < n1)%N -> A2 l l = A1 l l.
  by move=> ln; have := O2 l l; rewrite !optr_diag => -> //; lia.
have [A12 [A22 [-> [U F22 S12]]]] := @fsyrk_d_ok F n2.+1 u (tt u) n2 n1 (-1) (sub (off u n1).1 (off u n1).2 A2) (fun i => A2 i i) 1 junk (sub n1 n1 A2) 3000 (ltnSn _) isT.
set A3 := at_ n1 n1 _ _.
have V1S r c : (n1 <= c)%N -> optr (st u) A1 r c = optr (st u) A r c.
  by case: (u) => /= H; rewrite /tr fr1 //; lia.
have Z3 r c : (n1 <= r)%N && (n1 <= c)%N = false -> optr (st u) A3 r c =
    if [&& r < n1, n1 <= c & c < n1 + n2]%N then optr (st u) A2 r c * A1 r r else optr (st u) A2 r c.
  move=> rc; rewrite /A3 optr_at_diag rc optr_at_off; last lia.
  case: (leqP n1 c) => cn; last by rewrite andbF.
  have cE : (c - n1 < n2)%N = (c < n1 + n2)%N by lia.
  rewrite optr_fill_off cE andTb andbC.
  case: ifP => H; last by rewrite optr_off subnKC.
  by rewrite S12 ifT ?sum_dmx ?optr_off ?subnKC ?D2 //; lia.
have S3 r c : (r <= c < n2)%N -> optr (st u) (sub n1 n1 A3) r c = optr (st u) A (n1 + r)%N (n1 + c)%N -
    rsum n1 (fun l => optr (st u) A2 l (n1 + r)%N * optr (st u) A1 l l * optr (st u) A2 l (n1 + c)%N).
  move=> rc; rewrite optr_sub /A3 optr_at_diag !leq_addr /= !addKn.
  have -> : optr (st u) A22 r c = - gramE (tt u) n1 (sub (off u n1).1 (off u n1).2 A2) (dmx (fun i => A2 i i)) r c + optr (st u) (sub n1 n1 A2) r c.
    have r2 : (r < n2)%N by lia.
    have c2 : (c < n2)%N by lia.
    case: (u) U => U /=; rewrite /tr U ?mulN1r ?mul1r //; try (by rewrite /=; lia).
    by rewrite gramE_sym //; apply: dmx_sym.
  rewrite optr_sub O2 ?V1S ?leq_addr ?gramE_dmx 1?addrC //; last lia.
  by congr (_ - _); apply: eq_rsum => l ln; rewrite !optr_off D2 // optr_diag.
have comb m Z E2 : (m <= n2)%N ->
    (forall r c, (r <= c < n1)%N -> Z r c = optr (st u) A1 r c) ->
    (forall r c, (r < n1)%N -> (c < m)%N -> Z r (n1 + c)%N = optr (st u) A2 r (n1 + c)%N * optr (st u) A1 r r) ->
    ldl m (sub n1 n1 Z) E2 (optr (st u) (sub n1 n1 A3)) ->
    ldl (n1 + m) Z (fun i => if (i < n1)%N then E1 i else E2 (i - n1)%N) (optr (st u) A).
  move=> mn Z1 Z2 L; apply: (sytrf_level (n2 := n2) (V1 := optr (st u) A1) (V2 := optr (st u) A2) (S' := optr (st u) (sub n1 n1 A3))) => //.
  - by apply: ldl_ext ldl1 => // l ->.
  - by apply: invs_ext inv1 => // l ->.
  - by apply: ldl_ext L => // l lm; rewrite ltnNge leq_addr /= addKn.
have := IH n2 (sub n1 n1 A3) (fun i => E1 (n1 + i)%N) L2 th0.
case: fsytrf_nonunit => [[A22' E2]| |] //=.
- case=> fr2 ldl2 inv2 out2; split.
  + apply: (@frame_optr (st u)) => r c rc; rewrite optr_at_diag; case: ifP => H; last first.
      rewrite Z3 ?H // ifN ?O2; [|lia|lia].
      by case: (leqP n1 c) => cn; [exact: V1S|case: (u) rc H => /= rc H; rewrite /tr fr1 //; lia].
    have -> : optr (st u) A22' (r - n1)%N (c - n1)%N = optr (st u) (sub n1 n1 A3) (r - n1)%N (c - n1)%N.
      by case: (u) => /=; rewrite /tr fr2 //; lia.
    rewrite optr_sub !subnKC; [|lia|lia].
    rewrite /A3 optr_at_diag H.
    have -> : optr (st u) A22 (r - n1)%N (c - n1)%N = optr (st u) (sub n1 n1 A2) (r - n1)%N (c - n1)%N.
      by case: (u) => /=; rewrite /tr F22 //; lia.
    by rewrite optr_sub !subnKC; [rewrite O2 ?V1S //; lia|lia|lia].
  + apply: comb => //.
    * move=> r c rc; rewrite optr_at_diag ifN ?Z3 ?ifN ?O2 //; lia.
    * move=> r c rn cn; rewrite optr_at_diag ifN ?Z3 ?ifT ?optr_diag //; lia.
    * apply: ldl_ext ldl2 => // r c rc.
      by rewrite /sub optr_at_diag !leq_addr /= !addKn.
  + move=> l ln; rewrite optr_at_diag; case: (ltnP l n1) => l1 /=.
      by rewrite Z3 ?ifN ?O2 ?inv1 //; lia.
    by rewrite inv2 //; lia.
  + by move=> i iN; rewrite ifN ?out2 ?subnKC ?out1 //; lia.
- move=> [k [W [E2 [kn L I W0]]]].
  exists (n1 + k)%N, (fun r c => if (r < n1)%N then (if (c < n1)%N then optr (st u) A1 r c else optr (st u) A2 r c * optr (st u) A1 r r) else W (r - n1)%N (c - n1)%N),
    (fun i => if (i < n1)%N then E1 i else E2 (i - n1)%N).
  split; first lia.
  + rewrite -addnS; apply: comb => //.
    * by move=> r c rc; rewrite !ifT //; lia.
    * by move=> r c rn cn; rewrite rn ifN //; lia.
    * apply: ldl_ext L => // r c rc.
      by rewrite /sub ifN ?addKn //; lia.
  + move=> l ln; case: (ltnP l n1) => l1; first exact: inv1.
    by rewrite I //; lia.
  + by rewrite ifN ?addKn //; lia.
Qed.
End Sym.
