(** * productSSSxTS is the product by the matrix of the generator *)
From mathcomp Require Import all_ssreflect all_algebra zify.
From Verif Require Import Grid Perm_model Tri_model Tri_proofs Pluq_model Pluq_proofs Sss_model Sss_spec Bidiag_fold Sss_proofs.
Set Implicit Arguments.
Unset Strict Implicit.
Unset Printing Implicit Defensive.
Import GRing.Theory.
Local Open Scope ring_scope.

Section Prods.
Variables (F : fieldType) (s : nat).
Implicit Types R W : grid F.

Lemma Rprod_r R b d : Rprod s R b d.+1 = Rprod s R b.+1 d *m blk s R b.
Proof.
elim: d => [|d IH]; first by rewrite /= addn0 mulmx1 mul1mx.
by rewrite [LHS]/= -/(Rprod s R b d.+1) IH mulmxA /= addSnnS.
Qed.

Lemma Wprod_l W b d : Wprod s W b d.+1 = blk s W b *m Wprod s W b.+1 d.
Proof.
elim: d => [|d IH]; first by rewrite /= addn0 mulmx1 mul1mx.
by rewrite [LHS]/= -/(Wprod s W b d.+1) IH -mulmxA /= addSnnS.
Qed.

End Prods.

Section Prod.
Variables (F : fieldType) (N t s : nat) (alpha beta : F).
Hypothesis s0 : (0 < s)%N.
Variables (P Q R U V W D B : grid F).
Let ent := sss_entry s P Q R U V W D.

Lemma ent_dg x j : (x %/ s = j %/ s)%N -> ent x j = D x (j %% s)%N.
Proof. by rewrite /ent /sss_entry => ->; rewrite eqxx. Qed.

Lemma Xg_sum b (l : 'I_s) c : Xg s alpha Q R B b l c = alpha * rsum (b.+1 * s)%N
  (fun j => (Rprod s R (j %/ s) (b - j %/ s) *m colv s Q (j %/ s) (j %% s)) l 0 * B j c).
Proof.
have top b' (m : 'I_s) c' : rsum s (fun l' => Q (b' * s + m)%N l' * B (b' * s + l')%N c') =
    rsum s (fun i => (Rprod s R ((b' * s + i) %/ s) (b' - (b' * s + i) %/ s) *m
      colv s Q ((b' * s + i) %/ s) ((b' * s + i) %% s)) m 0 * B (b' * s + i)%N c').
  apply: eq_rsum => i ii; have -> : ((b' * s + i) %/ s = b')%N by rewrite divnMDl // divn_small ?addn0.
  by rewrite subnn mul1mx mxE modnMDl modn_small.
elim: b l => [|b IH] l; first by rewrite /= mul1n addr0 (top 0%N l c) mul0n.
rewrite [LHS]/= top (_ : b.+2 * s = b.+1 * s + s)%N; last by rewrite mulSn addnC.
rewrite rsum_cat mulrDr addrC; congr (_ + _); rewrite rsumE.
under eq_bigr => m _ do rewrite IH mulrCA -rsum_mull.
rewrite -mulr_sumr; congr (_ * _); under eq_bigr => m _ do rewrite rsumE.
rewrite exchange_big rsumE /=; apply: eq_bigr => -[j jb] _ /=.
have jb' : (j %/ s <= b)%N by rewrite -ltnS ltn_divLR.
under eq_bigr => m _ do rewrite mulrA; rewrite -mulr_suml; congr (_ * _).
rewrite subSn //= -mulmxA mxE; apply: eq_bigr => m _; congr (_ * _).
by rewrite !mxE subnKC.
Qed.

Lemma low_sum x c : (s <= x)%N -> rsum s (fun l => P (x - s)%N l * Xg s alpha Q R B (x %/ s).-1 l c) =
  alpha * rsum (x %/ s * s) (fun j => ent x j * B j c).
Proof.
move=> sx; have a0 : (0 < x %/ s)%N by rewrite divn_gt0.
rewrite rsumE; under eq_bigr => l _ do rewrite Xg_sum mulrCA rsumE mulr_sumr.
rewrite -mulr_sumr exchange_big rsumE prednK //=; congr (_ * _); apply: eq_bigr => -[j jb] _ /=.
have jb' : (j %/ s < x %/ s)%N by rewrite ltn_divLR.
under eq_bigr => m _ do rewrite mulrA; rewrite -mulr_suml; congr (_ * _).
rewrite /ent /sss_entry gtn_eqF // jb' -mulmxA mxE; apply: eq_bigr => m _; congr (_ * _).
  by rewrite mxE.
by rewrite -!subn1 subnAC.
Qed.

Section Upper.
Hypothesis N0 : (0 < N)%N.
Let k := sss_k N s.
Let ls := sss_ls N s.
Let kE : ((k - 1) * s + ls = N)%N. Proof. by have [] := sss_kls s0 N0. Qed.
Let k0 : (0 < k)%N. Proof. by have [] := sss_kls s0 N0. Qed.
Let lsb : (0 < ls <= s)%N. Proof. by have [] := sss_kls s0 N0. Qed.

Definition vcol a j : 'cV[F]_s := Wprod s W a (j %/ s - a).-1 *m colv s V (j %/ s).-1 (j %% s).

Lemma vcol0 a i : (i < s)%N -> forall l : 'I_s, vcol a (a.+1 * s + i) l 0 = V (a * s + l)%N i.
Proof.
move=> ii l; rewrite /vcol; have -> : ((a.+1 * s + i) %/ s = a.+1)%N by rewrite divnMDl // divn_small ?addn0.
by rewrite subSn // subnn /= mul1mx mxE modnMDl modn_small.
Qed.

Lemma vcolS a j : (a.+2 * s <= j)%N -> vcol a j = blk s W a *m vcol a.+1 j.
Proof.
move=> h; have h' : (a.+2 <= j %/ s)%N by rewrite leq_divRL.
rewrite /vcol mulmxA -Wprod_l; congr (Wprod _ _ _ _ *m _); lia.
Qed.

Lemma Yg_sum d (l : 'I_s) c : (d.+1 < k)%N -> Yg N s alpha V W B d l c =
  alpha * rsum (N - (k - 2 - d).+1 * s) (fun j => vcol (k - 2 - d) ((k - 2 - d).+1 * s + j) l 0 * B ((k - 2 - d).+1 * s + j)%N c).
Proof.
elim: d l => [|d IH] l hd.
  have e : ((k - 2 - 0).+1 = k - 1)%N by lia.
  rewrite /= -/k -/ls -[in RHS]kE e addKn; congr (_ * _); apply: eq_rsum => j jl.
  by rewrite -e vcol0 ?subn0 //; lia.
have hd' : (d.+1 < k)%N by lia.
rewrite /= -/k.
have e1 : (k - 2 - d = (k - 2 - d.+1).+1)%N by lia.
have e2 : (k - 3 - d = k - 2 - d.+1)%N by lia.
rewrite e2 [X in _ + X]rsumE; under [X in _ + X]eq_bigr => m _ do rewrite IH //.
rewrite e1; set a := (k - 2 - d.+1)%N in e1 e2 *.
have sz : (N - a.+1 * s = s + (N - a.+2 * s))%N.
  have : (a.+2 * s <= (k - 1) * s)%N by rewrite leq_mul2r; lia.
  by rewrite (mulSn a.+1); lia.
rewrite sz rsum_cat mulrDr; congr (_ * _ + _).
  by apply: eq_rsum => j jl; rewrite vcol0.
under eq_bigr => m _ do rewrite mulrCA rsumE mulr_sumr.
rewrite -mulr_sumr exchange_big rsumE /=; congr (_ * _); apply: eq_bigr => -[j jb] _ /=.
have e : (a.+1 * s + (s + j) = a.+2 * s + j)%N by rewrite (mulSn a.+1); lia.
rewrite e (@vcolS a) ?leq_addr //.
under eq_bigr => m _ do rewrite mulrA; rewrite -mulr_suml; congr (_ * _).
by rewrite [RHS]mxE; apply: eq_bigr => m _; congr (_ * _); rewrite mxE.
Qed.

Lemma up_sum x c : (x < (k - 1) * s)%N -> rsum s (fun l => U x l * Yg N s alpha V W B (k - 2 - x %/ s) l c) =
  alpha * rsum (N - (x %/ s).+1 * s) (fun j => ent x ((x %/ s).+1 * s + j) * B ((x %/ s).+1 * s + j)%N c).
Proof.
move=> hx; have ak : (x %/ s < k - 1)%N by rewrite ltn_divLR.
have e : (k - 2 - (k - 2 - x %/ s) = x %/ s)%N by move: (x %/ s)%N ak => a; lia.
have e1 : ((k - 2 - x %/ s).+1 < k)%N by move: (x %/ s)%N ak => a; lia.
rewrite rsumE; under eq_bigr => l _ do rewrite Yg_sum // e.
under eq_bigr => l _ do rewrite mulrCA rsumE mulr_sumr.
rewrite -mulr_sumr exchange_big rsumE /=; congr (_ * _); apply: eq_bigr => -[j jb] _ /=.
under eq_bigr => m _ do rewrite mulrA; rewrite -mulr_suml; congr (_ * _).
set j' := (_ + j)%N; have h : (x %/ s < j' %/ s)%N by rewrite leq_divRL // leq_addr.
rewrite /ent /sss_entry ltn_eqF // ltnNge ltnW //= -mulmxA mxE; apply: eq_bigr => m _; congr (_ * _).
by rewrite mxE.
Qed.

Lemma diagE C x c : sss_diag N t s alpha D B beta C x c =
  if (x < N)%N && (c < t)%N then
    alpha * rsum (minn s (N - x %/ s * s)) (fun j => ent x (x %/ s * s + j) * B (x %/ s * s + j)%N c) + beta * C x c
  else C x c.
Proof.
have e := divn_eq N s; have r := ltn_pmod N s0.
have full n : (n <= N %/ s)%N -> forall x c, iteri n (fun b C => at_ (b * s) 0 (fgemm NoTrans NoTrans s t s alpha
      (sub (b * s) 0 D) (sub (b * s) 0 B) beta) C) C x c =
    if (x < n * s)%N && (c < t)%N then alpha * rsum s (fun j => D x j * B (x %/ s * s + j)%N c) + beta * C x c else C x c.
  elim: n => [|n IH] hn y z; first by rewrite mul0n ltn0.
  rewrite iteriS gemmW leq0n add0n /=; rewrite IH; last by lia.
  case: (ltnP z t) => ct; rewrite !(andbF, andbT) //=.
  rewrite (mulSn n); case: (ltnP y (n * s)) => h1 /=.
    by rewrite ifT //; lia.
  have -> : (y < n * s + s)%N = (y < s + n * s)%N by rewrite addnC.
  case: ifP => // h2; congr (_ * _ + _); apply: eq_rsum => j js.
  rewrite /sub subnKC // add0n subn0; congr (D _ _ * B _ _).
  by have -> : (y %/ s = n)%N by apply: blkE => //; rewrite mulSn; lia.
have ed y j : (j < s)%N -> ent y (y %/ s * s + j) = D y j.
  move=> js; rewrite ent_dg; first by rewrite modnMDl modn_small.
  by rewrite divnMDl // (divn_small js) addn0.
have w y : (y < N %/ s * s)%N -> minn s (N - y %/ s * s) = s.
  move=> h; have h' : (y %/ s < N %/ s)%N by rewrite ltn_divLR.
  have : ((y %/ s).+1 * s <= N %/ s * s)%N by rewrite leq_mul2r h' orbT.
  by rewrite mulSn; move: (y %/ s * s)%N (N %/ s * s)%N e => p q; lia.
rewrite /sss_diag; case: eqP => [r0|/eqP r0] /=.
  rewrite full // [in LHS](_ : (N %/ s * s)%N = N); last by move: e; rewrite r0; lia.
  case: ifP => // /andP[h1 h2]; congr (_ * _ + _); rewrite w; last by move: e; rewrite r0; lia.
  by apply: eq_rsum => j js; rewrite ed.
rewrite gemmW leq0n add0n /= full //.
case: (ltnP c t) => ct; rewrite !(andbF, andbT) //=.
have -> : (N %/ s * s + N %% s = N)%N by rewrite -e.
case: (leqP (N %/ s * s) x) => h1 /=.
  case: ifP => // h2; congr (_ * _ + _).
  have xE : (x %/ s = N %/ s)%N by apply: blkE => //; rewrite mulSn; move: h1 h2 r; rewrite {2}e; lia.
  have -> : (minn s (N - x %/ s * s) = N %% s)%N by rewrite xE; move: (N %/ s * s)%N e => q e; lia.
  apply: eq_rsum => j js; rewrite /sub subnKC // add0n subn0 xE.
  by rewrite -[X in ent x (X * s + j)]xE ed //; rewrite ?xE; lia.
rewrite ifT; last by move: h1; rewrite {2}e; lia.
congr (_ * _ + _); rewrite w //.
by apply: eq_rsum => j js; rewrite ed.
Qed.

End Upper.

Theorem productE C T1 T2 : (s <= N)%N ->
  exists C', productSSSxTS N t s alpha P Q R U V W D B beta C T1 T2 = Some C' /\
  forall x c, C' x c = if (x < N)%N && (c < t)%N then alpha * (\sum_(j < N) ent x j * B j c) + beta * C x c else C x c.
Proof.
move=> sN; have N0 : (0 < N)%N by lia.
rewrite /productSSSxTS gtn_eqF //.
have [C' [-> hC']] := upE t alpha s0 N0 U V W B (sss_low N t s alpha P Q R B (sss_diag N t s alpha D B beta C) T1 T2) sN.
exists C'; split=> // x c; rewrite hC' lowE // diagE //.
have [_ kE lsb] := sss_kls s0 N0; set k := sss_k N s in kE *; set ls := sss_ls N s in kE lsb *.
case: (ltnP c t) => ct; rewrite !(andbF, andbT) ?addr0 //.
case: (ltnP x N) => xN; rewrite ?andbF ?addr0; last first.
  by rewrite ifF ?addr0 //; apply/negP; nia.
have xs : (x %/ s * s <= x)%N by exact: leq_trunc_div.
have xs' : (x < (x %/ s).+1 * s)%N by rewrite -ltn_divLR.
have a1 : (if (s <= x)%N && true then rsum s (fun l => P (x - s)%N l * Xg s alpha Q R B (x %/ s).-1 l c) else 0) =
    alpha * rsum (x %/ s * s) (fun j => ent x j * B j c).
  case: ifP => h; first by rewrite low_sum //; lia.
  by rewrite divn_small ?mul0n ?mulr0 //; lia.
have a2 : (if (x < (k - 1) * s)%N then rsum s (fun l => U x l * Yg N s alpha V W B (k - 2 - x %/ s) l c) else 0) =
    alpha * rsum (N - (x %/ s).+1 * s) (fun j => ent x ((x %/ s).+1 * s + j) * B ((x %/ s).+1 * s + j)%N c).
  case: ifP => h; first by rewrite up_sum.
  have ka : (k - 1 <= x %/ s)%N by rewrite leq_divRL // leqNgt h.
  have -> : (N - (x %/ s).+1 * s = 0)%N.
    have : ((k - 1).+1 * s <= (x %/ s).+1 * s)%N by rewrite leq_mul2r ltnS ka orbT.
    by rewrite (mulSn (k - 1)); move: ((x %/ s).+1 * s)%N => q; lia.
  by rewrite /= mulr0.
rewrite a1 a2 -(rsumE N (fun j => ent x j * B j c)).
have sz : (N = x %/ s * s + (minn s (N - x %/ s * s) + (N - (x %/ s).+1 * s)))%N by move: xs'; rewrite mulSn; lia.
rewrite [in RHS]sz !rsum_cat.
have -> : rsum (N - (x %/ s).+1 * s) (fun j => ent x ((x %/ s).+1 * s + j) * B ((x %/ s).+1 * s + j)%N c) =
   rsum (N - (x %/ s).+1 * s) (fun i => ent x (x %/ s * s + (minn s (N - x %/ s * s) + i)) * B (x %/ s * s + (minn s (N - x %/ s * s) + i))%N c).
  apply: eq_rsum => i ii; have -> // : ((x %/ s).+1 * s + i = x %/ s * s + (minn s (N - x %/ s * s) + i))%N.
  by move: ii; rewrite mulSn; lia.
rewrite !mulrDr; set a := alpha * _; set b := alpha * _; set d := alpha * _; set e := beta * _.
by rewrite (addrAC a e) (addrAC _ e) addrA (addrC b).
Qed.

End Prod.
