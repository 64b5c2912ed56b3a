(** * LUdivine computes a CUP factorisation *)
From mathcomp Require Import all_ssreflect all_algebra zify ring.
From Verif Require Import Grid Perm_model Perm_spec Perm_proofs Perm_mx_proofs.
From Verif Require Import Tri_model Tri_spec Tri_proofs Trtri_proofs.
From Verif Require Import Pluq_model Pluq_spec Pluq_combine Pluq_rank Api_model Api_spec Api_proofs Prof_proofs Ludiv_model Ludiv_spec.
Set Implicit Arguments.
Unset Strict Implicit.
Unset Printing Implicit Defensive.
Import GRing.Theory.
Local Open Scope ring_scope.

(** ** Exchange lists *)

Lemma sigma_split p b m e x : (b <= m <= e)%N -> sigma p b e x = sigma p b m (sigma p m e x).
Proof.
move=> /andP[bm]; elim: e x => [|e IH] x me; first by rewrite (sigma_nil _ _ (b := m)) //; have -> : m = 0%N by lia.
case: (ltngtP m e.+1) me => // [me _|-> _]; last by rewrite (sigma_nil _ _ (b := e.+1)).
by rewrite !sigmaSr //; [rewrite IH | lia].
Qed.

Lemma sigma_shift p q R n x : (forall k, (k < n)%N -> p (R + k)%N = (R + q k)%N) ->
  sigma p R (R + n) x = dsum R (sigma q 0 n) x.
Proof.
elim: n x => [|n IH] x H.
  by rewrite addn0 !sigma_nil // /dsum sigma_nil //; case: ltnP => // h; rewrite subnKC.
rewrite addnS sigmaSr ?leq_addr // IH => [|k kn]; last by apply: H; lia.
rewrite H // /dsum; case: (ltnP x R) => xR.
  have -> : transpose_ij (R + n) (R + q n) x = x by rewrite /transpose_ij !ifF //; lia.
  by rewrite xR.
have -> : transpose_ij (R + n) (R + q n) x = (R + transpose_ij n (q n) (x - R))%N.
  by rewrite -{1}(subnKC xR) /transpose_ij !eqn_add2l; case: eqP => _ //; case: eqP.
by rewrite sigmaSr // ltnNge leq_addr /= addKn.
Qed.

Lemma incr_ge R (Q : nat -> nat) : (forall t t', (t < t' < R)%N -> (Q t < Q t')%N) ->
  forall t, (t < R)%N -> (t <= Q t)%N.
Proof.
move=> H; elim=> // t IH tR; have := H t t.+1; have := IH (ltnW tR); lia.
Qed.

(** The exchange list (t, Q t) sends t to Q t. *)
Lemma sigma_incr R (Q : nat -> nat) t : (forall t t', (t < t' < R)%N -> (Q t < Q t')%N) ->
  (t < R)%N -> sigma Q 0 R t = Q t.
Proof.
move=> H; have ge := incr_ge H.
have G n : (n <= R)%N -> forall x, (n <= x)%N -> (forall k, (k < n)%N -> x != Q k) -> sigma Q 0 n x = x.
  elim: n => [|n IH] nR x nx hx; first by rewrite sigma_nil.
  rewrite sigmaSr // /transpose_ij ifF; last lia.
  rewrite (negbTE (hx n _)) // IH //; [lia | lia |].
  by move=> k kn; apply: hx; lia.
move=> tR; rewrite (@sigma_split _ 0 t.+1) //.
have -> : sigma Q t.+1 R t = t.
  by apply: sigma_lo => // i /andP[ti iR]; have := ge i iR; lia.
rewrite sigmaSr // {1}/transpose_ij eqxx G //; [lia | exact: ge |].
by move=> k kt; have := H k t; rewrite kt tR => /(_ isT); lia.
Qed.

Section Lud.
Variable F : fieldType.
Implicit Types A B X Y W : grid F.

(** ** Algebra of one recursion step *)

Lemma cup_step d Nup Ndown N A X1 P1 Q1 R Y W0 W P2 Q2 R2 X P Q :
  cup d Nup N A X1 P1 Q1 R ->
  (forall i l, (i < Ndown)%N -> (l < R)%N -> A (Nup + i)%N (sigma P1 0 R l) = rsum R (fun t => Y i t * Up d X1 t l)) ->
  (forall i l, (i < Ndown)%N -> (l < N - R)%N ->
     W0 i l = A (Nup + i)%N (sigma P1 0 R (R + l)%N) - rsum R (fun t => Y i t * X1 t (R + l)%N)) ->
  cup d Ndown (N - R) W0 W P2 Q2 R2 ->
  (forall i l, (i < Nup)%N -> (l < N)%N -> (i < R)%N || (l < R)%N -> X i l = X1 i (dsum R (sigma P2 0 R2) l)) ->
  (forall i t, (i < Ndown)%N -> (t < R)%N -> X (Nup + i)%N t = Y i t) ->
  (forall t l, (t < R2)%N -> (l < N - R)%N -> (t < l)%N || ((t == l) && (if d is Unit then false else true)) ->
     X (R + t)%N (R + l)%N = W t l) ->
  (forall i t, (i < Ndown)%N -> (t < R2)%N -> (Q2 t < i)%N || ((Q2 t == i) && (if d is Unit then true else false)) ->
     X (Nup + i)%N (R + t)%N = W i t) ->
  (forall k, (k < R)%N -> P k = P1 k) -> (forall k, (k < R2)%N -> P (R + k)%N = (R + P2 k)%N) ->
  (forall k, (k < R)%N -> Q k = Q1 k) -> (forall k, (k < R2)%N -> Q (R + k)%N = (Nup + Q2 k)%N) ->
  cup d (Nup + Ndown) N A X P Q (R + R2).
Proof.
move=> [[RM1 RN1] hP1 [hQ1 iQ1] piv1 law1] eY eW [[RM2 RN2] hP2 [hQ2 iQ2] piv2 law2] cA cY cU cL p1 p2 q1 q2.
have gQ1 := incr_ge iQ1; have gQ2 := incr_ge iQ2.
have QE t : (t < R + R2)%N -> Q t = if (t < R)%N then Q1 t else (Nup + Q2 (t - R))%N.
  move=> tR; case: ltnP => h; first exact: q1.
  by rewrite -{1}(subnKC h) q2 //; lia.
split.
- by lia.
- move=> t tR; case: (ltnP t R) => h; first by rewrite p1 //; exact: hP1.
  move: tR; rewrite -(subnKC h) => tR; rewrite p2; last lia.
  have := hP2 (t - R)%N; lia.
- split=> [t tR|t t' /andP[tt tR]]; rewrite !QE //; try lia.
    by case: (ltnP t R) => h; [have := hQ1 t h | have := hQ2 (t - R)%N]; lia.
  case: (ltnP t R) => h; case: (ltnP t' R) => h' //; last 1 first.
  + by have := iQ2 (t - R)%N (t' - R)%N; lia.
  + by have := iQ1 t t'; rewrite tt h' => /(_ isT).
  + by have := hQ1 t h; lia.
  + lia.
- move=> t tR; rewrite QE //; case: (ltnP t R) => h.
    have := piv1 t h; have t1 := hQ1 t h; have t0 := gQ1 t h.
    by case: (d); rewrite cA ?h ?orbT // ?dsum_lo //; lia.
  move: tR; rewrite -(subnKC h) addKn; set t' := (t - R)%N => tR; have {}tR : (t' < R2)%N by lia.
  have := piv2 t' tR; have t2 := hQ2 t' tR; have := cU t' t'; have := cL (Q2 t') t'.
  by case: (d) => c1 c2; [rewrite c1 // eqxx orbT | rewrite c2 ?eqxx ?orbT //; lia].
have u2p : is_perm (N - R) (sigma P2 0 R2).
  split=> [x xN|x y _ _]; last exact: sigma_inj.
  by apply: sigma_lt => // i /andP[_ iR]; have := hP2 i iR; lia.
move=> i l iM lN.
have dl : (dsum R (sigma P2 0 R2) l < N)%N by exact: dsum_lt.
have -> : sigma P 0 (R + R2) l = sigma P1 0 R (dsum R (sigma P2 0 R2) l).
  rewrite (@sigma_split _ 0 R) ?leq_addr // (sigma_shift _ p2).
  by apply: sigma_ext => k /andP[_ kR]; exact: p1.
set dd := dsum R _ l in dl *.
(* the U part of the first R rows *)
have U1 t : (t < R)%N -> Up d X t l = Up d X1 t dd.
  move=> tR; rewrite /Up /dd; case: (ltnP l R) => lR.
    by rewrite dsum_lo // !cA ?tR // ?dsum_lo //; lia.
  have h : (R <= dsum R (sigma P2 0 R2) l)%N by exact: dsum_ge.
  by rewrite ifT; [rewrite ifT; [rewrite cA ?tR //; lia | lia] | lia].
rewrite -(rsumE (R + R2) (fun t => CL d X Q i t * Up d X t l)); case: (ltnP i Nup) => iN.
- rewrite law1 // -(rsumE R (fun t => CL d X1 Q1 i t * Up d X1 t dd)) rsum_cat [X in _ + X]rsum0 ?addr0; last first.
    move=> t tR2; rewrite /CL q2 // ifF; last lia.
    by rewrite ifF ?mul0r //; lia.
  apply: eq_rsum => t tR; rewrite -U1 //; congr (_ * _); rewrite /CL q1 //.
  by case: ifP => h1; [|case: ifP => // h2; case: (d) => //]; rewrite cA ?tR ?orbT ?dsum_lo //; lia.
rewrite -(subnKC iN); set i' := (i - Nup)%N; have iD : (i' < Ndown)%N by rewrite /i'; lia.
rewrite rsum_cat.
have LY t : (t < R)%N -> CL d X Q (Nup + i') t = Y i' t.
  by move=> tR; rewrite /CL q1 // ifT ?cY //; have := hQ1 t tR; lia.
have -> : rsum R (fun t => CL d X Q (Nup + i') t * Up d X t l) = rsum R (fun t => Y i' t * Up d X1 t dd).
  by apply: eq_rsum => t tR; rewrite LY // U1.
have L2 t : (t < R2)%N -> CL d X Q (Nup + i') (R + t) = CL d W Q2 i' t.
  move=> tR; rewrite /CL q2 // ltn_add2l eqn_add2l.
  case: ifP => h1; first by rewrite cL ?h1.
  by case: eqP => // h2; case: (d) cL => // cL; rewrite cL // h2 eqxx orbT.
case: (ltnP l R) => lR.
  rewrite /dd dsum_lo // eY // [X in _ = _ + X]rsum0 ?addr0 // => t tR.
  by rewrite /Up ifF ?ifF ?mulr0 //; lia.
have -> : dd = (R + sigma P2 0 R2 (l - R))%N by rewrite /dd dsum_hi.
have sl : (sigma P2 0 R2 (l - R) < N - R)%N by apply: (proj1 u2p); lia.
have -> : A (Nup + i')%N (sigma P1 0 R (R + sigma P2 0 R2 (l - R))) =
  W0 i' (sigma P2 0 R2 (l - R)%N) + rsum R (fun t => Y i' t * X1 t (R + sigma P2 0 R2 (l - R))%N).
  by rewrite eW // subrK.
rewrite law2 //; last lia.
rewrite -(rsumE R2 (fun t => CL d W Q2 i' t * Up d W t (l - R))) addrC; congr (_ + _).
  by apply: eq_rsum => t tR; rewrite /Up ifT //; lia.
apply: eq_rsum => t tR; rewrite L2 //; congr (_ * _).
have e : l = (R + (l - R))%N by lia.
rewrite /Up [in RHS]e ltn_add2l eqn_add2l; case: ifP => h1; first by rewrite cU ?h1 //; lia.
case: eqP => // h2; case: (d) cU => // cU; rewrite -[in RHS]h2 in e *.
by rewrite cU ?eqxx ?orbT //; lia.
Qed.

(** ** Elimination on the view *)

Lemma optrK t A : optr t (optr t A) = A.
Proof. by case: t. Qed.

Lemma optr_sub t i j A : optr t (subop t i j A) = sub i j (optr t A).
Proof. by case: t. Qed.

Lemma atopE t i j f A x y :
  optr t (atop t i j f A) x y = at_ i j (fun V => optr t (f (optr t V))) (optr t A) x y.
Proof. by case: t => //=; rewrite /tr /at_ andbC. Qed.

Lemma at_ext i j f g A x y : (forall a b, f (sub i j A) a b = g (sub i j A) a b) -> at_ i j f A x y = at_ i j g A x y.
Proof. by move=> h; rewrite /at_ h. Qed.

Lemma trsm_view t d m n U B : inv_diag d n U ->
  let Y := optr t ((if t is Trans then ftrsm SLeft Lower NoTrans d n m 1 (optr t U)
                    else ftrsm SRight Upper NoTrans d m n 1 (optr t U)) (optr t B)) in
  frame m n Y B /\ forall i j, (i < m)%N -> (j < n)%N -> rsum n (fun k => Y i k * Up d U k j) = B i j.
Proof.
case: t => hd /=.
  have [h1] := @ftrsm_mx F SRight Upper NoTrans d m n 1 U B hd.
  rewrite scale1r /= /trimx mxM => h2; split=> // i j im jn.
  rewrite -(mx_eq h2 im jn); apply: eq_rsum => k km; congr (_ * _).
  by rewrite /Up /tri; case: (ltngtP k j).
have [h1] := @ftrsm_mx F SLeft Lower NoTrans d n m 1 (tr U) (tr B) hd.
rewrite scale1r /= /trimx mxM => h2; split=> [i j ij|i j im jn].
  by rewrite /tr h1 // andbC.
rewrite -[RHS](mx_eq h2 jn im); apply: eq_rsum => k km; rewrite mulrC; congr (_ * _).
by rewrite /Up /tri /tr; case: (ltngtP k j) => // ->.
Qed.

Lemma gemm_view t m n k U C B i j :
  optr t ((if t is Trans then fgemm NoTrans NoTrans n m k (-1) (optr t C) (optr t U) 1
           else fgemm NoTrans NoTrans m n k (-1) (optr t U) (optr t C) 1) (optr t B)) i j =
  if ((i < m) && (j < n))%N then B i j - rsum k (fun l => U i l * C l j) else B i j.
Proof.
case: t => /=; rewrite ?/tr fgemmE.
  by case: ifP => // _; rewrite mulN1r mul1r addrC.
rewrite andbC; case: ifP => // _; rewrite mulN1r mul1r addrC; congr (_ - _).
by apply: eq_rsum => l _; rewrite /= mulrC.
Qed.

Variable bk : nat.
Hypothesis bk0 : (0 < bk)%N.

Lemma applyP_view t m b e P B i j :
  optr t ((if t is Trans then applyP bk SLeft NoTrans m b e P else applyP bk SRight Trans m b e P) (optr t B)) i j =
  if (i < m)%N then B i (sigma P b e j) else B i j.
Proof. by case: t; rewrite /optr ?/tr applyPE. Qed.

Lemma lud_elim_ok t d Nup Ndown N R P A :
  (R <= Nup)%N -> (R <= N)%N -> (forall k, (k < R)%N -> (P k < N)%N) -> inv_diag d R (optr t A) ->
  let V1 := optr t A in let V2 := optr t (lud_elim bk t d Nup Ndown N R P A) in
  [/\ forall i l, ~~ ((Nup <= i < Nup + Ndown) && (l < N))%N -> V2 i l = V1 i l,
      forall i l, (i < Ndown)%N -> (l < R)%N ->
        V1 (Nup + i)%N (sigma P 0 R l) = rsum R (fun t => V2 (Nup + i)%N t * Up d V1 t l) &
      forall i l, (i < Ndown)%N -> (l < N - R)%N ->
        V2 (Nup + i)%N (R + l)%N = V1 (Nup + i)%N (sigma P 0 R (R + l)%N)
          - rsum R (fun t => V2 (Nup + i)%N t * V1 t (R + l)%N)].
Proof.
move=> RNup RN hP hd V1.
have sg x : (N <= x)%N -> sigma P 0 R x = x by move=> xN; apply: sigma_ge xN => // i; exact: hP.
rewrite /lud_elim; set A1 := atop t Nup 0 _ A; set A2 := atop t Nup 0 _ A1.
set V2 := optr t (if (R < N)%N then _ else _).
have E1 i l : optr t A1 i l = if (Nup <= i < Nup + Ndown)%N then V1 i (sigma P 0 R l) else V1 i l.
  rewrite /A1 atopE /at_ andbT subn0; case: (leqP Nup i) => //= h.
  by rewrite applyP_view -/V1 /sub subnKC // ltn_subLR.
have hd1 : inv_diag d R (optr t A1) by move=> hh i iR; rewrite E1 ifF ?hd //; lia.
have [f2 e2] := @trsm_view t d Ndown R (optr t A1) (sub Nup 0 (optr t A1)) hd1.
rewrite optrK in f2 e2; set Y := optr t _ in f2 e2.
have E2 i l : optr t A2 i l = if ((Nup <= i < Nup + Ndown) && (l < R))%N then Y (i - Nup)%N l else optr t A1 i l.
  rewrite /A2 atopE /at_ andbT subn0; case: (leqP Nup i) => //= h.
  rewrite -/Y; case: ifP => // h'; rewrite f2 ?/sub ?add0n ?subnKC //; lia.
have E3 i l : V2 i l = if ((Nup <= i < Nup + Ndown) && (R <= l < N))%N
    then optr t A2 i l - rsum R (fun k => optr t A2 i k * optr t A2 k l) else optr t A2 i l.
  rewrite /V2; case: ltnP => RN'; last by rewrite ifF //; lia.
  rewrite atopE /at_ -[subop t Nup 0 A2](optrK t) -[subop t 0 R A2](optrK t) gemm_view !optr_sub.
  case E : ((Nup <= i) && (R <= l))%N; last by rewrite ifF //; lia.
  case/andP: E => h1 h2; rewrite ltn_subLR // h1 h2 /= /sub !subnKC //.
  have -> : (l - R < N - R)%N = (l < N)%N by lia.
  case: ifP => // _; congr (_ - _); apply: eq_rsum => k _; by rewrite subnKC.
have Y2 i k : (i < Ndown)%N -> (k < R)%N -> V2 (Nup + i)%N k = Y i k.
  by move=> iD kR; rewrite E3 ifF ?E2 ?ifT ?addKn //; lia.
have top k l : (k < Nup)%N -> optr t A2 k l = V1 k l by move=> h; rewrite E2 ifF ?E1 ?ifF //; lia.
split=> [i l il|i l iD lR|i l iD lN].
- rewrite E3 ifF ?E2 ?ifF ?E1; try lia.
  by case: ifP => // h; rewrite sg //; lia.
- have := e2 i l iD lR; rewrite /sub add0n E1 ifT => [<-|]; last lia.
  apply: eq_rsum => k kR; rewrite Y2 //; congr (_ * _).
  by rewrite /Up; case: ifP => _; [|case: ifP => // _; case: (d) => //]; rewrite E1 ifF //; lia.
- rewrite E3 ifT ?E2 ?ifF ?E1 ?ifT; try lia.
  by congr (_ - _); apply: eq_rsum => k kR; rewrite (top k) ?Y2 ?E2 ?ifT ?addKn //; lia.
Qed.

(** ** The base case *)

Lemma find_iota (p : pred nat) a n :
  let f := find p (iota a n) in
  (f <= n)%N /\ (forall k, (k < f)%N -> p (a + k)%N = false) /\ ((f < n)%N -> p (a + f)%N).
Proof.
move=> f; have fn : (f <= n)%N by rewrite -[X in (_ <= X)%N](size_iota a n) find_size.
split=> //; split=> [k kf|fn'].
  by have := before_find 0%N kf; rewrite nth_iota //; lia.
by have := @nth_find _ 0%N p (iota a n); rewrite has_find size_iota -/f fn' nth_iota // => /(_ isT).
Qed.

Lemma cup0 d M N A X P Q : (forall i l, (i < M)%N -> (l < N)%N -> A i l = 0) -> cup d M N A X P Q 0.
Proof.
move=> h; split=> [||||i l iM lN] //; first by split=> // t t'; lia.
by rewrite sigma_nil // big_ord0 h.
Qed.

Lemma cup1 d M N A X P Q : (0 < N)%N -> (P 0%N < N)%N -> (Q 0%N < M)%N ->
  (if d is Unit then X (Q 0%N) 0%N else X 0%N 0%N) != 0 ->
  (forall i l, (i < M)%N -> (l < N)%N -> A i (transpose_ij 0 (P 0%N) l) = CL d X Q i 0 * Up d X 0 l) ->
  cup d M N A X P Q 1.
Proof.
move=> N0 P0 Q0 pv law; split=> [|t|||i l iM lN]; first by lia.
- by case: t => // _; rewrite P0.
- by split=> [t|t t']; [case: t | lia].
- by case.
by rewrite big_ord1 -law //; congr (A _ _); rewrite sigmaSr // sigma_nil.
Qed.

(** In the NonUnit case the storage between U and the pivots is cleared, and so
    is what remains to the right of the last column. *)
Definition clean (M N : nat) X (Q : nat -> nat) (R : nat) : Prop :=
  (forall t i, (t < R)%N -> (t < i <= Q t)%N -> X i t = 0) /\
  (forall i l, (R <= i < M)%N -> (R <= l < N)%N -> X i l = 0).

Lemma lud_base_ok d M N A P Q : minn M N = 1%N ->
  let: (W, P', Q', r) := lud_base d M N A P Q in
  [/\ frame M N W A, cup d M N A W P' Q' r, M = 1%N -> r = 0%N -> forall l, (l < N)%N -> A 0%N l = 0 &
      d = NonUnit -> clean M N W Q' r].
Proof.
move=> mn; have [M0 N0] : (0 < M)%N /\ (0 < N)%N by lia.
have mn1 : M = 1%N \/ N = 1%N by lia.
rewrite /lud_base; set ip := find _ _.
have [ipN [bef piv]] := find_iota (fun c => A 0%N c != 0) 0 N.
rewrite -/ip in ipN bef piv.
have {}bef k : (k < ip)%N -> A 0%N k = 0 by move=> /bef; rewrite add0n => /negbFE/eqP.
case: eqP => [ipE|/eqP ipE].
- case: eqP => [N1|N1]; last first.
    have M1 : M = 1%N by lia.
    split=> // [|_ _ l lN|_]; [apply: cup0 => i l iM lN; have -> : i = 0%N by lia| |split=> // i l iM lN; have -> : i = 0%N by lia];
      by apply: bef; lia.
  have [jM [bj pj]] := find_iota (fun r => A r 0%N != 0) 1 (M - 1).
  set jp := find _ _ in jM bj pj *; have a00 : A 0%N 0%N = 0 by apply: bef; lia.
  have {}bj k : (k < jp.+1)%N -> A k 0%N = 0.
    by case: k => // k kj; apply/eqP/negbFE; exact: bj.
  case: eqP => [jE|/eqP jE].
    split=> [||M1 _ l lN|_] //; first by apply: cup0 => i l iM lN; rewrite (_ : l = 0%N) ?bj //; lia.
      by rewrite (_ : l = 0%N) ?bj //; lia.
    by split=> // i l iM lN; rewrite (_ : l = 0%N) ?bj //; lia.
  have {}pj : A jp.+1 0%N != 0 by apply: pj; lia.
  set W := if d is Unit then _ else _.
  have WE i l : W i l = if d is Unit then A i l else
      if l == 0%N then (if i == 0%N then A jp.+1 0%N else if i == jp.+1 then 0
        else if (jp.+1 < i < M)%N then (A jp.+1 0%N)^-1 * A i 0%N else A i 0%N) else A i l.
    rewrite /W; case: (d) => //; set A1 := if (jp.+2 < M)%N then _ else _.
    have A1E x y : A1 x y = if ((jp.+1 < x < M) && (y == 0))%N then (A jp.+1 0%N)^-1 * A x 0%N else A x y.
      rewrite /A1; case: (ltnP jp.+2 M) => h1; last by rewrite ifF //; lia.
      rewrite /at_ /fscalin memoE /fill /sub andbT subn0 !add0n; have -> : (y < 1)%N = (y == 0%N) by lia.
      case: (leqP jp.+2 x) => h2 //=; have -> : (x - jp.+2 < M - jp.+2)%N = (x < M)%N by lia.
      by rewrite subnKC //; case: ifP => // /andP[_ /eqP->].
    rewrite /upd !A1E ltnn /=; have [->|l0] := posnP l; last by rewrite !andbF.
    by rewrite !andbT; case: (i =P 0%N) => [->|/eqP i0].
  split=> //.
  - move=> i l il; rewrite WE; case: (d) => //; case: eqP => // l0; rewrite !ifF ?l0 //; lia.
  - apply: cup1 => //; rewrite /upd1 ?eqxx //; first by lia.
      by rewrite !WE; case: (d).
    move=> i l iM lN; have -> : l = 0%N by lia.
    rewrite /transpose_ij /= /CL /Up /=; rewrite !WE eqxx.
    case: ltngtP => ij; last by case: (d); rewrite ?mulr1 ?mul1r /= -?ij ?eqxx.
      case: (d); first by rewrite mulr1.
      by rewrite ifF ?iM ?mul0r; [rewrite mulrAC mulVf ?mul1r | lia].
    by rewrite mul0r bj //; lia.
  - move=> dE; split=> [t i tR|i l]; last by lia.
    have -> : t = 0%N by lia.
    rewrite /upd1 eqxx => ij; rewrite WE dE eqxx ifF; last lia.
    case: eqP => // ne; rewrite ifF ?bj //; lia.
- have ipN' : (ip < N)%N by lia.
  have {}piv : A 0%N ip != 0 by apply: piv.
  set W0 := if ip != 0%N then _ else A.
  have W0E i l : W0 i l = if i == 0%N then A 0%N (transpose_ij 0 ip l) else A i l.
    rewrite /W0 /upd /transpose_ij; case: (posnP ip) => [->|ip0] /=.
      by case: eqP => // ->; case: eqP => // ->.
    case: (i =P 0%N) => // -> /=; case: (l =P 0%N) => [->|_]; last by case: eqP.
    by rewrite ifF //; lia.
  have W00 : W0 0%N 0%N = A 0%N ip by rewrite W0E eqxx.
  set W := match d with Unit => _ | NonUnit => _ end.
  have WE i l : W i l = if d is Unit then (if ((i == 0) && (0 < l < N))%N then (A 0%N ip)^-1 * W0 0%N l else W0 i l)
      else if ((N == 1) && (l == 0) && (0 < i < M))%N then (A 0%N ip)^-1 * W0 i 0%N else W0 i l.
    rewrite /W W00; case: (d).
      case: ltnP => N1; last by rewrite ifF //; lia.
      rewrite /at_ /fscalin memoE /fill /sub subn0 !add0n /=; case: (posnP l) => [->|l0]; first by rewrite andbF.
      rewrite subnKC //; have -> : ((i < 1) && (l - 1 < N - 1))%N = ((i == 0%N) && (l < N))%N by lia.
      by case: eqP => [->|].
    have [N1|N1] := eqVneq N 1%N; last by [].
    have -> : ip = 0%N by lia.
    case: ltnP => M1; last by rewrite ifF //; lia.
    rewrite /at_ /fscalin memoE /fill /sub subn0 !add0n andbT /=; case: (posnP i) => [->|i0]; first by rewrite andbF.
    rewrite subnKC //; have -> : ((i - 1 < M - 1) && (l < 1))%N = ((l == 0%N) && (i < M))%N by lia.
    by case: eqP => [->|].
  split=> //.
  + move=> i l il; have e : W0 i l = A i l.
      by rewrite W0E; case: (i =P 0%N) => // i0; rewrite /transpose_ij !ifF ?i0 //; lia.
    by rewrite WE; case: (d); rewrite ifF ?e //; lia.
  + apply: cup1; rewrite ?/upd1 ?eqxx //.
      by rewrite !WE /= andbF !W00; case: (d).
    move=> i l iM lN; have [i0|i0] := posnP i.
      rewrite i0 /CL /= !WE !W00 /= !andbF; have [->|l0] := posnP l.
        by rewrite /Up /= !WE !W00 /= andbF; case: (d); rewrite ?mulr1 ?mul1r.
      rewrite /Up l0 !WE /= !andbF l0 lN /= W0E eqxx; case: (d); last by rewrite mul1r.
      by rewrite mulrA mulfV ?mul1r.
    have N1 : N = 1%N by lia.
    have l0 : l = 0%N by lia.
    have ip0 : ip = 0%N by lia.
    rewrite l0 ip0 /transpose_ij /= /CL /Up /= i0 !WE !W00 N1 i0 iM /= !W0E (gtn_eqF i0) ip0.
    case: (d); first by rewrite mulr1.
    by rewrite mulrAC mulVf ?mul1r //; move: piv; rewrite ip0.
  + by move=> _; split=> [t i tR|i l]; [rewrite /upd1 (_ : t = 0%N) ?eqxx //; lia | lia].
Qed.

(** ** Rank deficiency, for FfpackSingular *)

Definition deficient M N A := exists2 v : 'rV[F]_M, v != 0 & v *m mx M N A = 0.

Lemma mx_rows a b N A : mx (a + b) N A = col_mx (mx a N A) (mx b N (sub a 0 A)).
Proof.
apply/matrixP => i j; rewrite !mxE; by case: splitP => k ->; rewrite ?mxE // /sub add0n.
Qed.

Lemma deficient_up a b N A : deficient a N A -> deficient (a + b) N A.
Proof.
case=> v v0 vA; exists (row_mx v 0); first by rewrite row_mx_eq0 negb_and v0.
by rewrite mx_rows mul_row_col vA mul0mx addr0.
Qed.

Lemma mul_perm_cols m N A P R (v : 'rV[F]_m) : (R <= N)%N -> (forall t, (t < R)%N -> (P t < N)%N) ->
  v *m mx m N (fun i l => A i (sigma P 0 R l)) = 0 -> v *m mx m N A = 0.
Proof.
move=> RN hP h; apply/rowP => j.
have jN : (sigmaV P 0 R j < N)%N by apply: sigmaV_lt => // i; exact: hP.
have /rowP /(_ (Ordinal jN)) := h; rewrite !mxE => /(etrans _); apply; apply: eq_bigr => i _.
by rewrite !mxE /= sigmaVK.
Qed.

Lemma incr_id n (Q : nat -> nat) : (forall t, (t < n)%N -> (Q t < n)%N) ->
  (forall t t', (t < t' < n)%N -> (Q t < Q t')%N) -> forall t, (t < n)%N -> Q t = t.
Proof.
move=> hQ iQ t tn; have ge := incr_ge iQ.
have le k : (k < n)%N -> (Q (n - k.+1) <= n - k.+1)%N.
  elim: k => [|k IH] kn; first by have := hQ (n - 1)%N; lia.
  have := iQ (n - k.+2)%N (n - k.+1)%N; have := IH; lia.
by have := le (n - t.+1)%N; have := ge t tn; rewrite (_ : n - (n - t.+1).+1 = t)%N; lia.
Qed.

Lemma deficient_step d R Ndown N A X1 P1 Q1 Y W0 :
  cup d R N A X1 P1 Q1 R ->
  (forall i l, (i < Ndown)%N -> (l < R)%N -> A (R + i)%N (sigma P1 0 R l) = rsum R (fun t => Y i t * Up d X1 t l)) ->
  (forall i l, (i < Ndown)%N -> (l < N - R)%N ->
     W0 i l = A (R + i)%N (sigma P1 0 R (R + l)%N) - rsum R (fun t => Y i t * X1 t (R + l)%N)) ->
  deficient Ndown (N - R) W0 -> deficient (R + Ndown) N A.
Proof.
move=> [[_ RN] hP [hQ iQ] piv law] eY eW [v v0 vW].
have Qid := incr_id hQ iQ.
pose C := mx R R (CL d X1 Q1); pose U := mx R N (Up d X1).
have uC : C \in unitmx.
  rewrite unitmxE det_trig; last first.
    by apply/is_trig_mxP => i j ij; rewrite mxE /CL Qid // !ifF //; lia.
  rewrite unitfE; apply/prodf_neq0 => i _; rewrite mxE /CL Qid // ltnn eqxx.
  by have := piv i (ltn_ord i); rewrite Qid //; case: (d) => // _; exact: oner_neq0.
pose w := - (v *m mx Ndown R Y *m invmx C).
exists (row_mx w v); first by rewrite row_mx_eq0 negb_and v0 orbT.
apply: (@mul_perm_cols _ _ _ P1 R) => //; first by move=> t tR; have := hP t tR; lia.
rewrite mx_rows mul_row_col.
have -> : mx R N (fun i l => A i (sigma P1 0 R l)) = C *m U.
  rewrite mxM; apply: eq_mx => i l iR lN; rewrite law // rsumE; by apply: eq_bigr.
pose Z : grid F := fun i l => if (l < R)%N then 0 else W0 i (l - R)%N.
have -> : mx Ndown N (sub R 0 (fun i l => A i (sigma P1 0 R l))) = mx Ndown R Y *m U + mx Ndown N Z.
  rewrite mxM; apply/matrixP => i l; rewrite !mxE /sub /Z add0n.
  case: ltnP => lR; first by rewrite eY // addr0.
  have lN := ltn_ord l; rewrite eW //; last lia.
  rewrite subnKC // addrC (_ : rsum R (fun t => Y i t * Up d X1 t l) = rsum R (fun t => Y i t * X1 t l)) ?subrK //.
  by apply: eq_rsum => t tR; rewrite /Up ifT //; lia.
rewrite mulmxDr; have -> : v *m mx Ndown N Z = 0.
  apply/rowP => l; rewrite !mxE; case: (ltnP l R) => lR.
    by apply: big1 => i _; rewrite !mxE /Z lR mulr0.
  have lN : (l - R < N - R)%N by have := ltn_ord l; lia.
  have /rowP /(_ (Ordinal lN)) := vW; rewrite !mxE => /(etrans _); apply; apply: eq_bigr => i _.
  by rewrite !mxE /Z ltnNge lR.
by rewrite addr0 !mulmxA -mulmxDl mulNmx mulmxKV // addNr mul0mx.
Qed.
(** ** Moving the rows of the second half *)

Definition mv (d : diag) : nat := if d is Unit then 1%N else 0%N.

Lemma lud_move_ok d Nup N R n (V : grid F) Q : (R < Nup)%N ->
  let: (V', Q') := iteri n (lud_move d Nup N R) (V, Q) in
  [/\ forall x c, V' x c = if [&& R <= x, x < R + n, x + mv d <= c & c < N]%N then V (x + (Nup - R))%N c
        else if [&& Nup <= x, x < Nup + n, R + (x - Nup) + mv d <= c & c < N]%N then 0 else V x c,
      forall k, (k < n)%N -> Q' (R + k)%N = Q (Nup + k)%N,
      forall x, (x < R)%N -> Q' x = Q x &
      forall x, (Nup + n <= x)%N -> Q' x = Q x].
Proof.
move=> RN; elim: n => [|n IH].
  by split=> // x c; rewrite addn0 !ifF //; lia.
rewrite iteriS; case: (iteri n _ _) IH => V' Q' [hV h1 h2 h3]; rewrite /lud_move -/(mv d).
split=> [x c|k kn|x xR|x xN].
- set j := (R + n + mv d)%N.
  pose T (V : grid F) x c := if [&& x == R + n, j <= c & c < N]%N then V (Nup + n)%N c else V x c.
  have E1 x' c' : at_ (R + n) j (fassign 1 (N - j) (sub (Nup + n) j V')) V' x' c' = T V' x' c'.
    rewrite /T /at_ /fassign /fill /sub; case E : ((R + n <= x') && (j <= c'))%N; last by rewrite ifF //; lia.
    case/andP: E => e1 e2; rewrite !subnKC // e2 /=.
    have -> : ((x' - (R + n) < 1) && (c' - j < N - j))%N = ((x' == R + n) && (c' < N))%N by lia.
    by case: ifP => // /andP[/eqP-> _]; rewrite subnn addn0.
  rewrite /= {1}/at_ /fzero /fill {1 2}/sub !E1.
  have -> : (if ((Nup + n <= x) && (j <= c))%N then if ((x - (Nup + n) < 1) && (c - j < N - j))%N then 0
      else T V' (Nup + n + (x - (Nup + n)))%N (j + (c - j))%N else T V' x c) =
    if [&& x == Nup + n, j <= c & c < N]%N then 0 else T V' x c.
    case E : ((Nup + n <= x) && (j <= c))%N; last by rewrite ifF //; lia.
    case/andP: E => e1 e2; rewrite !subnKC // e2 /=.
    by have -> : ((x - (Nup + n) < 1) && (c - j < N - j))%N = ((x == Nup + n) && (c < N))%N by lia.
  rewrite /T !hV /j.
  case E1' : (x == Nup + n)%N; case E2 : (x == R + n)%N => /=; try lia.
  + rewrite [in RHS]ifF; last lia.
    case: ifP => E3; first by rewrite ifT //; lia.
    by rewrite ifF ?ifF ?ifF //; lia.
  + case: ifP => E3; last first.
      rewrite [in RHS]ifF; last lia.
      rewrite ifF; last lia.
      by have -> : (x < Nup + n.+1)%N = (x < Nup + n)%N by lia.
    have b1 : (Nup + n < R + n)%N = false by lia.
    rewrite b1 ltnn !andbF /= ifT; last lia.
    by congr V; lia.
  + have -> : (x < Nup + n.+1)%N = (x < Nup + n)%N by lia.
    by have -> : (x < R + n.+1)%N = (x < R + n)%N by lia.
- rewrite /swap1 /upd1 ifF; last lia.
  rewrite eqn_add2l; case: (k =P n) => [->|ne]; first by rewrite h3.
  by rewrite h1 //; lia.
- by rewrite /swap1 /upd1 !ifF ?h2 //; lia.
- by rewrite /swap1 /upd1 !ifF ?h3 //; lia.
Qed.

Lemma addR_ok n R (P : nat -> nat) x :
  iteri n (fun k p => upd1 p (R + k) (p (R + k) + R)%N) P x = if (R <= x < R + n)%N then (P x + R)%N else P x.
Proof.
elim: n x => [|n IH] x; first by rewrite addn0 ifF //; lia.
rewrite iteriS /upd1 !IH; case: eqP => [->|ne]; first by rewrite ifF ?ifT //; lia.
by have -> : (R <= x < R + n)%N = (R <= x < R + n.+1)%N by lia.
Qed.

(** ** The recursion *)

Definition lud_ok (d : diag) (sing : bool) M N A X P Q R : Prop :=
  if sing then (R = M /\ cup d M N A X P Q R) \/ (R = 0%N /\ deficient M N A)
  else cup d M N A X P Q R.

Lemma cup_extA d M N A B X P Q R : (forall i l, (i < M)%N -> (l < N)%N -> A i l = B i l) ->
  cup d M N A X P Q R -> cup d M N B X P Q R.
Proof.
move=> e [h1 h2 h3 h4 h5]; split=> // i l iM lN; rewrite -h5 // e //.
by apply: sigma_lt lN; [move=> k /andP[_ /h2]; lia | lia].
Qed.

Lemma cup_extX d M N A X Y P Q P' Q' R : (forall i l, (i < M)%N -> (l < N)%N -> X i l = Y i l) ->
  (forall t, (t < R)%N -> P t = P' t) -> (forall t, (t < R)%N -> Q t = Q' t) ->
  cup d M N A X P Q R -> cup d M N A Y P' Q' R.
Proof.
move=> e eP eQ [[h0 h1] h2 [h3 h3'] h4 h5].
split=> [|t tR||t tR|i l iM lN] //.
- by rewrite -eP // h2.
- by split=> [t tR|t t' tt]; rewrite -!eQ ?h3 ?h3' //; lia.
- by have := h4 t tR; have := h3 t tR; case: (d) => h h'; rewrite -?eQ // -e //; lia.
- have -> : sigma P' 0 R l = sigma P 0 R l by apply: sigma_ext => k /andP[_ kR]; rewrite eP.
  rewrite h5 //; apply: eq_bigr => t _; rewrite /CL /Up !eQ // !e //; have := ltn_ord t; lia.
Qed.

Lemma deficient_ext M N A B : (forall i l, (i < M)%N -> (l < N)%N -> A i l = B i l) ->
  deficient M N A -> deficient M N B.
Proof. by move=> e [v v0 vA]; exists v => //; rewrite -vA; congr (_ *m _); apply: eq_mx => i l iM lN; rewrite e. Qed.

Lemma ludiv_full n t d (sing : bool) M N A P Q : (M < n)%N -> (sing -> (M <= N)%N) ->
  let: Pluq X P' Q' R := ludiv n bk t d sing M N A P Q in
  [/\ frame M N (optr t X) (optr t A), lud_ok d sing M N (optr t A) (optr t X) P' Q' R &
      ~~ sing -> d = NonUnit -> clean M N (optr t X) Q' R].
Proof.
elim: n M N A P Q => // n IH M N A P Q Mn hs; rewrite /=.
case: (boolP ((M == 0%N) || (N == 0%N))) => MN0.
  split=> //; last by move=> _ _; split=> // i l; lia.
  have c0 : cup d M N (optr t A) (optr t A) P Q 0 by apply: cup0 => i l; lia.
  by rewrite /lud_ok; case: (sing) hs => // hs; left; split=> //; have := hs isT; lia.
case: eqP => mn.
  have := @lud_base_ok d M N (optr t A) P Q mn; case: (lud_base _ _ _ _ _ _) => [[[W P'] Q'] r] [f c z cl].
  have e i l : optr t (memo (if t is Trans then N else M) (if t is Trans then M else N) (optr t W)) i l = W i l.
    by case: (t) => /=; rewrite ?/tr memoE.
  have c' := cup_extX (fun i l _ _ => esym (e i l)) (fun _ _ => erefl) (fun _ _ => erefl) c.
  split; first by move=> i l il; rewrite e f.
    2: by move=> _ /cl[cl1 cl2]; split=> [k i kr ki|i l iM lN]; rewrite e; [exact: cl1 | exact: cl2].
  rewrite /lud_ok; case: (sing) hs => // hs; have M1 : M = 1%N by have := hs isT; lia.
  have [r0|r0] := posnP r; last by left; split=> //; case: c => -[]; lia.
  right; split=> //; subst M; exists (const_mx 1).
    by apply/eqP => /rowP /(_ 0); rewrite !mxE; exact/eqP/oner_neq0.
  by apply/rowP => l; rewrite !mxE big_ord1 !mxE z ?mulr0.
set Nup := M./2; set Ndown := (M - Nup)%N.
have [Nup0 [Ndn0 MD]] : (0 < Nup)%N /\ (0 < Ndown)%N /\ M = (Nup + Ndown)%N by rewrite /Ndown /Nup; lia.
have := IH Nup N A P Q; case: (ludiv n bk t d sing Nup N A P Q) => A1 P1 Q1 R /(_ _ _)[||f1 ok1 cl1].
- by rewrite /Nup; lia.
- by move=> /hs; lia.
have row1 i l : optr t A1 (Nup + i)%N l = optr t A (Nup + i)%N l by rewrite f1 //; lia.
case: (boolP ((R == 0%N) && sing)) => Rs.
  case/andP: Rs ok1 => /eqP-> -> /=; rewrite /lud_ok => ok1; split=> //; first by move=> i l il; rewrite f1 //; lia.
  case: ok1 => [[h _]|[_ h]]; first lia.
  by right; split=> //; rewrite MD; exact: deficient_up.
have [RNup c1] : (sing -> R = Nup) /\ cup d Nup N (optr t A) (optr t A1) P1 Q1 R.
  move: ok1 Rs; rewrite /lud_ok; case: (sing) => //= ok1 Rs.
  by case: ok1 => [[-> c]|[h _]] //; move: Rs; rewrite h.
have [[R1 RN] hP1 [hQ1 iQ1] piv1 _] := c1.
have hd1 : inv_diag d R (optr t A1) by move=> dN i iR; have := piv1 i iR; rewrite dN.
set A2 := if R == 0%N then A1 else _; set V0 := optr t A; set V1 := optr t A1; set V2 := optr t A2.
have [fr2 eY eW] : [/\ forall i l, ~~ ((Nup <= i < Nup + Ndown) && (l < N))%N -> V2 i l = V1 i l,
      forall i l, (i < Ndown)%N -> (l < R)%N ->
        V0 (Nup + i)%N (sigma P1 0 R l) = rsum R (fun t => V2 (Nup + i)%N t * Up d V1 t l) &
      forall i l, (i < Ndown)%N -> (l < N - R)%N ->
        V2 (Nup + i)%N (R + l)%N = V0 (Nup + i)%N (sigma P1 0 R (R + l)%N)
          - rsum R (fun t => V2 (Nup + i)%N t * V1 t (R + l)%N)].
  rewrite /V2 /A2; case: (posnP R) => [R0|R0].
    rewrite R0; split=> // i l iD lN.
    by rewrite sigma_nil //= subr0 row1.
  have [|h1 h2 h3] := @lud_elim_ok t d Nup Ndown N R P1 A1 R1 RN _ hd1.
    by move=> k /hP1; lia.
  split=> // i l iD lR; first by rewrite -h2 //; exact: esym (row1 _ _).
  by rewrite h3 // -/V1 /V0 -row1.
set A2' := memo _ _ A2.
have A2E i l : optr t A2' i l = V2 i l by rewrite /A2' /V2; case: (t) => /=; rewrite ?/tr memoE.
have := IH Ndown (N - R)%N (subop t Nup R A2') (fun x => P1 (R + x)%N) (fun x => Q1 (Nup + x)%N).
case: (ludiv n bk t d sing Ndown _ _ _ _) => W P2 Q2 R2 /(_ _ _)[||f3 ok3 cl3].
- by rewrite /Ndown; lia.
- by move=> s; have := hs s; have := RNup s; lia.
rewrite optr_sub in f3 ok3; set W0 := sub Nup R (optr t A2') in f3 ok3; set Wv := optr t W in f3 ok3.
have W0E i l : W0 i l = V2 (Nup + i)%N (R + l)%N by exact: A2E.
set A3 := atop t Nup R (fun=> W) A2'.
have A3E i l : optr t A3 i l = if ((Nup <= i) && (R <= l))%N then Wv (i - Nup)%N (l - R)%N else V2 i l.
  by rewrite /A3 atopE /at_ A2E.
have fr3 i l : ~~ ((i < M) && (l < N))%N -> optr t A3 i l = V0 i l.
  move=> il; rewrite A3E; case: ifP => [/andP[h1 h2]|_]; last first.
    by rewrite fr2 ?[V1 _ _]f1 //; lia.
  by rewrite [Wv _ _]f3 ?W0E ?subnKC ?fr2 ?[V1 _ _]f1 //; lia.
set P3 := iteri R2 _ _.
have P3E x : P3 x = if (R <= x < R + R2)%N then (R + P2 (x - R))%N else at1 R (fun=> P2) P1 x.
  rewrite /P3 addR_ok; case: ifP => // /andP[h _]; by rewrite /at1 h addnC.
case: (boolP ((R2 == 0%N) && sing)) => Rs2.
  case/andP: Rs2 => /eqP R20 si; split; [exact: fr3| |by rewrite si].
  move: ok3; rewrite /lud_ok si => -[[h _]|[_ df]]; first lia.
  have RE := RNup si; right; split=> //; rewrite MD -{1}RE.
  apply: (@deficient_step d R Ndown N _ V1 P1 Q1 (fun i k => V2 (Nup + i)%N k) (fun i l => V2 (Nup + i)%N (R + l)%N)).
  + by rewrite {1}RE.
  + by move=> i l iD lR; rewrite {1}RE -eY.
  + by move=> i l iD lR; rewrite eW // {5}RE.
  + by apply: deficient_ext df => i l iM lN; rewrite W0E.
have [R2N c3] : (sing -> R2 = Ndown) /\ cup d Ndown (N - R) W0 Wv P2 Q2 R2.
  move: ok3 Rs2; rewrite /lud_ok; case: (sing) => //= ok3 Rs2.
  by case: ok3 => [[-> c]|[h _]] //; move: Rs2; rewrite h.
have [[R2D R2NR] hP2 [hQ2 iQ2] piv2 _] := c3; have gQ2 := incr_ge iQ2.
set A4 := if R2 == 0%N then A3 else _.
have s2 x : sigma P3 R (R + R2) x = dsum R (sigma P2 0 R2) x.
  by apply: sigma_shift => k kR; rewrite P3E ifT ?addKn //; lia.
have A4E i l : optr t A4 i l = if (i < Nup)%N then optr t A3 i (dsum R (sigma P2 0 R2) l) else optr t A3 i l.
  rewrite /A4; case: (posnP R2) => [R0|R0].
    have -> : dsum R (sigma P2 0 R2) l = l by rewrite -s2 sigma_nil // R0 addn0.
    by case: ifP.
  by rewrite -{1}[A3](optrK t) applyP_view s2.
set A5 := memo _ _ A4.
have A5E i l : optr t A5 i l = optr t A4 i l by rewrite /A5; case: (t) => /=; rewrite ?/tr memoE.
set Q4 := iteri R2 _ (at1 Nup _ _).
have Q4E x : Q4 x = if (Nup <= x < Nup + R2)%N then (Nup + Q2 (x - Nup))%N else at1 Nup (fun=> Q2) Q1 x.
  by rewrite /Q4 addR_ok; case: ifP => // /andP[h _]; rewrite /at1 h addnC.
set mvd := if (R < Nup)%N then _ else _.
have : let: (V, Q') := mvd in
  [/\ forall i l, ~~ ((i < M) && (l < N))%N -> V i l = V0 i l,
      forall i l, (i < Nup)%N -> (i < R)%N || (l < R)%N -> V i l = optr t A4 i l,
      forall i l, (l < R)%N -> V i l = optr t A4 i l,
      (forall x l, (x < R2)%N -> (l < N - R)%N -> (x < l)%N || ((x == l) && (if d is Unit then false else true)) ->
         V (R + x)%N (R + l)%N = Wv x l) /\
      (forall i x, (i < Ndown)%N -> (x < R2)%N -> (Q2 x < i)%N || ((Q2 x == i) && (if d is Unit then true else false)) ->
         V (Nup + i)%N (R + x)%N = Wv i x) &
      [/\ forall k, (k < R)%N -> Q' k = Q1 k, forall k, (k < R2)%N -> Q' (R + k)%N = (Nup + Q2 k)%N &
       forall i l, ~~ [&& R < Nup, R <= i, i < R + R2, i + mv d <= l & l < N]%N ->
         V i l = if [&& R < Nup, Nup <= i, i < Nup + R2, R + (i - Nup) + mv d <= l & l < N]%N then 0 else optr t A4 i l]].
  have A4o i l : (Nup <= i)%N -> optr t A5 i l = optr t A3 i l by move=> h; rewrite A5E A4E ltnNge h.
  have fr4 i l : ~~ ((i < M) && (l < N))%N -> optr t A5 i l = V0 i l.
    move=> il; rewrite A5E A4E; case: ifP => iN; last exact: fr3.
    suff -> : dsum R (sigma P2 0 R2) l = l by exact: fr3.
    rewrite dsum_hi; last lia.
    by rewrite (@sigma_ge _ (N - R)) ?subnKC //; try lia; move=> k /andP[_ /hP2]; lia.
  have A4W i l : (i < Ndown)%N -> optr t A5 (Nup + i)%N (R + l)%N = Wv i l.
    by move=> iD; rewrite A4o ?leq_addr // A3E !leq_addr !addKn.
  rewrite /mvd; case: (ltnP R Nup) => RN'; last first.
    have RE : R = Nup by lia.
    split; [exact: fr4 | by move=> i l _ _; exact: A5E | by move=> i l _; exact: A5E | |].
    + by split=> [x l xR lN h|i x iD xR h]; [rewrite {1}RE A4W //; lia | rewrite A4W].
    + split=> [k kR|k kR|i l _]; first by rewrite Q4E ifF ?/at1 ?ifF //; lia.
        by rewrite RE Q4E ifT ?addKn //; lia.
      by rewrite /= A5E.
  have := @lud_move_ok d Nup N R R2 (optr t A5) Q4 RN'.
  case: (iteri R2 _ _) => V' Q' [hV h1 h2 h3].
  split=> [i l il|i l iN il|i l lR||].
  + rewrite hV !ifF ?fr4 //; lia.
  + by rewrite hV !ifF ?A5E //; lia.
  + by rewrite hV !ifF ?A5E //; lia.
  + split=> [x l xR lN h|i x iD xR h].
      rewrite hV ifT; last by move: h; rewrite /mv; case: (d); lia.
      by rewrite (_ : R + x + (Nup - R) = Nup + x)%N ?A4W //; lia.
    have gx := gQ2 x xR.
    by rewrite hV !ifF ?A4W //; move: h; rewrite /mv; case: (d); lia.
  + split=> [k kR|k kR|i l il]; first by rewrite h2 // Q4E ifF ?/at1 ?ifF //; lia.
      by rewrite h1 // Q4E ifT ?addKn //; lia.
    by rewrite /= in il; rewrite hV (negbTE il) /= A5E.
case: mvd => V Q5 [fV e1 e2 [e3 e4] [q1 q2 eV]].
have XE i l : optr t (memo (if t is Trans then N else M) (if t is Trans then M else N) (optr t V)) i l = V i l.
  by case: (t) => /=; rewrite ?/tr memoE.
split; first by move=> i l il; rewrite XE fV.
2: {
  move=> ns dE; have [k1 z1] := cl1 ns dE; have [k3 z3] := cl3 ns dE.
  have mv0 : mv d = 0%N by rewrite dE.
  have dge l : (R <= l < N)%N -> (R <= dsum R (sigma P2 0 R2) l < N)%N.
    move=> lN; rewrite dsum_hi; last lia.
    have : (sigma P2 0 R2 (l - R) < N - R)%N by apply: sigma_lt => //; [move=> k /andP[_ /hP2]; lia | lia].
    lia.
  split=> [k i kR|i l iM lN]; rewrite ?memo1E XE.
    case: (ltnP k R) => kR1.
      rewrite q1 // => ik; have Qk := hQ1 k kR1; rewrite e1 ?kR1 ?orbT //; last lia.
      rewrite A4E ifT; last lia.
      by rewrite dsum_lo // A3E ifF ?fr2 ?[V1 _ _]k1 //; lia.
    rewrite -(subnKC kR1); set x := (k - R)%N; have xR : (x < R2)%N by rewrite /x; lia.
    rewrite q2 // => ik; rewrite eV; last by rewrite mv0; lia.
    case: ifP => // mvF; rewrite A4E; case: (ltnP i Nup) => iN.
      have kN : (R <= R + x < N)%N by lia.
      have := dge _ kN => dN; rewrite A3E ifF; last lia.
      by rewrite fr2 ?[V1 _ _]z1 //; lia.
    rewrite A3E ifT ?addKn; last lia.
    have := hQ2 x xR; case: (leqP (i - Nup) x) => ix; last by rewrite [Wv _ _]k3 //; lia.
    by move: mvF; rewrite mv0; lia.
  rewrite eV; last by rewrite mv0; lia.
  case: ifP => // mvF; rewrite A4E; case: (ltnP i Nup) => iN.
    have lN' : (R <= l < N)%N by lia.
    have := dge _ lN' => dN; rewrite A3E ifF; last lia.
    by rewrite fr2 ?[V1 _ _]z1 //; lia.
  rewrite A3E ifT; last lia.
  by rewrite [Wv _ _]z3 //; move: mvF; rewrite mv0; lia. }
suff C : cup d M N V0 (optr t (memo (if t is Trans then N else M) (if t is Trans then M else N) (optr t V)))
  (memo1 (R + R2) P3) (memo1 (R + R2) Q5) (R + R2).
  rewrite /lud_ok; case si : (sing) => //; left; split=> //.
  by rewrite R2N ?RNup ?si.
rewrite {1}MD; apply: (@cup_step d Nup Ndown N V0 V1 P1 Q1 R (fun i k => V2 (Nup + i)%N k) W0 Wv P2 Q2 R2) => //.
- by move=> i l iD lN; rewrite W0E eW.
- move=> i l iN lN il; rewrite XE e1 // A4E iN A3E ifF; last lia.
  by rewrite fr2 //; lia.
- move=> i k iD kR; rewrite XE e2 // A4E ifF; last lia.
  by rewrite A3E ifF //; lia.
- by move=> *; rewrite XE e3.
- by move=> *; rewrite XE e4.
- by move=> k kR; rewrite memo1E P3E ifF; [rewrite /at1 ifF //; lia | lia].
- by move=> k kR; rewrite memo1E P3E ifT ?addKn //; lia.
- by move=> k kR; rewrite memo1E q1.
- by move=> k kR; rewrite memo1E q2.
Qed.

Lemma ludiv_ok n t d (sing : bool) M N A P Q : (M < n)%N -> (sing -> (M <= N)%N) ->
  let: Pluq X P' Q' R := ludiv n bk t d sing M N A P Q in
  frame M N (optr t X) (optr t A) /\ lud_ok d sing M N (optr t A) (optr t X) P' Q' R.
Proof. by move=> /ludiv_full h /h {h}h; have := h t d A P Q; case: (ludiv _ _ _ _ _ _ _ _ _ _) => ? ? ? ? []. Qed.

End Lud.
