(** * Folding and unfolding the lines of a Bruhat generator in echelon order *)
From mathcomp Require Import all_ssreflect all_algebra zify.
From Verif Require Import Grid Perm_model Pluq_model Bidiag_model.
Set Implicit Arguments.
Unset Strict Implicit.
Unset Printing Implicit Defensive.
Import GRing.Theory.
Local Open Scope ring_scope.

Section Fold.
Variable F : fieldType.
Implicit Types A C X : grid F.

Lemma winE i0 j0 m n (f : grid F) A i j : at_ i0 j0 (fill m n f) A i j =
  if [&& (i0 <= i < i0 + m)%N & (j0 <= j < j0 + n)%N] then f (i - i0)%N (j - j0)%N else A i j.
Proof.
rewrite /at_ /fill /sub; case: (leqP i0 i) => h1 /=; last by [].
case: (leqP j0 j) => h2 /=; last by rewrite andbF.
have -> : (i - i0 < m)%N = (i < i0 + m)%N by lia.
have -> : (j - j0 < n)%N = (j < j0 + n)%N by lia.
by rewrite !subnKC.
Qed.

Variables (N s r : nat) (lead last : nat -> nat) (C0 : grid F).
Hypothesis r0 : (0 < r)%N.
Hypothesis rN : (r <= N)%N.
Hypothesis leadS : forall x y, (x < y < r)%N -> (lead x < lead y)%N.
Hypothesis leadL : forall x, (x < r)%N -> (lead x <= last x < N)%N.
Hypothesis supp : forall x c, (x < N)%N -> (c < N)%N -> C0 x c != 0 -> (x < r)%N /\ (lead x <= c <= last x)%N.
Hypothesis order : forall c, (c < N)%N -> (count (fun x => lead x <= c <= last x) (iota 0 r) <= s)%N.

Lemma s0 : (0 < s)%N.
Proof.
have c0 : (lead 0 < N)%N by have := leadL r0; lia.
have := order c0; case: (posnP s) => // ->; rewrite leqNgt -has_count => /negP; case; apply/hasP.
by exists 0%N; rewrite ?mem_iota //=; have := leadL r0; lia.
Qed.
Let s0 := s0.

Definition Kf (j : nat) : nat := if j == 0%N then 0%N else if (j * s < r)%N then lead (j * s)%N else N.

Lemma Kf_lt j : (j * s < r)%N -> (Kf j < Kf j.+1)%N.
Proof.
move=> h; rewrite /Kf /=; case: (posnP j) => [->|j0].
  by case: ifP => [h'|]; [have := @leadS 0 (1 * s); lia | lia].
rewrite h; case: ifP => [h'|_]; first by apply: leadS; nia.
by have := leadL h; lia.
Qed.

Lemma Kf_mono i j : (i <= j)%N -> (j * s < r)%N -> (Kf i <= Kf j)%N.
Proof.
elim: j => [|j IH]; first by rewrite leqn0 => /eqP ->.
rewrite leq_eqVlt => /orP[/eqP -> //|ij] jr.
have jr' : (j * s < r)%N by move: jr; rewrite mulSn; lia.
by apply: leq_trans (IH ij jr') _; apply/ltnW/Kf_lt.
Qed.

Lemma Kf_N j : (Kf j <= N)%N.
Proof. by rewrite /Kf; case: eqP => // _; case: ifP => // /leadL; lia. Qed.

Lemma Kf_lead x j : (j * s <= x < r)%N -> (Kf j <= lead x)%N.
Proof.
rewrite /Kf; case: eqP => // _ h; rewrite ifT; last by lia.
by have := @leadS (j * s) x; case: (ltngtP (j * s)%N x) => [||->]; lia.
Qed.

Lemma lead_Kf x j : (x < r)%N -> (x < j.+1 * s)%N -> (lead x < Kf j.+1)%N.
Proof.
move=> h h'; rewrite /Kf /=; case: ifP => [h2|_]; first by apply: leadS; lia.
by have := leadL h; lia.
Qed.

Lemma C0_lead x c j : (j * s <= x)%N -> (x < N)%N -> (c < Kf j)%N -> C0 x c = 0.
Proof.
move=> h1 h2 h3; apply/eqP; apply/negP => /negP nz.
have [xr] := supp h2 (leq_trans h3 (Kf_N j)) nz.
by have := @Kf_lead x j; lia.
Qed.

Lemma C0_last x c : (x < r)%N -> (last x < c < N)%N -> C0 x c = 0.
Proof.
move=> xr h; apply/eqP; apply/negP => /negP nz.
by have [||_] := supp _ _ nz; lia.
Qed.

Lemma bd_blocksE fuel C X (K : nat -> nat) nb0 : (nb0 * s < r)%N -> (r - nb0 * s <= fuel)%N ->
  exists X' K' nb, [/\ bd_blocks fuel N s r lead C X K (Kf nb0) nb0 (nb0 * s) = Some (X', K', nb),
    ((nb - 1) * s < r <= nb * s)%N /\ (nb0 < nb)%N,
    forall j, K' j = if (nb0 <= j <= nb)%N then Kf j else K j,
    forall i c, [|| c < Kf nb0, N <= c | s <= i]%N -> X' i c = X i c &
    forall j i c, (nb0 <= j < nb)%N -> (Kf j <= c < Kf j.+1)%N -> (i < s)%N -> (j * s + i < r)%N ->
      X' i c = C (j * s + i)%N c].
Proof.
elim: fuel nb0 X K => [|n IH] nb0 X K h fu; first by lia.
rewrite /= h; case: (leqP r (nb0 * s + s)) => lst.
- have e : (nb0 * s + (r - nb0 * s))%N = r by lia.
  rewrite e; have -> : forall X1 K1 k, bd_blocks n N s r lead C X1 K1 N k r = Some (X1, upd1 K1 k N, k).
    by case: (n) => [|n'] X1 K1 k /=; rewrite ltnn.
  have kn : Kf nb0.+1 = N by rewrite /Kf /= ifF //; apply/negP; lia.
  eexists; eexists; eexists; split; first by [].
  + by split; nia.
  + move=> j; rewrite /upd1; case: (j =P nb0.+1) => [->|ne]; first by rewrite kn ifT //; lia.
    by case: (j =P nb0) => [->|ne']; [rewrite ifT | rewrite ifF]; lia.
  + by move=> i c hc; rewrite winE ifF //; have := Kf_N nb0; lia.
  + move=> j i c hj hc hi hr; have jE : j = nb0 by lia.
    move: hc hr; rewrite jE kn => hc hr; rewrite winE ifT; last by lia.
    by rewrite subn0 subnKC //; lia.
- have h' : (nb0.+1 * s < r)%N by rewrite mulSn; lia.
  have kE : Kf nb0.+1 = lead (nb0 * s + s)%N by rewrite /Kf /= h' mulSn addnC.
  have e : (nb0 * s + s)%N = (nb0.+1 * s)%N by rewrite mulSn addnC.
  rewrite -kE e; set X1 := at_ _ _ _ _; set K1 := upd1 _ _ _.
  have [||X' [K' [nb [E [h1 h2] h3 h4 h5]]]] := IH nb0.+1 X1 K1; [by []|by lia|].
  have lt := Kf_lt h.
  exists X', K', nb; split=> //.
  + by split=> //; lia.
  + move=> j; rewrite h3 /K1 /upd1; case: (j =P nb0) => [->|ne].
      by rewrite ifF ?ifT //; lia.
    by congr (if _ then _ else _); lia.
  + move=> i c hc; rewrite h4; last by lia.
    by rewrite /X1 winE ifF //; have := Kf_N nb0; have := Kf_N nb0.+1; lia.
  + move=> j i c hj hc hi hr; case: (j =P nb0) => [jE|ne]; last by apply: h5 => //; lia.
    rewrite jE in hc hr *; rewrite h4; last by lia.
    rewrite /X1 winE ifT; last by lia.
    by rewrite subn0 subnKC //; lia.
Qed.

(** Who sits where: [o t] is the line whose tail is in slot t of block j-1. *)
Definition slots (j : nat) (st : bd_state F) (o : nat -> nat) : Prop :=
  [/\ forall t c, (t < s)%N -> (j.-1 * s + t < r)%N -> (Kf j <= c < N)%N -> bdC st (j.-1 * s + t)%N c = C0 (o t) c,
      forall t, (t < s)%N -> (j.-1 * s + t < r)%N -> bdL st (j.-1 * s + t)%N = last (o t) /\ (o t < j * s)%N /\ (o t < r)%N,
      forall t t', (t < s)%N -> (j.-1 * s + t < r)%N -> (t' < s)%N -> (j.-1 * s + t' < r)%N -> o t = o t' -> t = t',
      forall x, (j * s <= x)%N -> (forall c, bdC st x c = C0 x c) /\ ((x < r)%N -> bdL st x = last x) &
      forall x, (j.-1 * s <= x < r)%N -> bdT st x = x].

(** How block j takes over from block j-1. *)
Definition moves (j t0 : nat) (T o o' : nat -> nat) : Prop :=
  (forall t, (t < t0)%N -> (T (j.-1 * s + t) = j.-1 * s + t /\ last (o t) < Kf j.+1)%N \/
     exists l, [/\ (l < s)%N, (j * s + l < r)%N, T (j.-1 * s + t)%N = (j * s + l)%N, o' l = o t &
                   (last (j * s + l) < Kf j.+1 <= last (o t))%N]) /\
  (forall l, (l < s)%N -> (j * s + l < r)%N ->
     (o' l = j * s + l /\ forall t, t < t0 -> T (j.-1 * s + t) <> j * s + l)%N \/
     exists t, [/\ (t < t0)%N, T (j.-1 * s + t)%N = (j * s + l)%N & o' l = o t]).

Section Step.
Variables (j : nat) (K : nat -> nat) (st0 : bd_state F) (o : nat -> nat).
Hypothesis j0 : (0 < j)%N.
Hypothesis jr : (j * s < r)%N.
Hypothesis KE : K j = Kf j /\ K j.+1 = Kf j.+1.
Hypothesis I0 : slots j st0 o.

Lemma prev t : (t < s)%N -> (j.-1 * s + t < j * s)%N /\ (j.-1 * s + t < r)%N.
Proof. by move=> ts; have : (j * s = j.-1 * s + s)%N; [rewrite -{1}(prednK j0) mulSn addnC | lia]. Qed.

Definition mid (t0 : nat) (st : bd_state F) (o' : nat -> nat) : Prop :=
  [/\ forall x, (x < j * s)%N -> (forall c, bdC st x c = bdC st0 x c) /\ bdL st x = bdL st0 x,
      forall x, ~~ (j.-1 * s <= x < j.-1 * s + t0)%N -> bdT st x = bdT st0 x,
      forall x, (j.+1 * s <= x)%N -> (forall c, bdC st x c = C0 x c) /\ ((x < r)%N -> bdL st x = last x),
      forall l, (l < s)%N -> (j * s + l < r)%N ->
        [/\ forall c, (Kf j.+1 <= c < N)%N -> bdC st (j * s + l)%N c = C0 (o' l) c,
            bdL st (j * s + l)%N = last (o' l) & (o' l < j.+1 * s)%N /\ (o' l < r)%N] &
      moves j t0 (bdT st) o o'].

Lemma mid_inj t0 st o' : (t0 <= s)%N -> mid t0 st o' -> forall l l', (l < s)%N -> (j * s + l < r)%N -> (l' < s)%N ->
  (j * s + l' < r)%N -> o' l = o' l' -> l = l'.
Proof.
move=> ts [_ _ _ _ [_ B]] l l' h1 h2 h3 h4 e.
have [_ I2 I3 _ _] := I0.
have [[e1 _]|[t [k1 k2 k3]]] := B l h1 h2; have [[e2 _]|[t' [k1' k2' k3']]] := B l' h3 h4.
- by lia.
- by have [] := I2 t' _ (prev (leq_trans k1' ts)).2; lia.
- by have [] := I2 t _ (prev (leq_trans k1 ts)).2; lia.
- have tt : t = t' by apply: I3; rewrite -?k3 -?k3' //; try (by lia); apply: (prev _).2; lia.
  by move: k2 k2'; rewrite tt; lia.
Qed.

Lemma fold_step t0 st o' : (t0 < s)%N -> mid t0 st o' -> exists st' o'', bd_fold s r K j t0 st = Some st' /\ mid t0.+1 st' o''.
Proof.
move=> ts H; have inj := mid_inj (ltnW ts) H.
have [I1 I2 I3 I4 I5] := I0; have [H1 H2 H3 H4 [HA HB]] := H.
have [p1 p2] := prev ts.
have [L0 [o0 o1]] := I2 t0 ts p2.
rewrite /bd_fold KE.2 (H1 _ p1).2 L0; set x := (j.-1 * s + t0)%N.
case: (leqP (Kf j.+1) (last (o t0))) => alive; last first.
  exists st, o'; split=> //; split=> //; first by move=> y hy; apply: H2; lia.
  split=> [t|l hl hr]; last first.
    have [[e1 e2]|[t [k1 k2 k3]]] := HB l hl hr; last by right; exists t; split=> //; lia.
    left; split=> // t; rewrite ltnS leq_eqVlt => /orP[/eqP ->|/e2] //.
    by rewrite H2 ?I5; lia.
  rewrite ltnS leq_eqVlt => /orP[/eqP ->|/HA] //; left; split=> //.
  by rewrite H2 ?I5; lia.
(* the line is still alive: a slot is free *)
have jr' : (j.+1 * s < r)%N.
  rewrite ltnNge; apply/negP => h; move: alive; rewrite /Kf /= ifF; last by lia.
  by have := leadL o1; lia.
have KE' : Kf j.+1 = lead (j.+1 * s)%N by rewrite /Kf /= jr'.
have full l : (l < s)%N -> (j * s + l < r)%N by move=> ls; move: jr'; rewrite mulSn; lia.
have [l0 l0s l0d] : exists2 l, (l < s)%N & (bdL st (j * s + l) < Kf j.+1)%N.
  case: (boolP (has (fun l => bdL st (j * s + l) < Kf j.+1)%N (iota 0 s))) => [/hasP[l]|].
    by rewrite mem_iota => h1 h2; exists l => //; lia.
  rewrite -all_predC => /allP al; exfalso.
  have KN : (Kf j.+1 < N)%N by have := leadL jr'; rewrite KE'; lia.
  have := order KN; rewrite -size_filter; set flt := filter _ _ => sz.
  have : uniq ((j.+1 * s)%N :: [seq o' l | l <- iota 0 s]).
    rewrite cons_uniq map_inj_in_uniq ?iota_uniq ?andbT.
      apply/negP => /mapP[l]; rewrite mem_iota => hl e.
      have ls : (l < s)%N by lia.
      by have [_ _ []] := H4 l ls (full l ls); lia.
    by move=> a b; rewrite !mem_iota => ha hb; apply: inj; try (apply: full); lia.
  move=> /(@uniq_leq_size _ _ flt) h; have {h} : ((s.+1) <= size flt)%N.
    rewrite -[s in s.+1](size_iota 0 s) -(size_map o'); apply: h => y; rewrite inE => /orP[/eqP ->|/mapP[l]].
      by rewrite mem_filter mem_iota KE' leqnn /= add0n jr' andbT; have := leadL jr'; lia.
    rewrite mem_iota => hl ->; have ls : (l < s)%N by lia.
    have [_ e [h1 h2]] := H4 l ls (full l ls).
    have := al l; rewrite mem_iota /= e => h; rewrite mem_filter mem_iota add0n h2 andbT.
    by have := lead_Kf h2 h1; lia.
  by lia.
set p := fun l => (bdL st (j * s + l) < Kf j.+1)%N; set l := find p _.
have hp : has p (iota 0 (r - j * s)).
  by apply/hasP; exists l0 => //; rewrite mem_iota; have := full l0 l0s; lia.
have lr : (l < r - j * s)%N by have := hp; rewrite has_find size_iota.
have pl : p l by have := nth_find 0%N hp; rewrite nth_iota.
have ls : (l < s)%N.
  apply: (leq_ltn_trans _ l0s); rewrite leqNgt; apply/negP => lt.
  have := before_find 0%N lt; rewrite nth_iota ?add0n; last by have := full l0 l0s; lia.
  by rewrite /p l0d.
rewrite lr; set st' := BdS _ _ _; exists st', (upd1 o' l (o t0)); split=> //.
have lR := full l ls; have [Hl1 Hl2 [Hl3 Hl4]] := H4 l ls lR.
have dl : (last (o' l) < Kf j.+1)%N by rewrite -Hl2.
have xl : (x < j * s + l)%N by rewrite /x; lia.
have lastl : (last (j * s + l) < Kf j.+1)%N.
  have [[<- _]|[t [k1 k2 k3]]] := HB l ls lR; first by [].
  have [[e _]|[l' [h1 h2 h3 h4 h5]]] := HA t k1; last by move: dl; rewrite k3; lia.
  by have := prev (ltn_trans k1 ts); rewrite -e k2; lia.
split.
- move=> y hy; split=> /= [c|]; last by rewrite /upd1 ifF ?(H1 _ hy).2 //; lia.
  by rewrite winE ifF ?(H1 _ hy).1 //; lia.
- by move=> y hy; rewrite /= /upd1 ifF ?H2 //; lia.
- move=> y hy; have ny : (j * s + l < y)%N by move: hy; rewrite mulSn; lia.
  split=> /= [c|yr]; last by rewrite /upd1 ifF ?(H3 _ hy).2 //; lia.
  by rewrite winE ifF ?(H3 _ hy).1 //; lia.
- move=> l' hl' hr'; have [k1 k2 k3] := H4 l' hl' hr'; rewrite /= /upd1 eqn_add2l.
  case: (l' =P l) => [e|ne]; last first.
    by split=> // c hc; rewrite winE ifF ?k1 //; lia.
  split=> // [c hc|]; last by move: (o0); rewrite mulSn; lia.
  rewrite winE e; case: ifP => hh.
    by rewrite subnKC ?(H1 _ p1).1 ?I1 //; have := Kf_lt jr; lia.
  by rewrite Hl1 // !C0_last //; lia.
split=> [t|l' hl' hr'].
- rewrite ltnS leq_eqVlt => /orP[/eqP ->|tt].
    by right; exists l; rewrite /= /upd1 !eqxx; split=> //; rewrite lastl alive.
  rewrite /= /upd1 ifF; last by rewrite /x; lia.
  have [h|[l' [h1 h2 h3 h4 h5]]] := HA t tt; first by left.
  right; exists l'; split=> //; rewrite ifF //; apply/negP => /eqP e.
  by move: dl; rewrite -e h4; lia.
- rewrite /= /upd1; case: (l' =P l) => [->|ne].
    by right; exists t0; rewrite eqxx.
  have [[e1 e2]|[t [k1 k2 k3]]] := HB l' hl' hr'; last first.
    by right; exists t; split=> //; [lia | rewrite ifF // /x; lia].
  left; split=> // t; rewrite ltnS leq_eqVlt => /orP[/eqP ->|tt]; first by rewrite eqxx; lia.
  by rewrite ifF; [exact: e2 | rewrite /x; lia].
Qed.

Lemma fold_all X : exists st o', bd_S N s r K j (st0, X) =
    Some (st, at_ s (Kf j) (fill s (Kf j.+1 - Kf j) (fun i c => bdC st0 (j.-1 * s + i)%N (Kf j + c)%N)) X) /\
  [/\ slots j.+1 st o', moves j s (bdT st) o o', forall x, ~~ (j.-1 * s <= x < j * s)%N -> bdT st x = bdT st0 x &
      forall t c, (t < s)%N -> (Kf j <= c < N)%N -> bdC st0 (j.-1 * s + t)%N c = C0 (o t) c].
Proof.
have [I1 I2 I3 I4 I5] := I0.
have M0 : mid 0 st0 (fun l => j * s + l)%N.
  split=> //.
  - by move=> x hx; have [] := I4 x; first by move: hx; rewrite mulSn; lia.
  - move=> l hl hr; have [e1 e2] := I4 (j * s + l)%N (leq_addr _ _); split=> [c _||]; [exact: e1|exact: e2|].
    by rewrite mulSn; lia.
  - by split=> // l hl hr; left.
have H t : (t <= s)%N -> exists st o', iteri t (fun t o => obind (bd_fold s r K j t) o) (Some st0) = Some st /\ mid t st o'.
  elim: t => [|t IH] ht; first by exists st0, (fun l => j * s + l)%N.
  have [st [o' [E M]]] := IH (ltnW ht).
  have [st' [o'' [E' M']]] := fold_step ht M.
  by exists st', o''; rewrite iteriS E /= E'.
have [st [o' [E M]]] := H s (leqnn s).
exists st, o'; rewrite /bd_S KE.1 KE.2 E; split=> //.
have inj := mid_inj (leqnn s) M; have [M1 M2 M3 M4 M5] := M.
have js : (j * s = j.-1 * s + s)%N by rewrite -{1}(prednK j0) mulSn addnC.
split=> //.
- split=> //=.
  + by move=> t c ht hr; have [e _ _] := M4 t ht hr; exact: e.
  + by move=> t ht hr; have [_ -> [-> ->]] := M4 t ht hr.
  + by move=> x hx; rewrite M2 ?I5; lia.
- by move=> x hx; apply: M2; rewrite -js.
- by move=> t c ht hc; apply: I1 => //; exact: (prev ht).2.
Qed.

End Step.

Definition own_inj (own : nat -> nat -> nat) (b : nat) : Prop :=
  forall t t', (t < s)%N -> (b * s + t < r)%N -> (t' < s)%N -> (b * s + t' < r)%N -> own b t = own b t' -> t = t'.

Lemma moves_ext j T T' o o' : (forall t, (t < s)%N -> T' (j.-1 * s + t)%N = T (j.-1 * s + t)%N) ->
  moves j s T o o' -> moves j s T' o o'.
Proof.
move=> e [A B]; split=> [t ts|l hl hr]; first by rewrite e //; exact: A.
have [[e1 e2]|[t [k1 k2 k3]]] := B l hl hr; last by right; exists t; rewrite e.
by left; split=> // t ts; rewrite e //; exact: e2.
Qed.

Lemma folds nb K st0 X m : ((nb - 1) * s < r)%N -> (m <= nb - 1)%N -> (forall j, (j <= nb)%N -> K j = Kf j) ->
  slots 1 st0 id ->
  exists st X' own, iteri m (fun j o => obind (bd_S N s r K j.+1) o) (Some (st0, X)) = Some (st, X') /\
  [/\ slots m.+1 st (own m) /\ own 0%N =1 id, forall b, (b < m)%N -> moves b.+1 s (bdT st) (own b) (own b.+1),
      forall b, (b <= m)%N -> own_inj own b /\ (forall t, (t < s)%N -> (b * s + t < r)%N -> (own b t < r)%N),
      forall i c, ~~ (s <= i < s + s)%N || (N <= c)%N -> X' i c = X i c &
      forall b t c, (b < m)%N -> (t < s)%N -> (Kf b.+1 <= c < Kf b.+2)%N -> X' (s + t)%N c = C0 (own b t) c].
Proof.
move=> nbr; elim: m => [|m IH] mn KE I0.
  exists st0, X, (fun _ => id); split=> //; split=> // b; rewrite leqn0 => /eqP ->.
  by split=> // t t'; have [_ _ h _ _] := I0; exact: h.
have [st [X1 [own [E [[S1 own0] mv inj Xf Xv]]]]] := IH (ltnW mn) KE I0.
have jr : (m.+1 * s < r)%N by apply: leq_ltn_trans nbr; rewrite leq_mul2r mn orbT.
have KE2 : K m.+1 = Kf m.+1 /\ K m.+2 = Kf m.+2 by rewrite !KE //; lia.
have [st' [o' [E' [S2 mv2 T2 C2]]]] := fold_all (ltn0Sn m) jr KE2 S1 X1.
rewrite iteriS E /= E'.
set own' := fun b => if b == m.+1 then o' else own b.
have own'E b : (b <= m)%N -> own' b = own b by move=> h; rewrite /own' ifF //; lia.
eexists; eexists; exists own'; split; first by [].
have K1 := Kf_N m.+1; have K2 := Kf_N m.+2.
split.
- by rewrite /own' eqxx; split=> // x; rewrite own'E.
- move=> b; rewrite ltnS leq_eqVlt => /orP[/eqP ->|bm].
    by rewrite own'E // /own' eqxx.
  rewrite !own'E //; last by lia.
  apply: moves_ext (mv b bm) => t ts; apply: T2; rewrite /=.
  by have : (b.+1 * s <= m * s)%N; [rewrite leq_mul2r bm orbT | rewrite mulSn; lia].
- move=> b; rewrite leq_eqVlt => /orP[/eqP ->|bm]; last by rewrite /own_inj own'E //; exact: inj.
  have [_ g h _ _] := S2; rewrite /own_inj /own' eqxx; split; first exact: h.
  by move=> t ts tr; have [_ []] := g t ts tr.
- by move=> i c h; rewrite winE ifF ?Xf //; lia.
- move=> b t c; rewrite ltnS leq_eqVlt => /orP[/eqP ->|bm] ts hc.
    rewrite own'E // winE ifT; last by lia.
    by rewrite addKn subnKC ?C2 //; lia.
  rewrite own'E ?(ltnW bm) // winE ifF; first exact: Xv.
  have: (Kf b.+2 <= Kf m.+1)%N; last by lia.
  by apply: Kf_mono => //; lia.
Qed.

Lemma blk_copy m (lo hi : nat -> nat) (f : nat -> grid F) A b t c : (t < s)%N ->
  iteri m (fun i A => at_ (i * s) (lo i) (fill s (hi i - lo i) (f i)) A) A (b * s + t)%N c =
  if (b < m)%N && (lo b <= c < hi b)%N then f b t (c - lo b)%N else A (b * s + t)%N c.
Proof.
move=> ts; elim: m => // m IH; rewrite iteriS winE IH.
have -> : (m * s <= b * s + t < m * s + s)%N = (b == m).
  apply/idP/eqP => [|->]; last by lia.
  case: (ltngtP b m) => // h.
    by have : (b.+1 * s <= m * s)%N; [rewrite leq_mul2r h orbT | rewrite mulSn; lia].
  by have : (m.+1 * s <= b * s)%N; [rewrite leq_mul2r h orbT | rewrite mulSn; lia].
case: (b =P m) => [->|ne]; last by have -> : (b < m.+1)%N = (b < m)%N by lia.
rewrite ltnn ltnSn /= addKn.
by have -> : (lo m <= c < lo m + (hi m - lo m))%N = (lo m <= c < hi m)%N by lia.
Qed.

Section Expand.
Variables (nb : nat) (K T : nat -> nat) (own : nat -> nat -> nat) (X : grid F).
Hypothesis nbr : ((nb - 1) * s < r <= nb * s)%N.
Hypothesis KE : forall j, (j <= nb)%N -> K j = Kf j.
Hypothesis own0 : own 0%N =1 id.
Hypothesis mv : forall b, (b < nb - 1)%N -> moves b.+1 s T (own b) (own b.+1).
Hypothesis inj : forall b, (b <= nb - 1)%N -> own_inj own b.
Hypothesis ownr : forall b t, (b < nb - 1)%N -> (t < s)%N -> (own b t < r)%N.
Hypothesis XS : forall b t c, (b < nb - 1)%N -> (t < s)%N -> (Kf b.+1 <= c < Kf b.+2)%N -> X (s + t)%N c = C0 (own b t) c.
Hypothesis XD : forall j i c, (j < nb)%N -> (Kf j <= c < Kf j.+1)%N -> (i < s)%N -> (j * s + i < r)%N ->
  X i c = C0 (j * s + i)%N c.

Lemma nb0 : (0 < nb)%N. Proof. by move: nbr; case: nb => //; lia. Qed.
Let nb0 := nb0.

Lemma KfNb : Kf nb = N. Proof. by rewrite /Kf ifF ?ifF //; lia. Qed.

Lemma blkr b t : (b < nb - 1)%N -> (t < s)%N -> (b * s + t < r)%N.
Proof.
move=> bn ts; have : (b.+1 * s <= (nb - 1) * s)%N by rewrite leq_mul2r bn orbT.
by rewrite mulSn; lia.
Qed.

Lemma blk_inj b t b' t' : (t < s)%N -> (t' < s)%N -> (b * s + t = b' * s + t')%N -> b = b' /\ t = t'.
Proof.
move=> ts ts' e; have : b = b'; last by move=> eb; split=> //; move: e; rewrite eb; lia.
have := congr1 (fun x => x %/ s)%N e; rewrite /= !divnMDl //.
by rewrite !divn_small // !addn0.
Qed.

(** the state of the unfolding: block b still folded *)
Definition unf (b0 : nat) A : Prop :=
  [/\ forall b t c, (b < b0)%N -> (t < s)%N -> (c < N)%N ->
        A (b * s + t)%N c = if (Kf b.+1 <= c < Kf b.+2)%N then C0 (own b t) c else 0,
      forall t c, (b0 < nb - 1)%N -> (t < s)%N -> (c < N)%N ->
        A (b0 * s + t)%N c = if (Kf b0.+1 <= c)%N then C0 (own b0 t) c else 0,
      forall b t c, (b0 < b < nb - 1)%N -> (t < s)%N -> (c < N)%N ->
        A (b * s + t)%N c = if (Kf b.+1 <= c)%N then C0 (b * s + t)%N c else 0 &
      forall x c, ((nb - 1) * s <= x < N)%N -> (c < N)%N -> A x c = 0].

Definition unf_in (b l0 : nat) A : Prop :=
  [/\ forall b' t c, (b' < b)%N -> (t < s)%N -> (c < N)%N ->
        A (b' * s + t)%N c = if (Kf b'.+1 <= c < Kf b'.+2)%N then C0 (own b' t) c else 0,
      forall t c, (t < s)%N -> (c < N)%N ->
        A (b * s + t)%N c = if (Kf b.+1 <= c)%N && ((t < l0) || (c < Kf b.+2))%N then C0 (own b t) c else 0,
      forall t c, (t < s)%N -> (c < N)%N ->
        A (b.+1 * s + t)%N c = if (Kf b.+2 <= c)%N then
           (if has (fun t' => T (b * s + t') == b.+1 * s + t)%N (iota 0 l0) then C0 (b.+1 * s + t)%N c
            else C0 (own b.+1 t) c) else 0,
      forall b' t c, (b.+1 < b' < nb - 1)%N -> (t < s)%N -> (c < N)%N ->
        A (b' * s + t)%N c = if (Kf b'.+1 <= c)%N then C0 (b' * s + t)%N c else 0 &
      forall x c, ((nb - 1) * s <= x < N)%N -> (c < N)%N -> A x c = 0].

Definition unf_step (b l : nat) A : grid F :=
  let x := (b * s + l)%N in let k := K b.+2 in
  if T x != x then
    let A := memo N N (at_ x k (fill 1 (N - k) (fun _ c => A (T x) (k + c)%N)) A) in
    at_ (T x) k (fzero 1 (N - k)) A
  else A.

Lemma unf_stepE b l A : (b.+2 < nb)%N -> (l < s)%N -> unf_in b l A -> unf_in b l.+1 (unf_step b l A).
Proof.
move=> bn ls [H1 H2 H3 H4 H5]; rewrite /unf_step KE; last by lia.
have b1 : (b < nb - 1)%N by lia.
have b1' : (b.+1 < nb - 1)%N by lia.
have [A1 B1] := mv b1.
have hasS t : has (fun t' => T (b * s + t') == b.+1 * s + t)%N (iota 0 l.+1) =
   has (fun t' => T (b * s + t') == b.+1 * s + t)%N (iota 0 l) || (T (b * s + l) == b.+1 * s + t)%N.
  by rewrite -(addn1 l) iotaD has_cat /= add0n orbF.
have [[e dead]|[l' [k1 k2 k3 k4 k5]]] := A1 l ls.
  rewrite /= in e; rewrite e eqxx /=; split=> // [t c ts cN|t c ts cN].
    rewrite H2 //; case: (t =P l) => [->|ne].
      rewrite ltnSn ltnn /=; case: (leqP (Kf b.+1) c) => h1 //=.
      case: (ltnP c (Kf b.+2)) => h2 //; apply/esym/C0_last; [exact: ownr|lia].
    by have -> : (t < l.+1)%N = (t < l)%N by lia.
  rewrite H3 // hasS e; have -> : (b * s + l == b.+1 * s + t)%N = false by rewrite mulSn; lia.
  by rewrite orbF.
have bb : (b.+1 * s = b * s + s)%N by rewrite mulSn addnC.
rewrite /= in k3; rewrite k3; have -> : (b.+1 * s + l' != b * s + l)%N by lia.
have fresh : has (fun t' => T (b * s + t') == b.+1 * s + l')%N (iota 0 l) = false.
  apply/negP => /hasP[t]; rewrite mem_iota => ht /eqP eT; have ts : (t < s)%N by lia.
  have [[e _]|[m [m1 m2 m3 m4 m5]]] := A1 t ts; first by rewrite /= in e; lia.
  rewrite /= in m3; have ml : m = l' by lia.
  have: t = l; last by lia.
  apply: (inj (ltnW b1)) => //; try exact: blkr.
  by rewrite -m4 -k4 ml.
have vE y c : at_ (b.+1 * s + l') (Kf b.+2) (fzero 1 (N - Kf b.+2))
     (memo N N (at_ (b * s + l) (Kf b.+2) (fill 1 (N - Kf b.+2) (fun _ c => A (b.+1 * s + l')%N (Kf b.+2 + c)%N)) A)) y c =
   if (y == b.+1 * s + l')%N && (Kf b.+2 <= c < N)%N then 0 else
   if (y == b * s + l)%N && (Kf b.+2 <= c < N)%N then A (b.+1 * s + l')%N c else A y c.
  rewrite /fzero winE memoE winE.
  have h k m : (m <= k < m + 1)%N = (k == m) by lia.
  have h2 : (Kf b.+2 <= c < Kf b.+2 + (N - Kf b.+2))%N = (Kf b.+2 <= c < N)%N by lia.
  rewrite !h h2; congr (if _ then _ else _); case: ifP => // /andP[_ hc].
  by rewrite subnKC //; lia.
have KNN := Kf_N b.+2.
split.
- move=> b' t c hb ts cN; rewrite vE.
  have hb' : (b'.+1 * s <= b * s)%N by rewrite leq_mul2r hb orbT.
  have -> : (b' * s + t == b.+1 * s + l')%N = false by move: hb'; rewrite mulSn; lia.
  have -> : (b' * s + t == b * s + l)%N = false by move: hb'; rewrite mulSn; lia.
  exact: H1.
- move=> t c ts cN; rewrite vE.
  have -> : (b * s + t == b.+1 * s + l')%N = false by lia.
  rewrite eqn_add2l cN andbT; case: (t =P l) => [->|ne] /=.
    rewrite ltnSn /= andbT; case: (leqP (Kf b.+2) c) => h1.
      rewrite H3 // h1 fresh k4 ifT //.
      by have := Kf_lt (_ : b.+1 * s < r)%N; have := blkr b1' s0; lia.
    by rewrite H2 // ltnn h1 /= andbT.
  by rewrite H2 //; have -> : (t < l.+1)%N = (t < l)%N by lia.
- move=> t c ts cN; rewrite vE hasS k3 !eqn_add2l cN andbT.
  have -> : (b.+1 * s + t == b * s + l)%N = false by lia.
  rewrite /= eq_sym; case: (l' =P t) => [<-|ne]; last by rewrite orbF H3.
  rewrite orbT /=; case: (leqP (Kf b.+2) c) => h1; last by rewrite H3 // leqNgt h1.
  by apply/esym/C0_last => //; lia.
- move=> b' t c hb ts cN; rewrite vE.
  have hb' : (b.+2 * s <= b' * s)%N by rewrite leq_mul2r; lia.
  have -> : (b' * s + t == b.+1 * s + l')%N = false by move: hb'; rewrite mulSn; lia.
  have -> : (b' * s + t == b * s + l)%N = false by move: hb'; rewrite mulSn; lia.
  exact: H4.
- move=> y c hy cN; rewrite vE.
  have hb' : (b.+2 * s <= (nb - 1) * s)%N by rewrite leq_mul2r; lia.
  have -> : (y == b.+1 * s + l')%N = false by move: hb'; rewrite mulSn; lia.
  have -> : (y == b * s + l)%N = false by move: hb'; rewrite mulSn; lia.
  exact: H5.
Qed.

Lemma unf_block b A : (b.+2 < nb)%N -> unf b.+1 A -> unf b (memo N N (iteri s (unf_step b) A)).
Proof.
move=> bn [H1 H2 H3 H4].
have b1 : (b < nb - 1)%N by lia.
have b1' : (b.+1 < nb - 1)%N by lia.
have start : unf_in b 0 A.
  split=> //.
  - by move=> b' t c hb; apply: H1; lia.
  - by move=> t c ts cN; rewrite H1 // ltn0.
  - by move=> t c ts cN; rewrite H2.
have H l : (l <= s)%N -> unf_in b l (iteri l (unf_step b) A).
  by elim: l => // l IH ls; rewrite iteriS; apply: unf_stepE => //; apply: IH; lia.
have [G1 G2 G3 G4 G5] := H s (leqnn s).
split=> [b' t c hb ts cN|t c _ ts cN|b' t c hb ts cN|x c hx cN]; rewrite memoE.
- exact: G1.
- by rewrite G2 // ts andbT.
- case: (b' =P b.+1) => [->|ne]; last by apply: G4 => //; lia.
  rewrite G3 //; case: ifP => // hc; case: hasP => // no.
  have [_ B1] := mv b1; have [[-> _] //|[t' [k1 k2 k3]]] := B1 t ts (blkr b1' ts).
  by case: no; exists t'; rewrite ?mem_iota //; apply/eqP.
- exact: G5.
Qed.

Lemma expandE A0 x c : (x < N)%N -> (c < N)%N ->
  let A := fzero N N A0 in
  let A := memo N N (iteri (nb - 1) (fun j' A => let j := j'.+1 in
    at_ (j.-1 * s) (K j) (fill s (K j.+1 - K j) (fun i c => X (s + i)%N (K j + c)%N)) A) A) in
  let A := iteri (nb - 2) (fun i' A => let i := i'.+1 in
    memo N N (iteri s (fun l A =>
      let x := ((nb - i - 2) * s + l)%N in let k := K (nb - i)%N in
      if T x != x then
        let A := memo N N (at_ x k (fill 1 (N - k) (fun _ c => A (T x) (k + c)%N)) A) in
        at_ (T x) k (fzero 1 (N - k)) A
      else A) A)) A in
  let A := iteri (nb - 1) (fun i A =>
    at_ (i * s) (K i) (fill s (K i.+1 - K i) (fun l c => X l (K i + c)%N)) A) A in
  at_ ((nb - 1) * s) (K (nb - 1)%N) (fill (r - (nb - 1) * s) (N - K (nb - 1)%N)
    (fun l c => X l (K (nb - 1) + c)%N)) A x c = C0 x c.
Proof.
move=> xN cN; cbv zeta; rewrite /=.
set A1 := memo N N (iteri (nb - 1) _ _); set A2 := iteri (nb - 2) _ A1; set A3 := iteri (nb - 1) _ A2.
have A1E b t y : (t < s)%N -> (y < N)%N -> (b * s + t < N)%N ->
   A1 (b * s + t)%N y = if (b < nb - 1)%N && (Kf b.+1 <= y < Kf b.+2)%N then C0 (own b t) y else 0.
  move=> ts yN bN; rewrite /A1 memoE.
  rewrite (blk_copy (nb - 1) (fun i => K i.+1) (fun i => K i.+2) (fun j i c => X (s + i)%N (K j.+1 + c)%N)) //.
  rewrite /fzero /fill bN yN /=; case: (ltnP b (nb - 1)) => h //=.
  rewrite !KE; try (by lia).
  by case: ifP => // hc; rewrite subnKC; [exact: XS | lia].
have A1o y d : ((nb - 1) * s <= y < N)%N -> (d < N)%N -> A1 y d = 0.
  move=> hy dN; have -> : y = (y %/ s * s + y %% s)%N by exact: divn_eq.
  have hb : (nb - 1 <= y %/ s)%N by rewrite leq_divRL //; lia.
  by rewrite A1E // ?ltn_mod // -?divn_eq ?ltnNge ?hb //; lia.
have U1 : unf (nb - 2) A1.
  split=> // [b t y hb ts yN|t y hb ts yN|b t y hb ts yN]; last by lia.
    by have bn : (b < nb - 1)%N by [lia]; rewrite A1E ?bn //; have := blkr bn ts; lia.
  rewrite A1E //; last by have := blkr hb ts; lia.
  rewrite hb /=; congr (if _ then _ else _).
  by have -> : ((nb - 2).+2 = nb)%N by [lia]; rewrite KfNb yN andbT.
have U2 : unf 0 A2.
  have U i : (i <= nb - 2)%N -> unf (nb - 2 - i) (iteri i (fun i' A => memo N N (iteri s (fun l A =>
      if T ((nb - i'.+1 - 2) * s + l) != ((nb - i'.+1 - 2) * s + l)%N then
        at_ (T ((nb - i'.+1 - 2) * s + l)) (K (nb - i'.+1)%N) (fzero 1 (N - K (nb - i'.+1)%N))
          (memo N N (at_ ((nb - i'.+1 - 2) * s + l) (K (nb - i'.+1)%N) (fill 1 (N - K (nb - i'.+1)%N)
             (fun _ c => A (T ((nb - i'.+1 - 2) * s + l)) (K (nb - i'.+1) + c)%N)) A))
      else A) A)) A1); last by rewrite -(subnn (nb - 2)%N); exact: U.
  elim: i => [|i IH] hi; first by rewrite subn0.
  rewrite iteriS; set B := iteri i _ A1.
  have -> : (nb - 2 - i.+1 = nb - i.+1 - 2)%N by lia.
  have kk : (nb - i.+1 = (nb - i.+1 - 2).+2)%N by lia.
  have UB : unf (nb - i.+1 - 2).+1 B.
    by have -> : ((nb - i.+1 - 2).+1 = nb - 2 - i)%N; [lia | apply: IH; lia].
  have := @unf_block (nb - i.+1 - 2) B _ UB; rewrite /unf_step -kk; apply.
  by lia.
have A2E b t y : (b < nb - 1)%N -> (t < s)%N -> (y < N)%N ->
    A2 (b * s + t)%N y = if (Kf b.+1 <= y)%N then C0 (b * s + t)%N y else 0.
  case: U2 => _ u2 u3 _; case: b => [|b] hb ts yN; last exact: u3.
  by rewrite u2 // own0.
have A2o : forall y d, ((nb - 1) * s <= y < N)%N -> (d < N)%N -> A2 y d = 0 by case: U2.
have xE := divn_eq x s; set b := (x %/ s)%N in xE; set t := (x %% s)%N in xE.
have ts : (t < s)%N by rewrite ltn_mod.
have A3E : A3 x c = if (b < nb - 1)%N && (Kf b <= c < Kf b.+1)%N then X t c else A2 x c.
  rewrite /A3 xE (blk_copy (nb - 1) K (fun i => K i.+1) (fun i l c => X l (K i + c)%N)) //.
  case: (ltnP b (nb - 1)) => h //=; rewrite !KE; try (by lia).
  by case: ifP => // hc; rewrite subnKC //; lia.
have nbE : (nb - 1).+1 = nb by lia.
rewrite winE KE; last by lia.
have hb : (nb - 1 <= b)%N = ((nb - 1) * s <= x)%N by rewrite leq_divRL.
case: (ltnP b (nb - 1)) => bn.
  rewrite ifF; last by lia.
  rewrite A3E bn /=; have xr := blkr bn ts; rewrite -xE in xr.
  case: ifP => hc; first by rewrite (XD (j := b)) -?xE //; lia.
  rewrite xE A2E // -xE; case: ifP => hc' //.
  by rewrite (C0_lead (j := b)) //; lia.
rewrite A3E (_ : (b < nb - 1)%N = false); last by lia.
rewrite [false && _]/= A2o //; last by lia.
have e : ((nb - 1) * s + (r - (nb - 1) * s))%N = r by lia.
rewrite e -hb bn /=.
have [KN1 KN2] : (Kf (nb - 1) <= N)%N /\ Kf nb = N by split; [exact: Kf_N | exact: KfNb].
have e2 : (Kf (nb - 1) <= c < Kf (nb - 1) + (N - Kf (nb - 1)))%N = (Kf (nb - 1) <= c)%N by lia.
rewrite e2; case: (ltnP x r) => xr /=; last first.
  by apply/esym/eqP; apply/negP => /negP /(supp xN cN)[]; lia.
case: ifP => hc; last by rewrite (C0_lead (j := nb - 1)) //; lia.
have x1 : ((nb - 1) * s + (x - (nb - 1) * s))%N = x by lia.
have x2 : (x - (nb - 1) * s < s)%N by have : (nb * s = (nb - 1) * s + s)%N; [rewrite -{1}nbE mulSn addnC | lia].
by rewrite subnKC // (XD (j := nb - 1)) ?x1 ?nbE ?KN2 //; lia.
Qed.

End Expand.
End Fold.
