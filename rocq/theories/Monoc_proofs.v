(** * Proofs: compression along the cycles *)
From mathcomp Require Import all_ssreflect zify.
From Verif Require Import Grid Perm_model Perm_spec Perm_proofs Mono_model Mono_spec Mono_proofs Monoc_model.
Set Implicit Arguments.
Unset Strict Implicit.
Unset Printing Implicit Defensive.

Section Cyc.
Variable T : Type.
Implicit Types A : grid T.
Variables (n M : nat) (mp : nat -> nat).
Hypothesis pm : is_perm n mp.

Lemma mpl x : x < n -> mp x < n. Proof. exact: (proj1 pm). Qed.
Lemma mpi x y : x < n -> y < n -> mp x = mp y -> x = y. Proof. exact: (proj2 pm). Qed.

Lemma iterl i k : i < n -> iter k mp i < n.
Proof. by move=> iN; elim: k => //= k IH; exact: mpl. Qed.

Lemma trajP i k x : reflect (exists2 t, t < k & x = iter t mp i) (x \in traject mp i k).
Proof. exact: trajectP. Qed.

(** One cycle *)
Lemma walkE i A1 D0 : i < n -> (forall x, x < n -> D0 x = D0 (mp x)) -> ~~ D0 i ->
  forall fuel k A D, n - k <= fuel -> uniq (traject mp i k.+1) ->
  (forall x, D x = D0 x || (x \in traject mp i k.+1)) ->
  (forall x y, A x y = if (y < M) && (x \in traject mp i k) then A1 (mp x) y else A1 x y) ->
  mp (iter k mp i) \notin traject mp i k.+1 ->
  exists K A' D', [/\ cyc_walk fuel M mp (iter k mp i) A D = Some (iter K mp i, A', D'),
    uniq (traject mp i K.+1), mp (iter K mp i) = i,
    forall x, D' x = D0 x || (x \in traject mp i K.+1) &
    forall x y, A' x y = if (y < M) && (x \in traject mp i K) then A1 (mp x) y else A1 x y].
Proof.
move=> iN cl i0.
have off t : ~~ D0 (iter t mp i) by elim: t => //= t IH; rewrite -cl // iterl.
elim=> [|fuel IH] k A D kf un hD hA nx.
  have /(uniq_leq_size un) : {subset traject mp i k.+1 <= iota 0 n}.
    by move=> x /trajP[t _ ->]; rewrite mem_iota /= add0n iterl.
  by rewrite size_traject size_iota; lia.
cbn [cyc_walk]; set A2 := setrow _ _ _ _; set D2 := mark _ D.
have un2 : uniq (traject mp i k.+2) by rewrite trajectSr rcons_uniq un andbT.
have hD2 x : D2 x = D0 x || (x \in traject mp i k.+2).
  by rewrite /D2 /mark hD [traject mp i k.+2]trajectSr mem_rcons inE /= orbCA.
have hA2 x y : A2 x y = if (y < M) && (x \in traject mp i k.+1) then A1 (mp x) y else A1 x y.
  rewrite /A2 /setrow hA [traject mp i k.+1]trajectSr mem_rcons inE.
  have no : mp (iter k mp i) \in traject mp i k = false.
    by apply: contraNF nx => h; rewrite trajectSr mem_rcons inE h orbT.
  rewrite no andbF /= hA; case: (y < M); rewrite ?andbF ?andbT //=.
  by case: (x =P iter k mp i) => [->|].
rewrite -[mp (iter k mp i)]/(iter k.+1 mp i); case: ifPn => h; last first.
  apply: IH => //; first lia.
  by apply: contra h => h; rewrite hD2 h orbT.
exists k.+1, A2, D2; split=> //.
have {h}/trajP[[|t] tk e] : iter k.+2 mp i \in traject mp i k.+2.
  by move: h; rewrite hD2 (negbTE (off k.+2)).
  by [].
have e' : iter k.+1 mp i = iter t mp i by apply: mpi; rewrite ?iterl.
by move: un2; rewrite trajectSr rcons_uniq => /andP[/negP[]]; apply/trajP; exists t.
Qed.

(** The state between cycles: D is the set of rows whose content has been
    moved to its place or saved; only rows below R are written. *)
Definition inv R A0 A (D : nat -> bool) : Prop :=
  [/\ forall x y, M <= y \/ ~~ D x -> A x y = A0 x y,
      forall x y, x < R -> y < M -> D (mp x) -> A x y = A0 (mp x) y,
      forall x, D x -> x < n /\ mp x != x &
      forall x, R <= x < n -> mp x != x -> D (mp x)].

Lemma cyclesE R A0 A D : R <= n -> inv R A0 A D -> (forall x, x < n -> D x = D (mp x)) ->
  exists A' D', [/\ cycles n M R mp A D = Some (A', D'), inv R A0 A' D' &
    forall x, x < R -> mp x != x -> D' (mp x)].
Proof.
move=> Rn; rewrite /cycles.
set f : nat -> option (grid T * (nat -> bool)) -> option (grid T * (nat -> bool)) := (X in iteri R X).
suff gen k : k <= R -> inv R A0 A D -> (forall x, x < n -> D x = D (mp x)) ->
  exists A' D', [/\ iteri k f (Some (A, D)) = Some (A', D'), inv R A0 A' D',
    forall x, x < n -> D' x = D' (mp x) & forall x, x < k -> mp x != x -> D' x].
  move=> iv cl; have [A' [D' [h1 h2 h3 h4]]] := gen R (leqnn R) iv cl.
  by exists A', D'; split=> // x xR mx; rewrite -h3; [exact: h4 | lia].
elim: k => [|k IH] kR iv cl; first by exists A, D; split.
have [|A' [D' [h1 h2 h3 h4]]] := IH _ iv cl; first lia.
rewrite /= h1 /f; have kn : k < n by lia.
case: ifPn => [/andP[mk dk]|no]; last first.
  exists A', D'; split=> // x; rewrite ltnS leq_eqVlt => /orP[/eqP->|/h4 //] mx.
  by move: no; rewrite mx /= negbK -h3.
rewrite -h3 // in dk; have [i1 i2 i3 i4] := h2.
have [|||||K [A2 [D2 [-> un2 e2 hD2 hA2]]]] := @walkE k A' D' kn h3 dk n 0 A' (mark k D').
- by rewrite subn0.
- by [].
- by move=> x; rewrite /mark inE orbC.
- by move=> x y; rewrite andbF.
- by rewrite inE.
set A3 := setrow _ _ _ _; set orb := traject mp k K.+1.
have hA3 x y : A3 x y = if (y < M) && (x \in orb) then A' (mp x) y else A' x y.
  rewrite /A3 /setrow hA2 /orb [traject mp k K.+1]trajectSr mem_rcons inE.
  by case: (y < M); rewrite ?andbF ?andbT //=; case: eqP => [->|] //=; rewrite e2.
have off t : ~~ D' (iter t mp k) by elim: t => //= t IHt; rewrite -h3 // iterl.
have orbD x : x \in orb -> ~~ D' x by move=> /trajP[t _ ->].
have orbn x : x \in orb -> x < n by move=> /trajP[t _ ->]; exact: iterl.
have orbC x : x < n -> (x \in orb) = (mp x \in orb).
  move=> xn; apply/trajP/trajP => -[t tK e].
    case: (ltnP t K) => h; first by exists t.+1; rewrite ?e.
    exists 0 => //; rewrite e; have -> : t = K by lia.
    exact: e2.
  case: t tK e => [|t] tK e; last by exists t; [lia | apply: mpi; rewrite ?iterl].
  by exists K => //; apply: mpi; rewrite ?iterl // e e2.
have orbm x : x \in orb -> mp x != x.
  move=> xo; apply/eqP => e; case/eqP: mk.
  have xn := orbn x xo; move/trajP: xo => [t _ ex].
  elim: t x e xn ex => [|t IHt] x e xn ex; first by rewrite /= in ex; rewrite -ex.
  apply: (IHt (iter t mp k)) => //; last exact: iterl.
  by apply: mpi; rewrite ?mpl ?iterl // -[mp (iter t mp k)]/(iter t.+1 mp k) -ex.
exists A3, D2; split=> //.
- split.
  + move=> x y h; rewrite hA3; case: ifP => [/andP[yM xo]|_].
      by case: h => [|/negP[]]; [lia | rewrite hD2 xo orbT].
    by apply: i1; case: h => [|h]; [left | right; apply: contra h => h; rewrite hD2 h].
  + move=> x y xR yM; rewrite hD2 hA3 yM /= -orbC -?h3; [|lia|lia].
    case: (boolP (x \in orb)) => xo; last by rewrite orbF h3 //; [exact: i2 | lia].
    move=> _; apply: i1; right; rewrite -h3; [exact: orbD | lia].
  + by move=> x; rewrite hD2 => /orP[/i3 //|xo]; split; [exact: orbn | exact: orbm].
  by move=> x xR mx; rewrite hD2 i4.
- by move=> x xn; rewrite !hD2 h3 // orbC.
move=> x; rewrite ltnS leq_eqVlt => /orP[/eqP->|xk] mx; rewrite hD2.
  by rewrite mem_head orbT.
by rewrite h4.
Qed.

Lemma compress_cyclesE A : exists2 B, MonotonicCompressCycles n M mp A = Some B & rows_moved false n M mp A B.
Proof.
rewrite /MonotonicCompressCycles.
have [|||B [D [-> [i1 i2 i3 i4] all]]] := @cyclesE n A A (fun=> false) => //.
  by split=> // x; lia.
exists B => //; split=> i j; last first.
  move=> h; apply: i1; case/orP: h => h; [right | by left].
  by apply/negP => /i3[]; lia.
move=> iN jM; case: (boolP (mp i == i)) => [/eqP e|mi].
  by rewrite e; apply: i1; right; apply/negP => /i3[_]; rewrite e eqxx.
by apply: i2 => //; apply: all.
Qed.

(** Step 2 of the other one *)
Lemma pivwalkE R A0 (pend : nat -> Prop) : R <= n ->
  forall fuel j A D, count (predC D) (iota 0 n) <= fuel -> j < n -> inv R A0 A D -> D j \/ mp j = j ->
  (forall x, D x -> D (mp x) \/ pend x \/ x = j) ->
  exists A' D', [/\ piv_walk fuel M mp j A D = Some (A', D'), inv R A0 A' D' &
    forall x, D' x -> D' (mp x) \/ pend x].
Proof.
move=> Rn fuel; elim: fuel => [|fuel IH] j A D cn jn iv Dj hp.
  have Dm : D (mp j).
    apply: contraTT cn => h; rewrite -ltnNge -has_count; apply/hasP; exists (mp j) => //.
    by rewrite mem_iota mpl.
  rewrite /= Dm orbT; exists A, D; split=> // x /hp[|[|->]]; by [left | right | left].
rewrite /=; case: ifPn => [h|].
  exists A, D; split=> // x Dx; case: (hp x Dx) => [|[|e]]; [by left | by right | ].
  by left; rewrite e; case/orP: h => // /eqP e'; rewrite e' -e.
rewrite negb_or => /andP[mj nD]; have {}Dj : D j by case: Dj => // /eqP; rewrite (negbTE mj).
have [i1 i2 i3 i4] := iv.
have jR : j < R by rewrite ltnNge; apply/negP => h; case/negP: nD; apply: i4; rewrite ?h.
apply: IH.
- have e l : count (predC D) l = count (pred1 (mp j)) l + count (predC (mark (mp j) D)) l.
    elim: l => //= a l ->; rewrite /mark; case: (a =P mp j) => [->|_] /=; rewrite ?nD /=; lia.
  move: cn; rewrite e; suff : 0 < count (pred1 (mp j)) (iota 0 n) by lia.
  by rewrite -has_count has_pred1 mem_iota mpl.
- exact: mpl.
- split.
  + move=> x y h; rewrite /setrow; case: ifP => [/andP[/eqP e yM]|_].
      by case: h => [|/negP[]]; [lia | rewrite /mark e Dj orbT].
    by apply: i1; case: h => [|h]; [left | right; apply: contra h => h; rewrite /mark h orbT].
  + move=> x y xR yM; rewrite /setrow /mark yM andbT; case: (x =P j) => [-> _|ne].
      by apply: i1; right.
    by case: eqP => [/mpi e|_ /=]; [case: ne; apply: e; lia | exact: i2].
  + move=> x /orP[/eqP->|/i3 //]; split; first exact: mpl.
    by apply: contra mj => /eqP/mpi-> //; exact: mpl.
  by move=> x xR mx; rewrite /mark i4 ?orbT.
- by left; rewrite /mark eqxx.
move=> x /orP[/eqP->|/hp]; first by right; right.
by rewrite /mark => -[->|[h|->]]; [left; rewrite orbT | right; left | left; rewrite eqxx].
Qed.

(** A finite set closed under an injection is closed backwards. *)
Lemma closed_back (D : nat -> bool) : (forall x, D x -> x < n) -> (forall x, D x -> D (mp x)) ->
  forall x, x < n -> D x = D (mp x).
Proof.
move=> Dn cl x xn; apply/idP/idP => [|h]; first exact: cl.
pose S := [seq x <- iota 0 n | D x].
have Sm y : (y \in S) = D y.
  rewrite mem_filter mem_iota add0n /=; case Dy: (D y) => //=; exact: Dn.
have uS : uniq [seq mp y | y <- S].
  rewrite map_inj_in_uniq ?filter_uniq ?iota_uniq // => a b; rewrite !Sm => /Dn an /Dn bn; exact: mpi.
have sub : {subset [seq mp y | y <- S] <= S} by move=> y /mapP[z]; rewrite !Sm => Dz ->; exact: cl.
have [|_ e] := uniq_min_size uS sub; first by rewrite size_map.
have : mp x \in [seq mp y | y <- S] by rewrite e Sm.
by case/mapP => y; rewrite Sm => Dy /mpi -> //; exact: Dn.
Qed.

Lemma compress_moreE R A : R <= n ->
  exists2 B, MonotonicCompressMorePivots n M R mp A = Some B & rows_moved false n M mp A B.
Proof.
move=> Rn; rewrite /MonotonicCompressMorePivots; set ks := [seq i <- _ | _].
have ksP i : (i \in ks) = (R <= i < n) && (mp i != i).
  by rewrite mem_filter mem_iota subnKC // andbC.
set D0 := foldl _ _ ks.
have D0P x : D0 x = (x \in [seq mp i | i <- ks]).
  have gen s D : foldl (fun D i => mark (mp i) D) D s x = D x || (x \in [seq mp i | i <- s]).
    by elim: s D => [|a s IH] D /=; rewrite ?orbF // IH /mark inE orbCA orbA.
  by rewrite /D0 gen.
have iv0 : inv R A A D0.
  split=> // [x y xR yM|x|x xR mx].
  - rewrite D0P => /mapP[i]; rewrite ksP => /andP[/andP[iR iN] _] /mpi e; have := e _ iN; lia.
  - rewrite D0P => /mapP[i]; rewrite ksP => /andP[/andP[iR iN] mi] ->; split; first exact: mpl.
    by apply: contra mi => /eqP/mpi-> //; exact: mpl.
  by rewrite D0P; apply/mapP; exists x => //; rewrite ksP xR.
have [A1 [D1 [-> iv1 cl]]] : exists A1 D1, [/\
    foldl (fun o i => if o is Some (A, D) then piv_walk n M mp (mp i) A D else None) (Some (A, D0)) (iota R (n - R)) = Some (A1, D1),
    inv R A A1 D1 & forall x, D1 x -> D1 (mp x)].
  have gen k : forall r A' D', r + k = n -> R <= r -> inv R A A' D' ->
      (forall x, D' x -> D' (mp x) \/ exists2 i, r <= i < n & x = mp i) ->
      exists A1 D1, [/\ foldl (fun o i => if o is Some (A, D) then piv_walk n M mp (mp i) A D else None) (Some (A', D')) (iota r k) = Some (A1, D1),
        inv R A A1 D1 & forall x, D1 x -> D1 (mp x)].
    elim: k => [|k IH] r A' D' rk Rr iv hp /=.
      by exists A', D'; split=> // x /hp[//|[i]]; lia.
    have [||||A2 [D2 [-> iv2 hp2]]] := @pivwalkE R A (fun x => exists2 i, r.+1 <= i < n & x = mp i) Rn n (mp r) A' D' _ _ iv.
    - by apply: leq_trans (count_size _ _) _; rewrite size_iota.
    - by apply: mpl; lia.
    - case: (boolP (mp r == r)) => [/eqP e|mr]; first by right; rewrite !e.
      by left; case: iv => _ _ _; apply=> //; lia.
    - move=> x /hp[|[i ri ->]]; first by left.
      right; case: (ltnP r i) => h; first by left; exists i => //; lia.
      by right; congr mp; lia.
    by apply: IH => //; lia.
  apply: gen => //; first by rewrite subnKC.
  move=> x; rewrite D0P => /mapP[i]; rewrite ksP => /andP[h _] ->; right.
  by exists i => //.
have [_ _ dn _] := iv1.
have [|A2 [D2 [-> [i1 i2 i3 i4] all]]] := cyclesE Rn iv1.
  by apply: closed_back => // x /dn[].
have uk : uniq [seq id k | k <- ks] by rewrite map_id filter_uniq ?iota_uniq.
rewrite -[ks in setrows _ ks]map_id.
eexists; first by []; split=> i j; last first.
  move=> h; rewrite (@setrows_miss T M ks id (fun i => A (mp i))) //; last first.
    by case/orP: h => h; [left => k; rewrite ksP; lia | right].
  apply: i1; case/orP: h => h; [right | by left].
  by apply/negP => /i3[]; lia.
move=> iN jM; case: (boolP (i \in ks)) => ik.
  by rewrite (@setrows_hit T M ks id (fun i => A (mp i))) //; move=> a b.
rewrite (@setrows_miss T M ks id (fun i => A (mp i))) //; last first.
  by left=> k kk; apply: contraNneq ik => <-.
case: (boolP (mp i == i)) => [/eqP e|mi].
  by rewrite e; apply: i1; right; apply/negP => /i3[_]; rewrite e eqxx.
have iR : i < R by move: ik; rewrite ksP mi; lia.
by apply: i2 => //; exact: all.
Qed.

End Cyc.

Section Top.
Variable T : Type.
Implicit Types A : grid T.

Lemma Monotonic_v_applyP v bk bk' sd t M n P R A : 0 < bk -> 0 < bk' -> R <= n ->
  (forall i, i < n -> P i < n) ->
  (forall i j, R <= i -> i < j -> j < n -> sigma P 0 n i < sigma P 0 n j) ->
  exists2 B, MonotonicApplyP_v v bk sd t M 0 n P R A = Some B &
  forall i j, B i j = applyP bk' sd t M 0 n P A i j.
Proof.
move=> b0 b0' Rn Pn inc; have := @Monotonic_applyP T bk bk' sd t M n P R A b0 b0' Rn Pn inc.
rewrite /MonotonicApplyP /MonotonicApplyP_v subn0.
have Mq i : i < n -> memo1 n (lapack2math id P n) i = sigma P 0 n i.
  by move=> iN; rewrite memo1E lapack2mathE // iN.
move: (memo1 _ _) Mq => q Mq.
case: ifP => // _.
have qp : is_perm n q by apply: (perm_ext _ (sigma_perm Pn)) => x xN; rewrite Mq.
pose g b : grid T -> option (grid T) := if v is MCycles then MonotonicCompressCycles n b q else MonotonicCompressMorePivots n b R q.
have C b X : exists2 B, g b X = Some B & rows_moved false n b q X B.
  by rewrite /g; case: (v); [exact: compress_cyclesE | exact: compress_moreE].
have sg k : n <= k -> sigma P 0 n k = k by move=> kn; apply: (@sigma_ge P n).
case: sd; case: t => // _.
  have [B e [h1 h2]] := by_blocksE M A b0 qp C.
  exists B => //.
  move=> i j; rewrite applyPE // /applyP_entry /=; case: ifP => jM; last by apply: h2; lia.
  case: (ltnP i n) => iN; last by rewrite sg // h2 // iN.
  by rewrite h1 ?Mq.
have [B e [h1 h2]] := by_blocksE M (tr A) b0 qp C.
exists (tr B).
  by rewrite -[by_blocks _ _ _ _]/(by_blocks bk M g (tr A)) e.
move=> i j; rewrite applyPE // /applyP_entry /=; case: ifP => jM; last by rewrite {1}/tr h2 //; lia.
case: (ltnP j n) => iN; last by rewrite sg // {1}/tr h2 // iN.
by rewrite {1}/tr h1 ?Mq.
Qed.

End Top.
