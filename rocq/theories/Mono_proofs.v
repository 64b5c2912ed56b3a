(** * Proofs: monotonic permutations *)
From mathcomp Require Import all_ssreflect zify.
From Verif Require Import Grid Perm_model Perm_spec Perm_proofs Mono_model Mono_spec.
Set Implicit Arguments.
Unset Strict Implicit.
Unset Printing Implicit Defensive.

(** The permutation. *)
Lemma mono_exists n R (q : nat -> nat) : R <= n -> is_perm n q -> exists s, monotonic n R q s.
Proof.
move=> Rn [ql qi].
pose pv := [seq q i | i <- iota 0 R]; pose np := [seq x <- iota 0 n | x \notin pv]; pose L := pv ++ np.
have upv : uniq pv.
  rewrite map_inj_in_uniq ?iota_uniq // => i j; rewrite !mem_iota => hi hj; apply: qi; lia.
have pL : perm_eq L (iota 0 n).
  apply: uniq_perm (iota_uniq _ _) _.
    rewrite cat_uniq upv filter_uniq ?iota_uniq // andbT /=; apply/hasPn => x; rewrite mem_filter => /andP[h _].
    exact: h.
  move=> x; rewrite mem_cat mem_filter; case h: (x \in pv) => //=.
  move/mapP: h => [i]; rewrite !mem_iota => hi ->; have := ql i; lia.
have sL : size L = n by rewrite (perm_size pL) size_iota.
have uL : uniq L by rewrite (perm_uniq pL) iota_uniq.
have spv : size pv = R by rewrite size_map size_iota.
exists (nth 0 L); split.
- split=> [i il|i j il jl /eqP]; last by rewrite nth_uniq ?sL // => /eqP.
  have : nth 0 L i \in L by rewrite mem_nth ?sL.
  by rewrite (perm_mem pL) mem_iota.
- by move=> i iR; rewrite nth_cat spv iR (nth_map 0) ?size_iota // nth_iota.
move=> i j Ri ij jn; rewrite !nth_cat spv !ifF; [|lia..].
have st : sorted ltn np by rewrite sorted_filter ?iota_ltn_sorted //; exact: ltn_trans.
apply: (sorted_ltn_nth ltn_trans _ st); rewrite ?inE; [| |lia]; move: sL; rewrite size_cat spv; lia.
Qed.

Lemma perm_onto n s x : is_perm n s -> x < n -> exists2 i, i < n & s i = x.
Proof.
move=> [sl si] xn.
have : x \in [seq s i | i <- iota 0 n].
  have [|||_ h] := @uniq_min_size _ [seq s i | i <- iota 0 n] (iota 0 n).
  - rewrite map_inj_in_uniq ?iota_uniq // => i j; rewrite !mem_iota => hi hj; apply: si; lia.
  - by move=> y /mapP[i]; rewrite !mem_iota => hi ->; have := sl i; lia.
  - by rewrite size_map.
  by rewrite h mem_iota.
by move=> /mapP[i]; rewrite mem_iota => hi ->; exists i => //; lia.
Qed.

Lemma mono_uniq n R q s s' : R <= n -> monotonic n R q s -> monotonic n R q s' -> forall i, i < n -> s i = s' i.
Proof.
move=> Rn [sp sq sm] [sp' sq' sm']; apply: ltn_ind => i IH iN.
case: (ltnP i R) => iR; first by rewrite sq ?sq'.
have side (a b : nat -> nat) : is_perm n a -> is_perm n b -> (forall j, j < i -> a j = b j) ->
  (forall i j, R <= i -> i < j -> j < n -> b i < b j) -> b i <= a i.
  move=> pa pb eab mb; have [k kn e] := perm_onto pb (pa.1 i iN).
  case: (ltnP k i) => ki; last by case: (ltnP i k) => ik; [have := mb i k iR ik kn; lia|rewrite -e (_ : k = i) //; lia].
  have := pa.2 k i kn iN; rewrite eab // e; lia.
apply/eqP; rewrite eqn_leq side //=; last by move=> j ji; rewrite IH //; lia.
by apply: side => // j ji; rewrite IH //; lia.
Qed.

Section Rows.
Variable T : Type.
Implicit Type A : grid T.

Lemma setrowsE M (ks : seq nat) (key : nat -> nat) (val : nat -> nat -> T) A i j :
  uniq [seq key k | k <- ks] ->
  setrows M [seq key k | k <- ks] [seq val k | k <- ks] A i j =
  if j < M then (if [seq k <- ks | key k == i] is k :: _ then val k j else A i j) else A i j.
Proof.
rewrite /setrows; elim: ks A => [|k ks IH] A /= => [_|/andP[kn ku]]; first by case: ifP.
rewrite IH // /setrow [i == key k]eq_sym; case: (j < M) => /=; last by rewrite andbF.
rewrite andbT; case: eqP => e; last by [].
rewrite (eq_in_filter (a2 := pred0)) ?filter_pred0 // => x xk /=.
by apply/eqP => h; move: kn; rewrite e -h map_f.
Qed.

Lemma setrows_hit M (ks : seq nat) (key : nat -> nat) (val : nat -> nat -> T) A k j :
  uniq [seq key k | k <- ks] -> {in ks &, injective key} -> k \in ks -> j < M ->
  setrows M [seq key k | k <- ks] [seq val k | k <- ks] A (key k) j = val k j.
Proof.
move=> u ij kk jM; rewrite setrowsE // jM.
have : k \in [seq x <- ks | key x == key k] by rewrite mem_filter eqxx.
case E : [seq x <- ks | key x == key k] => [//|x l] _.
have : x \in [seq x <- ks | key x == key k] by rewrite E mem_head.
by rewrite mem_filter => /andP[/eqP h xk]; rewrite (ij x k).
Qed.

Lemma setrows_miss M (ks : seq nat) (key : nat -> nat) (val : nat -> nat -> T) A i j :
  uniq [seq key k | k <- ks] -> (forall k, k \in ks -> key k != i) \/ M <= j ->
  setrows M [seq key k | k <- ks] [seq val k | k <- ks] A i j = A i j.
Proof.
move=> u h; rewrite setrowsE //; case: ifP => // jM; case: h => [h|]; last by lia.
by rewrite (eq_in_filter (a2 := pred0)) ?filter_pred0 // => x xk /=; apply/negbTE/h.
Qed.

Section Fixed.
Variables (n R mp : nat) (q s : nat -> nat) (ispiv : nat -> bool).
Hypothesis Rn : R <= n.
Hypothesis sp : monotonic n R q s.
Hypothesis piv : forall x, ispiv x = has (fun i => q i == x) (iota 0 R).
(** mp bounds the pivots that move, and is one of them or R - 1. *)
Hypothesis R0 : 0 < R.
Hypothesis mpR : R <= mp.+1.
Hypothesis mp_max : forall i, i < R -> q i <= mp.
Hypothesis mp_is : R <= mp -> ispiv mp.

Let sl i : i < n -> s i < n. Proof. by case: sp => -[h _] _ _; exact: h. Qed.
Let si i j : i < n -> j < n -> s i = s j -> i = j. Proof. by case: sp => -[_ h] _ _; exact: h. Qed.
Let sq i : i < R -> s i = q i. Proof. by case: sp => _ h _; exact: h. Qed.
Let sm i j : R <= i -> i < j -> j < n -> s i < s j. Proof. by case: sp => _ _; exact. Qed.

Lemma pivP x : reflect (exists2 i, i < R & s i = x) (ispiv x).
Proof.
rewrite piv; apply: (iffP hasP) => [[i]|[i iR <-]].
  by rewrite mem_iota add0n => /= iR /eqP <-; exists i; rewrite ?sq.
by exists i; rewrite ?mem_iota // sq.
Qed.

Lemma s_onto x : x < n -> exists2 i, i < n & s i = x.
Proof. by apply: perm_onto; case: sp. Qed.

Lemma mpn : mp < n.
Proof.
case: (ltnP mp R) => h; first lia.
by have /pivP[i iR <-] := mp_is h; apply: sl; lia.
Qed.

Lemma s_le i : R <= i -> i < n -> s i <= i.
Proof.
move=> Ri; move E: (n - i) => k; elim: k i Ri E => [|k IH] i Ri E iN; first lia.
case: (ltnP i.+1 n) => h; last by have := sl iN; lia.
by have := IH i.+1 _ _ h; have := sm Ri (ltnSn i) h; lia.
Qed.

Lemma s_fix k i : n - i <= k -> mp < i -> i < n -> s i = i.
Proof.
elim: k i => [|k IH] i ki mi iN; first lia.
have Ri : R <= i by lia.
have le := s_le Ri iN; apply/eqP; rewrite eqn_leq le /=; rewrite leqNgt; apply/negP => lt.
have [y yn ey] := s_onto iN.
case: (ltnP y R) => yR; first by have := mp_max yR; rewrite -sq //; lia.
have yi : i < y.
  rewrite ltnNge; apply/negP => h; case: (ltnP y i) => h2; first by have := sm yR h2 iN; lia.
  by move: lt; rewrite (_ : i = y) ?ey; lia.
by have := IH y; lia.
Qed.

Lemma s_nonpiv i : R <= i -> i < n -> ~~ ispiv (s i).
Proof. by move=> Ri iN; apply/pivP => -[k kR] /si e; have := e _ iN; lia. Qed.

(** *** Compressing *)
Lemma compress_loopE M dest x A0 A : forall fuel,
  x < fuel -> dest <= mp ->
  (R <= dest -> s dest < x /\ (dest < mp -> x <= s dest.+1) /\ x <= mp) ->
  (forall i j, (dest < i <= mp) -> R <= i -> j < M -> A i j = A0 (s i) j) ->
  (forall i j, ~~ [&& dest < i <= mp, R <= i & j < M] -> A i j = A0 i j) ->
  exists2 B, compress_loop fuel M R ispiv dest x A = Some B &
  (forall i j, R <= i <= mp -> j < M -> B i j = A0 (s i) j) /\
  (forall i j, ~~ ((R <= i <= mp) && (j < M)) -> B i j = A0 i j).
Proof.
elim: x dest A => [|x IH] dest A [//|fuel] /= xf dm inv hi lo.
  case: ltnP => dR; last by case: (inv dR).
  exists A => //; split=> i j h; [move=> jM; apply: hi => //; lia|apply: lo; lia].
case: ltnP => dR.
  exists A => //; split=> i j h; [move=> jM; apply: hi => //; lia|apply: lo; lia].
have [s1 [s2 s3]] := inv dR.
have dn : dest < n by have := mpn; lia.
case px : (ispiv x).
  apply: IH => // _; split; last by split; lia.
  rewrite ltn_neqAle -ltnS s1 andbT; apply/eqP => e.
  by move: px; rewrite -e (negbTE (s_nonpiv dR dn)).
have ex : x = s dest.
  have xn : x < n by have := mpn; lia.
  have [y yn ey] := s_onto xn.
  have yR : R <= y by rewrite leqNgt; apply/negP => h; move/pivP: px; apply; exists y.
  have dy : dest <= y by rewrite leqNgt; apply/negP => h; have := sm yR h dn; lia.
  case: (ltnP dest y) => h; last by rewrite -ey; congr (s _); lia.
  case: (ltnP dest mp) => dmp.
    have := s2 dmp; case: (ltnP dest.+1 y) => h2; last by rewrite (_ : dest.+1 = y); lia.
    by have := sm (leqW dR) h2 yn; lia.
  by have := @s_fix n y; lia.
have sd := s_le dR dn.
have h1 : forall i j, dest <= i <= mp -> R <= i -> j < M -> setrow M dest (A x) A i j = A0 (s i) j.
  move=> i j ii iR jM; rewrite /setrow jM andbT; case: eqP => [->|ne]; last by apply: hi => //; lia.
  by rewrite lo ?ex //; lia.
have h2 : forall i j, ~~ [&& dest <= i <= mp, R <= i & j < M] -> setrow M dest (A x) A i j = A0 i j.
  move=> i j nn; rewrite /setrow; case: ifP => h; last by apply: lo; lia.
  lia.
case: dest dm inv hi lo dR s1 s2 dn ex sd h1 h2 => [|d] dm inv hi lo dR s1 s2 dn ex sd h1 h2; first lia.
apply: IH => //; try lia.
  move=> dR'; have := sm dR' (ltnSn d) dn; rewrite -ex; lia.
Qed.

Lemma compressE M A : (forall i, i < R -> q i < n) ->
  exists2 B, MonotonicCompress M q R mp ispiv A = Some B & rows_moved false n M s A B.
Proof.
move=> qn; rewrite /MonotonicCompress.
have [|||||B -> [b1 b2]] := @compress_loopE M mp mp A A (mp + mp).+2; try (by move=> *; lia); try (by []).

  move=> mR; have mn := mpn; have h := s_le mR mn; split; last by lia.
  rewrite ltn_neqAle h andbT; apply/eqP => e; have := s_nonpiv mR mn; rewrite e => /negP; apply; exact: mp_is.
have mn := mpn; set ks := [seq i <- iota 0 R | q i != i].
have uk : uniq [seq id k | k <- ks] by rewrite map_id filter_uniq ?iota_uniq.
have kM k : (k \in ks) = (k < R) && (q k != k) by rewrite mem_filter mem_iota andbC.
rewrite -[X in setrows M X](map_id ks); eexists; first by [].
split=> i j => [iN jM|h]; last first.
  rewrite setrows_miss //; first by rewrite b2 //; lia.
  case: (ltnP j M) => jM; [left => k; rewrite kM => /andP[kR _]; lia|by right].
case: (ltnP i R) => iR.
  rewrite sq //; case: (eqVneq (q i) i) => [e|ne].
    rewrite setrows_miss // ?e; first by rewrite b2 //; lia.
    by left => k; rewrite kM => /andP[_ hk]; apply/eqP => ek; move: hk; rewrite ek e eqxx.
  by rewrite (@setrows_hit _ _ id) // kM iR ne.
rewrite setrows_miss //; last by left => k; rewrite kM; lia.
case: (leqP i mp) => im; first by rewrite b1 //; lia.
by rewrite b2 ?(@s_fix n i) //; lia.
Qed.

(** *** Expanding *)
Lemma expand_loopE M src dest A0 A : forall fuel,
  mp.+1 - dest <= fuel -> R <= src <= mp.+1 -> dest <= mp.+1 ->
  (src <= mp -> dest <= s src) -> (R < src -> s src.-1 < dest) ->
  (forall i j, R <= i < src -> j < M -> A (s i) j = A0 i j) ->
  (forall x j, (forall i, R <= i < src -> s i != x) \/ M <= j -> A x j = A0 x j) ->
  exists2 B, expand_loop fuel M n mp ispiv src dest A = Some B &
  (forall i j, R <= i <= mp -> j < M -> B (s i) j = A0 i j) /\
  (forall x j, (forall i, R <= i <= mp -> s i != x) \/ M <= j -> B x j = A0 x j).
Proof.
move=> fuel; elim: fuel src dest A => [|fuel IH] src dest A fl sr dm i1 i2 hi lo /=.
  have ms : mp < src by rewrite ltnNge; apply/negP => h; have := i1 h; have := @s_le src; have := mpn; lia.
  rewrite ms; exists A => //; split=> [i j ii jM|x j h]; first by apply: hi => //; lia.
  apply: lo; case: h => h; [left=> i ii; apply: h; lia|by right].
case: (ltnP mp src) => ms.
  exists A => //; split=> [i j ii jM|x j h]; first by apply: hi => //; lia.
  apply: lo; case: h => h; [left=> i ii; apply: h; lia|by right].
have mn := mpn; have sn : src < n by lia.
have Rs : R <= src by lia.
have ds := i1 ms; have ss := s_le Rs sn.
rewrite leqNgt (_ : dest < n) /=; last lia.
case pd : (ispiv dest).
  apply: IH => //; try lia.
  move=> _; rewrite ltn_neqAle ds andbT; apply/eqP => e.
  by move: pd; rewrite e (negbTE (s_nonpiv Rs sn)).
have ed : dest = s src.
  have [|y yn ey] := @s_onto dest; first lia.
  have yR : R <= y by rewrite leqNgt; apply/negP => h; move/pivP: pd; apply; exists y.
  have ys : y <= src by rewrite leqNgt; apply/negP => h; have := sm Rs h yn; lia.
  case: (ltnP y src) => h; last by rewrite -ey; congr (s _); lia.
  have := i2; case: (ltnP y src.-1) => h2.
    have := @sm y src.-1 yR h2; lia.
  by rewrite (_ : src.-1 = y); lia.
apply: IH; try lia.
- by move=> h; have := @sm src src.+1 Rs (ltnSn _); lia.
- by rewrite /= -ed.
- move=> i j ii jM; rewrite /setrow jM andbT; case: eqP => e.
    have -> : i = src by apply: si; rewrite -?ed //; lia.
    by apply: lo; left=> k kk; apply/eqP => ek; have := @s_le k; lia.
  apply: hi => //; case: (ltnP i src) => h; first by rewrite andbT; lia.
  by case: e; rewrite ed (_ : i = src) //; lia.
- move=> x j h; rewrite /setrow; case: ifP => [/andP[/eqP e jM]|_].
    by case: h => [h|]; [have := h src; rewrite -ed e eqxx; lia|lia].
  by apply: lo; case: h => h; [left=> i ii; apply: h; lia|right].
Qed.

Lemma expandE M A : (forall i, i < R -> q i < n) ->
  exists2 B, MonotonicExpand M n q R mp ispiv A = Some B & rows_moved true n M s A B.
Proof.
move=> qn; rewrite /MonotonicExpand.
have [|||||||B -> [b1 b2]] := @expand_loopE M R 0 A A (mp + mp).+2; try (by move=> *; lia); try (by []).
have mn := mpn; set ks := [seq i <- iota 0 R | q i != i].
have kM k : (k \in ks) = (k < R) && (q k != k) by rewrite mem_filter mem_iota andbC.
have ik : {in ks &, injective q}.
  move=> k l; rewrite !kM => /andP[kR _] /andP[lR _]; rewrite -!sq // => /si; apply; lia.
have uk : uniq [seq q k | k <- ks] by rewrite map_inj_in_uniq ?filter_uniq ?iota_uniq.
eexists; first by [].
split=> i j => [iN jM|h]; last first.
  rewrite setrows_miss //; last first.
    case: (ltnP j M) => jM; [left => k; rewrite kM => /andP[kR _]; apply/eqP => e; have := qn k kR; lia|by right].
  apply: b2; case: (ltnP j M) => jM; [left=> k kk; apply/eqP => e; have := @sl k; lia|by right].
case: (ltnP i R) => iR.
  rewrite sq //; case: (eqVneq (q i) i) => [e|ne]; last by rewrite setrows_hit // kM iR ne.
  rewrite setrows_miss // ?e; last first.
    left=> k; rewrite kM => /andP[kR hk]; apply/eqP => ek; move: hk.
    have -> : k = i by apply: si; [lia|done|rewrite !sq // ek e].
    by rewrite e eqxx.
  by apply: b2; left=> k kk; apply/eqP => ek; have := @si k i; rewrite (sq iR) e; lia.
rewrite setrows_miss //; last first.
  by left=> k; rewrite kM => /andP[kR _]; apply/eqP; rewrite -sq // => /si; lia.
case: (leqP i mp) => im; first by rewrite b1 //; lia.
rewrite (@s_fix n i) //; [|lia..]; apply: b2; left=> k kk; apply/eqP => e; have := @s_le k; lia.
Qed.

End Fixed.

Lemma by_blocksE inv (bk M n : nat) (s : nat -> nat) f A : 0 < bk -> is_perm n s ->
  (forall b A, exists2 B, f b A = Some B & rows_moved inv n b s A B) ->
  exists2 B, by_blocks bk M f A = Some B & rows_moved inv n M s A B.
Proof.
move=> b0 sp ff; rewrite /by_blocks.
pose step b i oA := if oA is Some A then
  (if f b (sub 0 (i * bk) A) is Some B then Some (at_ 0 (i * bk) (fun=> B) A) else None) else None.
change (exists2 B, step (M %% bk) (M %/ bk) (iteri (M %/ bk) (step bk) (Some A)) = Some B & rows_moved inv n M s A B).
have st b i X : rows_moved inv n (i * bk) s A X -> exists2 B, step b i (Some X) = Some B & rows_moved inv n (i * bk + b) s A B.
  move=> [x1 x2]; rewrite /step; have [B -> [h1 h2]] := ff b (sub 0 (i * bk) X).
  eexists; first by [].
  split=> k j; rewrite /at_ /=.
    move=> kn jl; have sk : s k < n by case: sp => h _; apply: h.
    case: (leqP (i * bk) j) => ij; last by apply: x1.
    have := h1 k (j - i * bk) kn; rewrite /sub !subn0 !add0n subnKC //.
    case: inv x1 x2 h1 h2 ff => x1 x2 h1 h2 ff -> //; try lia; rewrite x2 //; lia.
  move=> kj; case: (leqP (i * bk) j) => ij; last by rewrite x2 //; lia.
  rewrite h2 /sub ?subn0 ?add0n ?subnKC ?x2 //; lia.
have [X -> rX] : exists2 X, iteri (M %/ bk) (step bk) (Some A) = Some X & rows_moved inv n (M %/ bk * bk) s A X.
  elim: (M %/ bk) => [|k [X /= -> rX]].
    exists A => //; split=> //.
  by have [B -> rB] := st bk k X rX; exists B; rewrite // mulSn addnC.
by have [B -> rB] := st (M %% bk) _ X rX; exists B => //; rewrite {1}(divn_eq M bk).
Qed.

End Rows.

Section Top.
Variable T : Type.
Implicit Type A : grid T.

Lemma maxpivP (q : nat -> nat) R : 0 < R ->
  let m := foldl (fun m i => if (q i != i) && (m < q i) then q i else m) R.-1 (iota 0 R) in
  [/\ R <= m.+1, forall i, i < R -> q i <= m & R <= m -> has (fun i => q i == m) (iota 0 R)].
Proof.
move=> R0 m.
have : forall k, k <= R -> let m := foldl (fun m i => if (q i != i) && (m < q i) then q i else m) R.-1 (iota 0 k) in
  [/\ R <= m.+1, forall i, i < k -> q i <= m & R <= m -> has (fun i => q i == m) (iota 0 k)].
  elim=> [|k IH] kR; first by split=> //=; lia.
  have [|h1 h2 h3] := IH; first lia.
  rewrite (_ : iota 0 k.+1 = iota 0 k ++ [:: k]); last by rewrite -addn1 iotaD add0n.
  cbv zeta; rewrite foldl_cat has_cat; cbn [foldl has]; move: h1 h2 h3; cbv zeta; set x := foldl _ _ _ => h1 h2 h3.
  case: (ltnP x (q k)) => h; last first.
    rewrite andbF; split=> // [i|rx]; last by rewrite h3.
    by rewrite ltnS leq_eqVlt => /orP[/eqP-> //|]; exact: h2.
  case: eqP => e /=; first by lia.
  rewrite eqxx orbT; split=> //; first lia.
  by move=> i; rewrite ltnS leq_eqVlt => /orP[/eqP-> //|/h2]; lia.
by move=> /(_ R (leqnn R)).
Qed.

(** MonotonicApplyP *)
Lemma MonotonicApplyPE bk sd t M ib ie P R A : 0 < bk -> R <= ie - ib ->
  (forall i, i < ie - ib -> P i < ie - ib) ->
  exists2 s, monotonic (ie - ib) R (sigma P 0 (ie - ib)) s &
  exists2 B, MonotonicApplyP bk sd t M ib ie P R A = Some B &
  match sd with
  | SLeft => rows_moved (if t is Trans then true else false) (ie - ib) M s A B
  | SRight => rows_moved (if t is Trans then false else true) (ie - ib) M s (tr A) (tr B)
  end.
Proof.
move=> b0; rewrite /MonotonicApplyP; move: (ie - ib) => n Rn Pn.
have Mq i : i < n -> memo1 n (lapack2math id P n) i = sigma P 0 n i.
  by move=> iN; rewrite memo1E lapack2mathE // iN.
move: (memo1 _ _) Mq => q Mq.
have qp : is_perm n q by apply: (perm_ext _ (sigma_perm Pn)) => x xN; rewrite Mq.
have [s sP] := mono_exists Rn qp.
exists s; first by case: sP => h1 h2 h3; split=> // i iR; rewrite h2 // Mq //; lia.
case: ifPn => [nm|]; last first.
  rewrite negbK => hm.
  have R0 : 0 < R by move: hm; case: (R).
  have [m1 m2 m3] := maxpivP q R0.
  move: m1 m2 m3; set mp := foldl _ _ _ => m1 m2 m3.
  have qn i : i < R -> q i < n by case: qp => h _ iR; apply: h; lia.
  have C b X := @compressE T n R mp q s _ Rn sP (fun=> erefl) R0 m1 m2 m3 b X qn.
  have E b X := @expandE T n R mp q s _ Rn sP (fun=> erefl) R0 m1 m2 m3 b X qn.
  have sp : is_perm n s by case: sP.
  case: sd; case: t.
  - exact: by_blocksE.
  - exact: by_blocksE.
  - by have [B -> h] := by_blocksE M (tr A) b0 sp E; exists (tr B).
  - by have [B -> h] := by_blocksE M (tr A) b0 sp C; exists (tr B).
have qi i : i < R -> q i = i.
  by move=> iR; move/hasPn: nm => /(_ i); rewrite mem_iota => /(_ iR); rewrite negbK => /eqP.
have si i : i < n -> s i = i.
  move=> iN; case: sP => -[sl sj] sq sm.
  case: (ltnP i R) => iR; first by rewrite sq ?qi.
  have up k : R <= k -> k < n -> k <= s k.
    elim: k => [|k IH] kR kn; first by [].
    case: (ltnP k R) => h; last by have := IH h (ltnW kn); have := sm k k.+1 h (ltnSn k) kn; lia.
    rewrite leqNgt; apply/negP => lt.
    have e : s (s k.+1) = s k.+1 by rewrite sq ?qi //; lia.
    have := sj _ _ _ kn e; lia.
  have dn d k : n - k <= d -> R <= k -> k < n -> s k <= k.
    elim: d k => [|d IH] k kd kR kn; first lia.
    case: (ltnP k.+1 n) => h; last by have := sl k kn; lia.
    by have := IH k.+1 _ (leqW kR) h; have := sm k k.+1 kR (ltnSn k) h; lia.
  by have := up i iR iN; have := dn n i; lia.
exists A => //; have rm inv X : rows_moved inv n M s X X by split=> // i j iN jM; rewrite si //; case: inv.
by case: sd.
Qed.

(** When the list itself is monotonic: the same as applyP. *)
Lemma Monotonic_applyP bk bk' sd t M n P R A : 0 < bk -> 0 < bk' -> R <= n ->
  (forall i, i < n -> P i < n) ->
  (forall i j, R <= i -> i < j -> j < n -> sigma P 0 n i < sigma P 0 n j) ->
  exists2 B, MonotonicApplyP bk sd t M 0 n P R A = Some B &
  forall i j, B i j = applyP bk' sd t M 0 n P A i j.
Proof.
move=> b0 b0' Rn Pn inc; have := @MonotonicApplyPE bk sd t M 0 n P R A b0.
rewrite subn0 => /(_ Rn Pn) [s sP [B e h]]; exists B => // i j.
have sE : forall i, i < n -> s i = sigma P 0 n i.
  apply: (mono_uniq Rn sP); split=> //; exact: sigma_perm.
have sn k : k < n -> sigma P 0 n k < n by move=> kn; apply: (sigma_perm Pn).1.
have sV k : k < n -> sigmaV P 0 n k < n.
  move=> kn; rewrite ltnNge; apply/negP => g; have := sigmaVK P 0 n k.
  by rewrite (@sigma_ge P n) //; lia.
have sg k : n <= k -> sigma P 0 n k = k by move=> kn; apply: (@sigma_ge P n).
have sVg k : n <= k -> sigmaV P 0 n k = k by move=> kn; rewrite -{1}(sg k kn) sigmaK.
rewrite applyPE // /applyP_entry.
case: sd t h {e} => -[] [h1 h2] /=.
- case: ifP => jM; last by apply: h2; lia.
  case: (ltnP i n) => iN; last by rewrite sg // h2 // iN.
  by rewrite h1 ?sE.
- case: ifP => jM; last by apply: h2; lia.
  case: (ltnP i n) => iN; last by rewrite sVg // h2 // iN.
  by have := h1 (sigmaV P 0 n i) j (sV i iN) jM; rewrite sE ?sV // sigmaVK.
- case: ifP => jM; last by apply: (h2 j i); lia.
  case: (ltnP j n) => iN; last by rewrite sVg // -[LHS]/(tr B j i) h2 // iN.
  by have := h1 (sigmaV P 0 n j) i (sV j iN) jM; rewrite sE ?sV // sigmaVK.
case: ifP => jM; last by apply: (h2 j i); lia.
case: (ltnP j n) => iN; last by rewrite sg // -[LHS]/(tr B j i) h2 // iN.
by rewrite -[LHS]/(tr B j i) h1 ?sE.
Qed.

End Top.
