(** * Proofs: similarity, companion blocks, Danilevski's algorithm *)
From mathcomp Require Import all_ssreflect all_algebra zify ring.
From Verif Require Import Grid Perm_model Perm_spec Perm_proofs Tri_model Tri_spec Tri_proofs Trtri_proofs Pluq_model Ludiv_model Pluq_rank Ech_proofs Charp_model.
Set Implicit Arguments.
Unset Strict Implicit.
Unset Printing Implicit Defensive.
Import GRing.Theory.
Local Open Scope ring_scope.

Section Poly.
Variable F : fieldType.

Lemma char_poly_sim n (T V W : 'M[F]_n) : T \in unitmx -> T *m W = V *m T -> char_poly V = char_poly W.
Proof.
move=> uT e; pose Tp := map_mx (@polyC F) T.
have E : Tp *m char_poly_mx W = char_poly_mx V *m Tp.
  rewrite /char_poly_mx mulmxBr mulmxBl -!map_mxM e; congr (_ - _).
  by rewrite scalar_mxC.
rewrite /char_poly; have := congr1 determinant E; rewrite !det_mulmx [RHS]mulrC => /mulfI -> //.
by rewrite det_map_mx polyC_eq0 -unitfE -unitmxE.
Qed.

Lemma char_poly_tr n (V : 'M[F]_n) : char_poly V^T = char_poly V.
Proof.
rewrite /char_poly -[in RHS]det_tr; congr (\det _).
by apply/matrixP => i j; rewrite !mxE eq_sym.
Qed.

Lemma char_poly_ublock m n (U : 'M[F]_m) B (D : 'M[F]_n) :
  char_poly (block_mx U B 0 D) = char_poly U * char_poly D.
Proof.
rewrite /char_poly /char_poly_mx map_block_mx map_mx0 scalar_mx_block opp_block_mx add_block_mx oppr0 !addr0 sub0r.
by rewrite det_ublock.
Qed.

Lemma char_poly_lblock m n (U : 'M[F]_m) B (D : 'M[F]_n) :
  char_poly (block_mx U 0 B D) = char_poly U * char_poly D.
Proof. by rewrite -char_poly_tr tr_block_mx trmx0 char_poly_ublock !char_poly_tr. Qed.

(** a companion matrix by rows *)
Lemma char_poly_comp d (c : nat -> F) :
  char_poly (mx d d (fun i j => if i == d.-1 then c j else (i.+1 == j)%:R)) = Poly (rcons [seq - c j | j <- iota 0 d] 1).
Proof.
set s := rcons _ _; set p := Poly s.
have es : s = p :> seq F.
  rewrite (@PolyK _ 0) // /s last_rcons oner_neq0 //.
have sz : size p = d.+1 by rewrite -es size_rcons size_map size_iota.
have mp : p \is monic by rewrite monicE lead_coefE sz -es nth_rcons size_map size_iota ltnn eqxx.
rewrite -[RHS](companionmxK mp).
have ed : d = (size p).-1 by rewrite sz.
have cj j : (j < d)%N -> p`_j = - c j.
  by move=> jd; rewrite -es nth_rcons size_map size_iota jd (nth_map 0%N) ?size_iota // nth_iota.
rewrite /companionmx; clearbody p; subst d; congr char_poly; apply/matrixP => i j; rewrite !mxE.
by case: eqP => // _; rewrite cj ?opprK.
Qed.

Lemma unitmx_col m (u : nat -> F) (q : nat) : (q < m)%N -> u q != 0 ->
  mx m m (fun i l => if l == q then u i else (i == l)%:R) \in unitmx.
Proof.
move=> qm u0; set T := mx _ _ _.
pose T' := mx m m (fun i l => if l == q then (if i == q then (u q)^-1 else - u i / u q) else (i == l)%:R).
suff: T *m T' = 1%:M by case/mulmx1_unit.
apply/matrixP => i j; rewrite !mxE.
rewrite (bigD1 (Ordinal qm)) //= !mxE eqxx.
have E (k : 'I_m) : k != Ordinal qm -> (k == q :> nat) = false by move=> h; apply/negbTE; apply: contra h => /eqP h; apply/eqP/val_inj.
case: (eqVneq (nat_of_ord j) q) => [jq|jq].
  rewrite (eq_bigr (fun l : 'I_m => (i == l)%:R * (- u l / u q))); last by move=> l /E lq; rewrite !mxE jq eqxx lq.
  case: (eqVneq (nat_of_ord i) q) => [iq|iq].
    rewrite iq divff // big1 ?addr0; last first.
      by move=> l /E lq; case: eqP => [e|]; rewrite ?mul0r //; move: lq; rewrite -e iq eqxx.
    by rewrite (_ : i == j) //; apply/eqP/val_inj; rewrite /= iq jq.
  rewrite (bigD1 i) /=; last by apply: contra iq => /eqP ->.
  rewrite eqxx mul1r big1 ?addr0; last by move=> l /andP[_ /negPf h]; rewrite eq_sym h mul0r.
  rewrite mulNr subrr (_ : i == j = false) //; by apply/negbTE; apply: contra iq => /eqP ->; rewrite jq.
rewrite mulr0 add0r.
rewrite (eq_bigr (fun l : 'I_m => (i == l)%:R * (l == j)%:R)); last by move=> l /E lq; rewrite !mxE (negPf jq) lq.
case: (eqVneq (nat_of_ord i) q) => [iq|iq].
  rewrite big1; last by move=> l /E lq; case: eqP => [e|]; rewrite ?mul0r //; move: lq; rewrite -e iq eqxx.
  by rewrite (_ : i == j = false) //; apply/negbTE; apply: contra jq => /eqP <-; rewrite iq.
rewrite (bigD1 i) /=; last by apply: contra iq => /eqP ->.
by rewrite eqxx mul1r big1 ?addr0 // => l /andP[_ /negPf h]; rewrite eq_sym h mul0r.
Qed.

End Poly.

Section Dani.
Variable F : fieldType.
Implicit Types A : grid F.

(** The matrix whose characteristic polynomial remains to be found: rows and
    columns dtot..N-1, the columns before k being those of a companion block. *)
Definition vir (k dtot : nat) A (i j : nat) : F :=
  if (dtot + j < k)%N then (i == j.+1)%:R else A (dtot + i)%N (dtot + j)%N.
Definition virt (N k dtot : nat) A : 'M[F]_(N - dtot) := mx (N - dtot) (N - dtot) (vir k dtot A).

Lemma dani_shift n dtot k A x y : 
  iteri n (fun s A => let i := (dtot + s)%N in upd A i.+1 k.+1 (A i.+1 k.+1 + A i k)) A x y =
  if (y == k.+1) && (dtot < x <= dtot + n)%N then A x y + A x.-1 k else A x y.
Proof.
elim: n x y => [|n IH] x y; first by rewrite /= ifF //; lia.
rewrite iteriS /upd; cbv zeta; rewrite !IH.
case: (eqVneq y k.+1) => [->|ny]; last by rewrite andbF.
rewrite andbT eqxx /=; case: (eqVneq x (dtot + n).+1) => [->|nx].
  rewrite ltnn !andbF ifF; last by case: eqP => //; lia.
  by rewrite addnS leqnn andbT ifT //; lia.
by congr (if _ then _ else _); lia.
Qed.

Lemma dani_elimE N k dtot A x y : (k.+1 < N)%N -> (dtot <= k)%N -> A k.+1 k != 0 ->
  (dtot <= x < N)%N -> (k < y < N)%N ->
  dani_elim N k dtot A x y =
  let p := A k.+1 k in
  if y == k.+1 then
    let s r := p * A r k.+1 + rsum (N - k.+2) (fun l => A r (k.+2 + l)%N * A (k.+2 + l)%N k) in
    if x == k.+1 then s k.+1 / p + A k k
    else s x - A x k * s k.+1 / p + (if (dtot < x <= k)%N then A x.-1 k else 0)
  else if x == k.+1 then A x y / p else A x y - A x k * A k.+1 y / p.
Proof.
move=> kN dk p0 hx hy; rewrite /dani_elim; set p := A k.+1 k.
set A1 := at_ k.+1 k.+1 _ A; set A2 := at_ dtot k.+1 _ A1; set A3 := at_ dtot k.+1 _ A2.
have E1 x' y' : A1 x' y' = if (x' == k.+1) && (k < y' < N)%N then A x' y' / p else A x' y'.
  rewrite /A1 /at_ /fscalin !memoE /fill /sub.
  case: (boolP ((k < x') && (k < y'))%N) => [/andP[h1 h2]|h]; last by rewrite ifF //; lia.
  by rewrite !subnKC // mulrC; congr (if _ then _ else _); lia.
have E2 x' y' : A2 x' y' = if (dtot <= x' < N)%N && (y' == k.+1) then p * A1 x' y' else A1 x' y'.
  rewrite /A2 /at_ /fscalin !memoE /fill /sub.
  case: (boolP ((dtot <= x') && (k < y'))%N) => [/andP[h1 h2]|h]; last by rewrite ifF //; lia.
  by rewrite !subnKC //; congr (if _ then _ else _); lia.
have E3 x' y' : A3 x' y' = if (dtot <= x' <= k)%N && (k < y' < N)%N then A2 x' y' - A2 x' k * A2 k.+1 y' else A2 x' y'.
  rewrite /A3 /at_ fger_ok /sub.
  case: (boolP ((dtot <= x') && (k < y'))%N) => [/andP[h1 h2]|h]; last by rewrite ifF //; lia.
  by rewrite !subnKC // mulN1r mulNr; congr (if _ then _ else _); lia.
set A4 := memo N N A3; set A7 := if (k.+2 < N)%N then _ else _.
pose A5 x' y' := if (k.+1 < x' < N)%N && (k < y' < N)%N then A3 x' y' - A3 x' k * A3 k.+1 y' else A3 x' y'.
have E7 x' y' : A7 x' y' = if (dtot <= x' < N)%N && (y' == k.+1) then
    A5 x' y' + rsum (N - k.+2) (fun l => A5 x' (k.+2 + l)%N * A5 (k.+2 + l)%N k) else A5 x' y'.
  rewrite /A7; case: (ltnP k.+2 N) => kN2; last first.
    rewrite /A4 memoE (_ : N - k.+2 = 0)%N; last by lia.
    by rewrite /= addr0 if_same /A5 ifF //; lia.
  set A6 := at_ k.+2 k.+1 _ A4.
  have E6 x1 y1 : A6 x1 y1 = A5 x1 y1.
    rewrite /A6 /at_ fger_ok /sub /A4 !memoE /A5.
    case: (boolP ((k.+1 < x1) && (k < y1))%N) => [/andP[h1 h2]|h]; last by rewrite ifF //; lia.
    by rewrite !subnKC // mulN1r mulNr; congr (if _ then _ else _); lia.
  rewrite /at_ /fgemm !memoE /fill /sub.
  case: (boolP ((dtot <= x') && (k < y'))%N) => [/andP[h1 h2]|h]; last by rewrite E6 ifF //; lia.
  rewrite !memoE !subnKC // mul1r mul1r E6 addrC.
  rewrite (_ : (x' - dtot < N - dtot)%N && (y' - k.+1 < 1)%N = (dtot <= x' < N)%N && (y' == k.+1)); last by lia.
  case: ifP => // _; congr (_ + _); apply: eq_rsum => l _ /=.
  by rewrite !memoE !E6 subnKC.
rewrite memoE dani_shift subnKC; last by lia.
clearbody A7; clear A4.
have Ec' x' : A2 x' k = A x' k by rewrite E2 ifF ?E1 ?ltnn ?andbF //; lia.
have Ec x' : A3 x' k = A x' k by rewrite E3 ltnn !andbF Ec'.
have E5k x' : A5 x' k = A x' k by rewrite /A5 ltnn !andbF Ec.
pose s1 x' y' := if y' == k.+1 then p * A x' y' else A x' y'.
have Es x' y' : (dtot <= x' < N)%N -> (k < y' < N)%N -> A2 x' y' = if x' == k.+1 then s1 x' y' / p else s1 x' y'.
  move=> h1 h2; rewrite E2 h1 E1 h2 andbT /= /s1; case: (y' == k.+1); case: (x' == k.+1) => //.
  by rewrite mulrA.
have E5 x' y' : (dtot <= x' < N)%N -> (k < y' < N)%N ->
    A5 x' y' = if x' == k.+1 then s1 k.+1 y' / p else s1 x' y' - A x' k * s1 k.+1 y' / p.
  move=> h1 h2; have k1 : (dtot <= k.+1 < N)%N by lia.
  rewrite /A5 h2 andbT !Ec !E3 h2 !andbT ltnn andbF Ec' !Es // eqxx.
  case: (eqVneq x' k.+1) => [->|nx]; first by rewrite !ltnn !andbF.
  rewrite -mulrA; case: (leqP x' k) => h3.
    by rewrite ifF; [rewrite ifT //; lia | lia].
  by rewrite ifT; [rewrite ifF //; lia | lia].
have sl l : (l < N - k.+2)%N -> s1^~ (k.+2 + l)%N =1 A^~ (k.+2 + l)%N by move=> h z; rewrite /s1 ifF //; lia.
have Ek' x' : A7 x' k = A x' k by rewrite E7 ifF ?E5k //; lia.
rewrite Ek' E7 hx /=; case: (eqVneq y k.+1) => [->|ny] /=; last first.
  by rewrite E5 // /s1 (negPf ny); case: eqP => // ->.
have k1 : (k < k.+1 < N)%N by lia.
rewrite E5 // /s1 eqxx -/p.
set sg := fun r => rsum (N - k.+2) (fun l => A r (k.+2 + l)%N * A (k.+2 + l)%N k).
have -> : rsum (N - k.+2) (fun l => A5 x (k.+2 + l)%N * A5 (k.+2 + l)%N k) =
  if x == k.+1 then sg k.+1 / p else sg x - A x k * sg k.+1 / p.
  rewrite (@eq_rsum _ _ _ (fun l => (if x == k.+1 then A k.+1 (k.+2 + l)%N / p else A x (k.+2 + l)%N - A x k * A k.+1 (k.+2 + l)%N / p) * A (k.+2 + l)%N k)).
    case: (x == k.+1); first by rewrite /sg -rsum_mulr; apply: eq_rsum => l _; rewrite mulrAC.
    rewrite /sg mulrAC -rsum_mull -rsumN -rsumD; apply: eq_rsum => l _; ring.
  by move=> l hl; rewrite E5 ?E5k ?sl //; lia.
rewrite -/(sg k.+1) -/(sg x); case: (eqVneq x k.+1) => [->|nx].
  rewrite ifT; last by lia.
  by rewrite -mulrDl.
rewrite (_ : (dtot < x <= k.+1)%N = (dtot < x <= k)%N); last by lia.
by case: (dtot < x <= k)%N; ring.
Qed.

Lemma char_poly_perm n s (V : grid F) : is_perm n s ->
  char_poly (mx n n V) = char_poly (mx n n (fun i j => V (s i) (s j))).
Proof.
move=> sp; pose T := mx n n (fun a b => (a == s b)%:R : F).
have [hs si] := sp.
apply: (@char_poly_sim _ _ T).
  suff: T^T *m T = 1%:M by case/mulmx1_unit.
  have -> : T^T = mx n n (fun a b => (b == s a)%:R) by apply/matrixP => a b; rewrite !mxE.
  rewrite mxM; apply/matrixP => a c; rewrite !mxE rsum_sel ?hs //.
  by congr (_%:R); congr nat_of_bool; apply/eqP/eqP => [/(si _ _ (ltn_ord a) (ltn_ord c))/val_inj|->].
rewrite !mxM; apply/matrixP => a c; rewrite !mxE.
rewrite (rsum_perm (fun x => (nat_of_ord a == x)%:R * V x (s c)) sp) rsum_delta //.
by rewrite (@eq_rsum _ _ _ (fun t => (t == s c)%:R * V a t)) ?rsum_sel ?hs // => t _; rewrite mulrC.
Qed.

Lemma char_poly_split m d e (f : grid F) : m = (d + e)%N ->
  (forall i j, (i < e)%N -> (j < d)%N -> f (d + i)%N j = 0) ->
  char_poly (mx m m f) = char_poly (mx d d f) * char_poly (mx e e (fun i j => f (d + i)%N (d + j)%N)).
Proof.
move=> -> f0; rewrite -(char_poly_ublock _ (mx d e (fun i j => f i (d + j)%N))); congr char_poly.
apply/matrixP => i j; rewrite !mxE.
by case: splitP => i' ->; rewrite !mxE; case: splitP => j' ->; rewrite !mxE // f0.
Qed.

Lemma tau_perm n a b : (a < n)%N -> (b < n)%N -> is_perm n (transpose_ij a b).
Proof. by move=> an bn; split=> [i|i j]; rewrite /transpose_ij; repeat case: eqP => ?; lia. Qed.

Lemma dani_swap_ok N k dtot i A : (dtot <= k < i)%N -> (i < N)%N ->
  char_poly (virt N k dtot (dani_swap N k i A)) = char_poly (virt N k dtot A).
Proof.
move=> hk iN; rewrite /dani_swap; case: ltnP => // ki.
have [h1 h2] : (i - dtot < N - dtot)%N /\ (k.+1 - dtot < N - dtot)%N by lia.
rewrite /virt [in RHS](char_poly_perm _ (tau_perm h1 h2)); congr char_poly; apply/matrixP => r c; rewrite !mxE.
have [rN cN] := (ltn_ord r, ltn_ord c); rewrite /vir.
have tE x : (dtot + transpose_ij (i - dtot) (k.+1 - dtot) x)%N = transpose_ij i k.+1 (dtot + x)%N.
  by rewrite /transpose_ij; repeat case: eqP => ?; lia.
have rN' : (dtot + r < N)%N by lia.
rewrite fswap_colE rN'.
rewrite !tE /at_ fswap_rowE /sub add0n leq0n subn0 /=.
have tk z : (z < k)%N -> transpose_ij i k.+1 z = z by move=> h; rewrite /transpose_ij; repeat case: eqP => ? //; lia.
have tk' z : (k <= z)%N -> (k <= transpose_ij i k.+1 z)%N by move=> h; rewrite /transpose_ij; repeat case: eqP => ? //; lia.
have tN z : (z < N)%N -> (transpose_ij i k.+1 z < N)%N by move=> h; rewrite /transpose_ij; repeat case: eqP => ? //; lia.
case: (ltnP (dtot + c) k) => ck.
  rewrite tk // ck; congr (_%:R); congr nat_of_bool.
  by apply/eqP/eqP; rewrite /transpose_ij; (repeat case: eqP => ?); lia.
have c2 := tk' _ ck; rewrite c2.
have c3 : (transpose_ij i k.+1 (dtot + c) < N)%N by apply: tN; lia.
rewrite ifT; last by move: (transpose_ij i k.+1 (dtot + c)) c2 c3 => z; lia.
by rewrite subnKC // ltnNge c2.
Qed.

Section ColT.
Variables (m q : nat) (u : nat -> F) (V W : grid F).
Hypothesis qm : (q < m)%N.
Let T := mx m m (fun i l => if l == q then u i else (i == l)%:R : F).

Lemma colT_l (i j : 'I_m) : (T *m mx m m W) i j = (if i == q :> nat then 0 else W i j) + u i * W q j.
Proof.
rewrite mxM mxE.
rewrite (@eq_rsum _ _ _ (fun t => (if i == q :> nat then 0 else (nat_of_ord i == t)%:R * W t j) + (t == q)%:R * (u i * W t j))).
  rewrite rsumD rsum_sel //; congr (_ + _); case: (i == q :> nat); first by rewrite rsum0.
  by rewrite (rsum_delta (W^~ j)).
move=> t _; case: (eqVneq t q) => [->|tq]; rewrite ?mul0r ?mul1r ?addr0.
  by case: (nat_of_ord i == q); rewrite ?mul0r add0r.
case: (eqVneq (nat_of_ord i) q) => [->|//].
by rewrite eq_sym (negPf tq) mul0r.
Qed.

Lemma colT_r (i j : 'I_m) : (mx m m V *m T) i j = if j == q :> nat then rsum m (fun l => V i l * u l) else V i j.
Proof.
rewrite mxM mxE; case: (eqVneq (nat_of_ord j) q) => [//|jq].
rewrite (@eq_rsum _ _ _ (fun t => (t == nat_of_ord j)%:R * V i t)) ?rsum_sel // => t _.
by rewrite mulrC.
Qed.
End ColT.

Lemma dani_elim_ok N k dtot A : (dtot <= k)%N -> (k.+1 < N)%N -> A k.+1 k != 0 ->
  char_poly (virt N k dtot A) = char_poly (virt N k.+1 dtot (dani_elim N k dtot A)).
Proof.
move=> dk kN p0; set B := dani_elim N k dtot A.
pose q := (k.+1 - dtot)%N; pose u i := A (dtot + i)%N k.
have qm : (q < N - dtot)%N by rewrite /q; lia.
have dq : (dtot + q = k.+1)%N by rewrite /q; lia.
have uq : u q != 0 by rewrite /u dq.
apply: (char_poly_sim (unitmx_col qm uq)); apply/matrixP => i j; rewrite colT_l // colT_r.
have [iN jN] := (ltn_ord i, ltn_ord j); case: i j iN jN => i /= _ [j /= _] iN jN.
have BE x y : (x < N - dtot)%N -> (k < dtot + y < N)%N -> vir k.+1 dtot B x y = B (dtot + x)%N (dtot + y)%N.
  by move=> _ h; rewrite /vir ifF //; lia.
have iq : (i == q) = (dtot + i == k.+1)%N by lia.
have jq : (j == q) = (dtot + j == k.+1)%N by lia.
case: (ltngtP (dtot + j) k) => jk.
- have jk1 : (dtot + j < k.+1)%N by lia.
  rewrite /vir jk jk1 (_ : q == j.+1 = false); last by lia.
  rewrite mulr0 addr0 (_ : j == q = false); last by lia.
  case: eqP => // ->; rewrite (_ : q == j.+1 = false) //; lia.
- rewrite !BE //; try lia.
  rewrite /B !dani_elimE; try lia.
  rewrite dq eqxx iq jq; set p := A k.+1 k; cbv zeta.
  case: (eqVneq (dtot + j)%N k.+1) => [ej|nj]; last first.
    rewrite /vir (_ : dtot + j < k = false)%N; last by lia.
    case: (eqVneq (dtot + i)%N k.+1) => [ei|ni]; last by rewrite -/(u i) -mulrA subrK.
    by rewrite add0r /u ei mulrC divfK.
  pose s r := p * A r k.+1 + rsum (N - k.+2) (fun l => A r (k.+2 + l)%N * A (k.+2 + l)%N k).
  rewrite -!/(s _).
  have -> : rsum (N - dtot) (fun l => vir k dtot A i l * u l) =
    s (dtot + i)%N + u i * A k k + (if (0 < i)%N && (dtot + i <= k)%N then A (dtot + i).-1 k else 0).
    have -> : (N - dtot = (k - dtot) + (1 + (1 + (N - k.+2))))%N by lia.
    rewrite !rsum_cat /= !add0r addn0 /s.
    rewrite (@eq_rsum _ (k - dtot) _ (fun l => if (0 < i)%N then (l == i.-1)%:R * u l else 0)); last first.
      move=> l lk; rewrite /vir ifT; last by lia.
      by case: i {iN iq} => [|i] /=; rewrite ?mul0r // eqSS eq_sym.
    rewrite (@eq_rsum _ (N - k.+2) _ (fun l => A (dtot + i)%N (k.+2 + l)%N * A (k.+2 + l)%N k)); last first.
      move=> l lk; rewrite /vir ifF; last by lia.
      by rewrite /u; congr (A _ _ * A _ _); lia.
    rewrite {1 2}/vir ifF; last by lia.
    rewrite ifF; last by lia.
    rewrite /u (_ : dtot + (k - dtot) = k)%N; last by lia.
    rewrite (_ : dtot + (k - dtot + (1 + 0)) = k.+1)%N; last by lia.
    rewrite (_ : rsum (k - dtot) _ = if (0 < i)%N && (dtot + i <= k)%N then A (dtot + i).-1 k else 0).
      by rewrite -/p; ring.
    case: i {iN iq} => [|i] /=; first by rewrite rsum0.
    case: leqP => h; last by rewrite rsum0 // => l lk; rewrite (_ : l == i = false) ?mul0r //; lia.
    by rewrite (rsum_sel (fun l => A (dtot + l)%N k)) ?addnS //; lia.
  case: (eqVneq (dtot + i)%N k.+1) => [ei|ni].
    rewrite ifF; last by lia.
    by rewrite add0r /u ei -/p addr0 mulrDr mulrC divfK.
  rewrite (_ : (dtot < dtot + i <= k)%N = (0 < i)%N && (dtot + i <= k)%N); last by lia.
  rewrite /u; ring.
have jk1 : (dtot + j < k.+1)%N by lia.
rewrite /vir jk1 jk ltnn (_ : j == q = false); last by lia.
rewrite (_ : q == j.+1); last by lia.
rewrite mulr1 (_ : i == j.+1 = (i == q)); last by lia.
by rewrite /u; case: (i == q); rewrite add0r.
Qed.

Lemma dani_block_ok N k dtot A : (dtot <= k < N)%N ->
  (forall r, (k < r < N)%N -> A r k = 0) ->
  char_poly (virt N k dtot A) = Poly (dani_block k dtot A) * char_poly (virt N k.+1 k.+1 A).
Proof.
move=> dk A0.
have dE : (N - dtot = (k.+1 - dtot) + (N - k.+1))%N by lia.
rewrite /virt (char_poly_split dE); last first.
- move=> i j iN jd; rewrite /vir; case: ltnP => h; first by rewrite (_ : _ == _ = false) //; lia.
  by rewrite (_ : dtot + j = k)%N ?A0 //; lia.
congr (_ * _); last first.
  congr char_poly; apply/matrixP => i j; rewrite !mxE /vir ifF; last by lia.
  by rewrite ifF; [congr (A _ _)|]; lia.
rewrite /dani_block -(char_poly_comp _ (fun i => A (dtot + i)%N k)) -[RHS]char_poly_tr; congr char_poly; apply/matrixP => i j; rewrite !mxE /vir.
have [iN jN] := (ltn_ord i, ltn_ord j).
case: ltnP => h; first by rewrite ifF; [rewrite eq_sym|lia].
by rewrite ifT; [congr (A _ _)|]; lia.
Qed.

Lemma dani_row_ok N k A : (k < N)%N -> let i := dani_row N k A in
  if (i < N)%N then (k < i)%N && (A i k != 0) else [forall r : 'I_N, (k < r)%N ==> (A r k == 0)].
Proof.
move=> kN; rewrite /dani_row; set f := find _ _; cbv zeta.
have fE : (f <= N - k.+1)%N by rewrite -[X in (_ <= X)%N](size_iota k.+1) find_size.
case: ltnP => h.
  apply/andP; split; first by lia.
  have : has (fun r => A r k != 0) (iota k.+1 (N - k.+1)) by rewrite has_find size_iota -/f; lia.
  by move/(nth_find 0%N); rewrite -/f nth_iota //; lia.
apply/forallP => r; apply/implyP => kr; apply/negPn/negP => ar.
have /hasP : exists2 x, x \in iota k.+1 (N - k.+1) & A x k != 0.
  by exists (nat_of_ord r) => //; rewrite mem_iota; have := ltn_ord r; lia.
by rewrite has_find size_iota -/f; lia.
Qed.

Lemma dani_swap_piv N k i A : (k < i < N)%N -> dani_swap N k i A k.+1 k = A i k.
Proof.
move=> h; rewrite /dani_swap; case: ltnP => ki; last by congr (A _ _); lia.
rewrite fswap_colE ifT; last by lia.
rewrite [transpose_ij i k.+1 k]/transpose_ij !ifF; try lia.
rewrite /at_ fswap_rowE leq0n leqnn /= subnn ifT; last by lia.
rewrite /sub /transpose_ij subn0 ifF; last by lia.
by rewrite eqxx add0n addn0.
Qed.

Theorem Danilevski_ok N A :
  \prod_(p <- Danilevski N A) Poly p = char_poly (mx N N A).
Proof.
rewrite /Danilevski.
have H n : (n <= N)%N -> let: (B, d, cs) := iteri n (dani_step N) (A, 0%N, [::]) in
  [/\ (d <= n)%N, n = N -> d = N & (\prod_(p <- cs) Poly p) * char_poly (virt N n d B) = char_poly (mx N N A)].
  elim: n => [_|n IH nN] /=.
    by split=> //; rewrite big_nil mul1r /virt subn0; congr char_poly.
  move: (IH (ltnW nN)); case: (iteri n _ _) => [[B d] cs] [dn _ E].
  rewrite /dani_step; move: (dani_row_ok B nN); set i := dani_row N n B; cbv zeta.
  case: ltnP => iN.
    case/andP => ni Bi; split; [by lia|by lia|].
    rewrite -dani_elim_ok //; [|by lia|by rewrite dani_swap_piv // ni].
    by rewrite dani_swap_ok // dn ni.
  move/forallP => B0; split=> //.
  rewrite big_cons -mulrA mulrCA -E; congr (_ * _).
  rewrite [RHS](@dani_block_ok _ _ _ B) ?dn //.
  move=> r /andP[nr rN]; have := B0 (Ordinal rN); rewrite /= nr /=; by move/eqP.
move: (H N (leqnn N)); case: (iteri N _ _) => [[B d] cs] [_ -> // <-] /=.
rewrite (_ : char_poly _ = 1) ?mulr1 //.
by rewrite /virt subnn /char_poly det_mx00.
Qed.
End Dani.
