From mathcomp Require Import all_ssreflect zify.
From Verif Require Import Grid Perm_model Perm_spec.
Set Implicit Arguments.
Unset Strict Implicit.
Unset Printing Implicit Defensive.

Lemma tijK i j : involutive (transpose_ij i j).
Proof. by move=> x; rewrite /transpose_ij; do ! case: eqP => //=; lia. Qed.

Lemma tij_id i x : transpose_ij i i x = x.
Proof. by rewrite /transpose_ij; case: eqP. Qed.

Lemma tijC i j x : transpose_ij i j x = transpose_ij j i x.
Proof. rewrite /transpose_ij; do ! case: eqP => //=; lia. Qed.

Lemma iterdS_r (S : Type) n (f : nat -> S -> S) x :
  iterd n.+1 f x = iterd n f (f n x).
Proof. by []. Qed.

Lemma iteri_ext (S : Type) n (f g : nat -> S -> S) x :
  (forall k y, k < n -> f k y = g k y) -> iteri n f x = iteri n g x.
Proof.
by elim: n => //= n IH H; rewrite IH ?H // => k y kn; apply: H; rewrite ltnS ltnW.
Qed.

Section S.
Variables (p : nat -> nat).

Lemma sigma_nil b e x : e <= b -> sigma p b e x = x.
Proof. by rewrite /sigma => /eqP ->. Qed.

Lemma sigmaV_nil b e x : e <= b -> sigmaV p b e x = x.
Proof. by rewrite /sigmaV => /eqP ->. Qed.

Lemma sigmaSr b e x : b <= e -> sigma p b e.+1 x = sigma p b e (transpose_ij e (p e) x).
Proof. by move=> be; rewrite /sigma subSn // -addn1 iotaD foldr_cat /= subnKC. Qed.

Lemma sigmaSl b e x : b < e -> sigma p b e x = transpose_ij b (p b) (sigma p b.+1 e x).
Proof. by move=> be; rewrite /sigma -(subnSK be). Qed.

Lemma sigmaVSr b e x : b <= e -> sigmaV p b e.+1 x = transpose_ij e (p e) (sigmaV p b e x).
Proof. by move=> be; rewrite /sigmaV subSn // -addn1 iotaD foldl_cat /= subnKC. Qed.

Lemma sigmaVSl b e x : b < e -> sigmaV p b e x = sigmaV p b.+1 e (transpose_ij b (p b) x).
Proof. by move=> be; rewrite /sigmaV -(subnSK be). Qed.

Lemma sigmaK b e : cancel (sigma p b e) (sigmaV p b e).
Proof.
case: (leqP b e) => [|be x]; last by rewrite sigma_nil ?sigmaV_nil // ltnW.
elim: e => [|e IH]; first by case: b => // _ x; rewrite sigma_nil ?sigmaV_nil.
rewrite leq_eqVlt => /orP[/eqP <- x|be x]; first by rewrite sigma_nil ?sigmaV_nil.
by rewrite sigmaSr // sigmaVSr // IH // tijK.
Qed.

Lemma sigmaVK b e : cancel (sigmaV p b e) (sigma p b e).
Proof.
case: (leqP b e) => [|be x]; last by rewrite sigma_nil ?sigmaV_nil // ltnW.
elim: e => [|e IH]; first by case: b => // _ x; rewrite sigma_nil ?sigmaV_nil.
rewrite leq_eqVlt => /orP[/eqP <- x|be x]; first by rewrite sigma_nil ?sigmaV_nil.
by rewrite sigmaSr // sigmaVSr // tijK IH.
Qed.

Lemma sigma_lt n b e x : (forall i, b <= i < e -> p i < n) -> e <= n ->
  x < n -> sigma p b e x < n.
Proof.
case: (leqP b e) => [|be _ _]; last by rewrite sigma_nil // ltnW.
elim: e x => [|e IH] x; first by case: b => // _ _ _; rewrite sigma_nil.
rewrite leq_eqVlt => /orP[/eqP <- _ _|be]; first by rewrite sigma_nil.
move=> H en xn; rewrite sigmaSr //; apply: IH => //; first by move=> i ie; apply: H; lia.
- lia.
- by rewrite /transpose_ij; have := H e; do ! case: eqP => //; lia.
Qed.

Lemma sigma_ge n b e x : (forall i, b <= i < e -> p i < n) -> e <= n ->
  n <= x -> sigma p b e x = x.
Proof.
case: (leqP b e) => [|be _ _]; last by rewrite sigma_nil // ltnW.
elim: e x => [|e IH] x; first by case: b => // _ _ _; rewrite sigma_nil.
rewrite leq_eqVlt => /orP[/eqP <- _ _|be]; first by rewrite sigma_nil.
move=> H en xn; rewrite sigmaSr //.
have -> : transpose_ij e (p e) x = x by rewrite /transpose_ij; have := H e; do ! case: eqP => //; lia.
by apply: IH => //; [move=> i ie; apply: H|]; lia.
Qed.

Lemma sigma_inj b e : injective (sigma p b e).
Proof. exact: can_inj (sigmaK b e). Qed.

(** Indices below b are fixed when p i >= b *)
Lemma sigma_lo b e x : (forall i, b <= i < e -> b <= p i) -> x < b -> sigma p b e x = x.
Proof.
case: (leqP b e) => [|be _ _]; last by rewrite sigma_nil // ltnW.
elim: e x => [|e IH] x; first by case: b => // _ _ _; rewrite sigma_nil.
rewrite leq_eqVlt => /orP[/eqP <- _ _|be]; first by rewrite sigma_nil.
move=> H xn; rewrite sigmaSr //.
have -> : transpose_ij e (p e) x = x by rewrite /transpose_ij; have := H e; do ! case: eqP => //; lia.
by apply: IH => // i ie; apply: H; lia.
Qed.

End S.

Lemma sigma_ext p q b e x : (forall i, b <= i < e -> p i = q i) -> sigma p b e x = sigma q b e x.
Proof.
case: (leqP b e) => [|be _]; last by rewrite !sigma_nil; lia.
elim: e x => [|e IH] x; first by case: b => // _ _; rewrite !sigma_nil.
rewrite leq_eqVlt => /orP[/eqP <- _|be]; first by rewrite !sigma_nil.
by move=> H; rewrite !sigmaSr // IH ?H ?leqnn ?andbT // => i ie; apply: H; lia.
Qed.


Lemma sigma_perm p n : (forall i, i < n -> p i < n) -> is_perm n (sigma p 0 n).
Proof.
move=> H; split=> [i|i j _ _]; first by apply: sigma_lt.
exact: sigma_inj.
Qed.

Section A.
Variable T : Type.
Implicit Type A : grid T.

Lemma fswap_rowE M a b A i j :
  fswap_row M a b A i j = if j < M then A (transpose_ij a b i) j else A i j.
Proof.
rewrite /fswap_row; elim: M i j => [|M IH] i j //=.
rewrite /swap_cell /upd !IH ltnn ltnS /transpose_ij.
by case: (ltngtP j M) => [||->]; rewrite ?andbF ?andbT //; do ! case: eqP => //=; congruence.
Qed.

Lemma fswap_colE M a b A i j :
  fswap_col M a b A i j = if i < M then A i (transpose_ij a b j) else A i j.
Proof.
rewrite /fswap_col; elim: M i j => [|M IH] i j //=.
rewrite /swap_cell /upd !IH ltnn ltnS /transpose_ij.
by case: (ltngtP i M) => [||->] //=; do ! case: eqP => //=; congruence.
Qed.

Definition stepP s M (P : nat -> nat) i A :=
    if P i != i then
      if s is SRight then fswap_col M (P i) i A else fswap_row M (P i) i A
    else A.

Lemma stepPE s M P k A i j : stepP s M P k A i j =
  if s is SLeft then if j < M then A (transpose_ij k (P k) i) j else A i j
  else if i < M then A i (transpose_ij k (P k) j) else A i j.
Proof.
rewrite /stepP; case: (P k =P k) => [->|_] /=.
  by case: s; rewrite tij_id; case: ifP.
by case: s; rewrite ?fswap_rowE ?fswap_colE tijC.
Qed.

Lemma upE s M P b n A i j :
  iteri n (fun k => stepP s M P (b + k)) A i j =
  if s is SLeft then if j < M then A (sigma P b (b + n) i) j else A i j
  else if i < M then A i (sigma P b (b + n) j) else A i j.
Proof.
case: s; elim: n i j => [|n IH] i j /=; try by rewrite addn0 sigma_nil //; case: ifP.
  by rewrite (stepPE SLeft) !addnS !sigmaSr ?leq_addr // !IH; case: (j < M).
by rewrite (stepPE SRight) !addnS !sigmaSr ?leq_addr // !IH; case: (i < M).
Qed.

Lemma downE s M P b n A i j :
  iterd n (fun k => stepP s M P (b + k)) A i j =
  if s is SLeft then if j < M then A (sigmaV P b (b + n) i) j else A i j
  else if i < M then A i (sigmaV P b (b + n) j) else A i j.
Proof.
case: s; elim: n A i j => [|n IH] A i j /=; try by rewrite addn0 sigmaV_nil //; case: ifP.
  by rewrite IH !addnS !sigmaVSr ?leq_addr // !(stepPE SLeft); case: (j < M).
by rewrite IH !addnS !sigmaVSr ?leq_addr // !(stepPE SRight); case: (i < M).
Qed.

(** What applyP does to an entry. *)
Definition applyP_entry (s : side) (t : transp) (M ibeg iend : nat) (P : nat -> nat) A : grid T :=
  fun i j => match s, t with
  | SLeft, NoTrans => if j < M then A (sigma P ibeg iend i) j else A i j
  | SLeft, Trans => if j < M then A (sigmaV P ibeg iend i) j else A i j
  | SRight, Trans => if i < M then A i (sigma P ibeg iend j) else A i j
  | SRight, NoTrans => if i < M then A i (sigmaV P ibeg iend j) else A i j
  end.

Lemma applyP_blockE s t M b e P A i j :
  applyP_block s t M b e P A i j = applyP_entry s t M b e P A i j.
Proof.
have N1 x : sigma P b (b + (e - b)) x = sigma P b e x.
  by rewrite /sigma; congr (foldr _ _ (iota _ _)); lia.
have N2 x : sigmaV P b (b + (e - b)) x = sigmaV P b e x.
  by rewrite /sigmaV; congr (foldl _ _ (iota _ _)); lia.
case: s; case: t; rewrite /applyP_block /applyP_entry.
- by rewrite (upE SLeft) N1.
- by rewrite (downE SLeft) N2.
- by rewrite (downE SRight) N2.
- by rewrite (upE SRight) N1.
Qed.

Lemma ext_at0 i0 j0 f A i j : (i0 <= i) && (j0 <= j) ->
  at_ i0 j0 f A i j = f (sub i0 j0 A) (i - i0) (j - j0).
Proof. by rewrite /at_ => ->. Qed.

Lemma at_applyP_block s t (b0 m b e : nat) P A i j :
  (if s is SLeft then at_ 0 b0 else at_ b0 0) (applyP_block s t m b e P) A i j =
  if s is SLeft then
     if b0 <= j < b0 + m then A ((if t is NoTrans then sigma else sigmaV) P b e i) j else A i j
  else if b0 <= i < b0 + m then A i ((if t is Trans then sigma else sigmaV) P b e j) else A i j.
Proof.
case: s; rewrite /at_ applyP_blockE /applyP_entry /sub; case: t; case: (leqP b0 _) => // H;
  rewrite !subn0 !add0n ltn_subLR // subnKC //=; by case: ifP.
Qed.

Lemma applyPE bk s t M b e P A i j : 0 < bk ->
  applyP bk s t M b e P A i j = applyP_entry s t M b e P A i j.
Proof.
move=> bk0; rewrite /applyP.
have H n : forall i j, iteri n (fun i0 => (if s is SLeft then @at_ T 0 (i0 * bk) else at_ (i0 * bk) 0)
    (applyP_block s t bk b e P)) A i j = applyP_entry s t (n * bk) b e P A i j.
  elim: n => [|n IH] x y /=; first by rewrite mul0n; case: s; case: t.
  rewrite at_applyP_block !IH /applyP_entry mulSn.
  by clear IH; case: s; case: t => /=; do ! case: ifP => //; lia.
rewrite at_applyP_block !H /applyP_entry -divn_eq.
clear H; have := divn_eq M bk.
by case: s; case: t => /=; do ! case: ifP => //; lia.
Qed.
End A.

Lemma rot1 m x : m <= 1 -> rot m x = x.
Proof. by rewrite /rot; case: ifP => //; case: eqP; lia. Qed.

Section A2.
Variable T : Type.
Implicit Type A : grid T.

Lemma applyP_tasksE bk s t b e P bl A i j : 0 < bk ->
  (forall k, count (fun x => x.1 <= k < x.1 + x.2) bl <= 1) ->
  applyP_tasks bk s t b e P bl A i j =
  match s with
  | SLeft => if has (fun x => x.1 <= j < x.1 + x.2) bl
             then A ((if t is NoTrans then sigma else sigmaV) P b e i) j else A i j
  | SRight => if has (fun x => x.1 <= i < x.1 + x.2) bl
             then A i ((if t is Trans then sigma else sigmaV) P b e j) else A i j
  end.
Proof.
move=> bk0; rewrite /applyP_tasks.
have E x A' i' j' : (if s is SLeft then @at_ T 0 x.1 else at_ x.1 0) (applyP bk s t x.2 b e P) A' i' j' =
   if s is SLeft then
     if x.1 <= j' < x.1 + x.2 then A' ((if t is NoTrans then sigma else sigmaV) P b e i') j' else A' i' j'
   else if x.1 <= i' < x.1 + x.2 then A' i' ((if t is Trans then sigma else sigmaV) P b e j') else A' i' j'.
  case: s; rewrite /at_ applyPE // /applyP_entry /sub; case: t; case: (leqP x.1 _) => // H;
  rewrite !subn0 !add0n ltn_subLR // subnKC //=; by case: ifP.
elim: bl A i j => [|x bl IH] A i j /= H; first by case: s E.
have H' k : count (fun x => x.1 <= k < x.1 + x.2) bl <= 1.
  by apply: leq_trans (H k); rewrite leq_addl.
rewrite IH //.
case: s E {IH} => E; rewrite !E.
  have := H j; case: (x.1 <= j < x.1 + x.2); last by rewrite orFb.
  by rewrite orTb /= leq_add2l leqn0 has_count => /eqP->.
have := H i; case: (x.1 <= i < x.1 + x.2); last by rewrite orFb.
by rewrite orTb /= leq_add2l leqn0 has_count => /eqP->.
Qed.

Lemma cyclic_shift_rowE m n A i j :
  cyclic_shift_row m n A i j = if j < n then A (rot m i) j else A i j.
Proof.
rewrite /cyclic_shift_row; case: ltnP => m1; last first.
  by rewrite rot1 //; case: ifP.
have H k A' x y : iterd k (fun k A => at_ k.+1 0 (fassign 1 n (sub k 0 A)) A) A' x y
   = if (y < n) && (0 < x <= k) then A' x.-1 y else A' x y.
  elim: k A' => [|k IH] A' /=; first by bsolve.
  by rewrite IH /at_ /fassign /fill /sub; bsolve.
rewrite /fassign /fill H memoE /sub /rot.
by bsolve.
Qed.

Lemma cyclic_shift_colE m n A i j :
  cyclic_shift_col m n A i j = if i < m then A i (rot n j) else A i j.
Proof.
rewrite /cyclic_shift_col; case: ltnP => m1; last first.
  by rewrite rot1 //; case: ifP.
have H k A' r x y : iterd k (fun k A => upd A r k.+1 (A r k)) A' x y
   = if (x == r) && (0 < y <= k) then A' x y.-1 else A' x y.
  elim: k A' => [|k IH] A' /=; first by bsolve.
  by rewrite !IH /upd; bsolve.
elim: m i j => [|m IH] i j //=.
rewrite /upd !H !IH ltnn ltnS /rot.
by bsolve.
Qed.

Lemma doApplySE width M2 R1 R2 R3 R4 A i j : R1 + R2 <= M2 ->
  doApplyS width M2 R1 R2 R3 R4 A i j =
  if j < width then A (exch (R1 + R2) (M2 - R1 - R2) (R3 + R4) i) j else A i j.
Proof.
move=> le; rewrite /doApplyS.
have H k x y : iteri k (fun k A => at_ (R1 + R2 + k) 0 (fassign 1 width (sub (M2 + k) 0 A)) A) A x y
   = if (y < width) && (R1 + R2 <= x < R1 + R2 + k) then A (x + (M2 - R1 - R2)) y else A x y.
  elim: k x y => [|k IH] x y /=; first by case: ifP => //; lia.
  rewrite /at_ /fassign /fill /sub !IH !subn0 !add0n.
  by bsolve.
move: (H (R3 + R4)); set A1 := iteri _ _ A => H1.
rewrite /at_ /fassign /fill memoE /sub !H1 /exch !subn0 !add0n.
by bsolve.
Qed.

Lemma doApplyT_rowE N2 R1 R2 R3 R4 A i j : R1 + R3 <= N2 ->
  doApplyT_row N2 R1 R2 R3 R4 A i j =
  if i == 0 then A i (exch R1 (N2 - R1) R2 (exch (R1 + R2 + R3) (N2 - R1 - R3) R4 j)) else A i j.
Proof.
move=> le; rewrite /doApplyT_row.
have H k c d A' x y : c <= d -> iteri k (fun k A => upd A 0 (c + k) (A 0 (d + k))) A' x y
   = if (x == 0) && (c <= y < c + k) then A' x (d + (y - c)) else A' x y.
  move=> cd; elim: k x y => [|k IH] x y /=; first by case: ifP => //; lia.
  rewrite /upd !IH eqxx /=.
  by bsolve.
have R1N : R1 <= N2 by lia.
have H1 x y := H R2 R1 N2 A x y R1N; move: H1; set A1 := iteri _ _ A => H1.
set A2 := at_ 0 (R1 + R2) _ A1.
have H2 x y : A2 x y = if (x == 0) && (R1 + R2 <= y < R1 + R2 + R3) then A 0 (y - R2) else A1 x y.
  by rewrite /A2 /at_ /fassign /fill memoE /sub; bsolve.
have le2 : R1 + R2 + R3 <= N2 + R2 by lia.
have H3 x y := H R4 _ _ A2 x y le2; move: H3; set A3 := iteri _ _ A2 => H3.
rewrite /at_ /fassign /fill /sub memoE !H3 !H2 !H1 /exch /sub.
clear -R1N le le2; by bprune.
Qed.

Lemma doApplyTE width N2 R1 R2 R3 R4 A i j : R1 + R3 <= N2 ->
  doApplyT width N2 R1 R2 R3 R4 A i j =
  if i < width then A i (exch R1 (N2 - R1) R2 (exch (R1 + R2 + R3) (N2 - R1 - R3) R4 j)) else A i j.
Proof.
move=> le; rewrite /doApplyT; elim: width i j => [|w IH] i j //=.
rewrite /at_ andbT doApplyT_rowE // /sub !subn0 !add0n !IH ltnS.
by bsolve.
Qed.

End A2.

(** ** Explicit permutations *)

Lemma swap1E (T : Type) (a : nat -> T) i j x : swap1 a i j x = a (transpose_ij i j x).
Proof. by rewrite /swap1 /upd1 /transpose_ij; do ! case: eqP => //=; congruence. Qed.

Lemma lapack2mathE M0 p N x : (forall i, i < N -> p i < N) ->
  lapack2math M0 p N x = if x < N then sigma p 0 N x else M0 x.
Proof.
move=> H; rewrite /lapack2math.
have H1 k y : iteri k (fun i m => upd1 m i i) M0 y = if y < k then y else M0 y.
  elim: k => [|k IH] //=; rewrite /upd1 IH ltnS.
  by case: (ltngtP y k) => // ->.
set A0 := iteri _ _ M0.
have H2 k y : iteri k (fun i m => if p i != i then swap1 m i (p i) else m) A0 y = A0 (sigma p 0 k y).
  elim: k y => [|k IH] y //=; rewrite sigmaSr //.
  by case: (p k =P k) => [->|_] /=; rewrite ?swap1E IH ?tij_id.
rewrite H2 /A0 H1; case: (ltnP x N) => xN; first by rewrite sigma_lt.
by rewrite !(sigma_ge (n := N)) // ltnNge xN.
Qed.

Lemma math2lapack_inv P0 s N : is_perm N s -> forall i, i <= N ->
  let: (P, T, Ti) := iteri i (math2lapack_step s) (P0, id, id) in
  [/\ forall x, T x = sigma P 0 i x, cancel T Ti /\ cancel Ti T,
      forall k, k < i -> T k = s k,
      forall k, k < i -> k <= P k < N & forall k, i <= k -> P k = P0 k].
Proof.
move=> [sN sI]; elim=> [|i IH] iN //=.
case: (iteri i _ _) (IH (ltnW iN)) => [[P T] Ti] [HT [C1 C2] Hs HP H0] /=.
set j := Ti (s i).
have Tj : T j = s i by rewrite C2.
have ij : i <= j.
  rewrite leqNgt; apply/negP => ji.
  by have := sI j i (ltn_trans ji iN) iN; rewrite -Tj (Hs _ ji) => /(_ erefl) E; rewrite E ltnn in ji.
have jN : j < N.
  rewrite ltnNge; apply/negP => Nj; have := sN _ iN; rewrite -Tj HT (sigma_ge (n := N)) ?(ltnW iN) //.
    by rewrite ltnNge Nj.
  by move=> k /= ki; case/andP: (HP k ki).
set T' := upd1 (upd1 T j (T i)) i (T j).
have T'E x : T' x = T (transpose_ij i j x).
  by rewrite /T' /upd1 /transpose_ij; do ! case: eqP => //=; congruence.
set Ti' := upd1 _ (T j) _.
have Ti'E x : Ti' x = transpose_ij i j (Ti x).
  rewrite /Ti' /upd1 /transpose_ij.
  have -> : (if i == j then T i else T i) = T i by case: ifP.
  case: (x =P T j) => [->|n1]; first by rewrite C1 eqxx; case: eqP.
  case: (x =P T i) => [->|n2]; first by rewrite C1 eqxx.
  case: eqP => [E|_]; first by case: n2; rewrite -E C2.
  by case: eqP => [E|_] //; case: n1; rewrite -E C2.
split.
- move=> x; rewrite T'E HT sigmaSr // /upd1 eqxx; apply: sigma_ext => k /= ki.
  by case: eqP => // E; rewrite E ltnn in ki.
- by split=> x; rewrite T'E Ti'E ?C1 ?tijK // C2.
- move=> k; rewrite ltnS leq_eqVlt => /orP[/eqP->|ki].
    by rewrite T'E /transpose_ij eqxx Tj.
  rewrite T'E /transpose_ij; case: eqP => [E|_]; first by rewrite E ltnn in ki.
  by case: eqP => [E|_]; [rewrite E ltnNge ij in ki | apply: Hs].
- move=> k; rewrite /upd1 ltnS leq_eqVlt => /orP[/eqP->|ki]; first by rewrite eqxx ij jN.
  by case: eqP => [E|_]; [rewrite E ltnn in ki | apply: HP].
- move=> k ik; rewrite /upd1; case: eqP => [E|_]; first by rewrite E ltnn in ik.
  by apply: H0; apply: ltnW.
Qed.

Lemma math2lapackE P0 s N : is_perm N s ->
  is_lapack N (math2lapack P0 s N) /\
  (forall x, x < N -> sigma (math2lapack P0 s N) 0 N x = s x) /\
  (forall x, N <= x -> math2lapack P0 s N x = P0 x).
Proof.
move=> H; have := math2lapack_inv P0 H (leqnn N); rewrite /math2lapack.
case: (iteri N _ _) => [[P T] Ti] /= [HT _ Hs HP H0].
by do ! split => //; move=> x xN; rewrite -HT Hs.
Qed.

Lemma composeMLME m p2 R N x : R <= N -> (forall i, i < N - R -> p2 i < N - R) ->
  composeMLM m p2 R N x = m (dsum R (sigma p2 0 (N - R)) x).
Proof.
move=> RN H; rewrite /composeMLM.
have E k : k <= N - R -> forall y, iteri k (fun k m =>
    let i := R + k in
    if p2 (i - R) != i - R then
      let tmp := m i in
      let m := upd1 m i (m (p2 (i - R) + R)) in
      upd1 m (p2 (i - R) + R) tmp
    else m) m y = m (dsum R (sigma p2 0 k) y).
  elim: k => [|k IH] kN y; first by rewrite /= /dsum sigma_nil //; case: ltnP => // Ry; rewrite subnKC.
  have {}IH := IH (ltnW kN).
  move: IH; rewrite [iteri k.+1 _ _]/=; set m' := iteri k _ _ => IH.
  rewrite addKn; case: (p2 k =P k) => [E|E] /=.
    by rewrite IH /dsum sigmaSr // E tij_id.
  have -> : upd1 (upd1 m' (R + k) (m' (p2 k + R))) (p2 k + R) (m' (R + k)) y = swap1 m' (R + k) (p2 k + R) y by [].
  rewrite swap1E IH /dsum; congr (m _).
  rewrite sigmaSr // /transpose_ij.
  case: (y =P R + k) => [->|n1]; first by rewrite addKn eqxx (addnC (p2 k)) addKn ltnNge leq_addr /= ltnNge leq_addr.
  case: (y =P p2 k + R) => [->|n2].
    by rewrite (addnC (p2 k)) addKn ltnNge leq_addr /= ltnNge leq_addr /= addKn eqxx; case: eqP E.
  case: ltnP => // Ry; congr (R + sigma _ _ _ _).
  by case: eqP => [E1|_]; [|case: eqP => [E2|_] //]; lia.
by rewrite E.
Qed.

Lemma dsum_perm R N s : R <= N -> is_perm (N - R) s -> is_perm N (dsum R s).
Proof.
move=> RN [H1 H2]; split=> [i iN|i j iN jN]; rewrite /dsum.
  case: (ltnP i R) => // Ri; have : s (i - R) < N - R by apply: H1; lia.
  lia.
case: (ltnP i R) => Ri; case: (ltnP j R) => Rj; try lia.
move=> E; have : i - R = j - R by apply: H2; lia.
lia.
Qed.

Lemma perm_comp N s t : is_perm N s -> is_perm N t -> is_perm N (fun x => s (t x)).
Proof.
move=> [H1 H2] [H3 H4]; split=> [i iN|i j iN jN E]; first by apply/H1/H3.
by apply: H4 => //; apply: H2 => //; apply: H3.
Qed.

Lemma perm_ext N s t : (forall x, x < N -> s x = t x) -> is_perm N s -> is_perm N t.
Proof.
move=> E [H1 H2]; split=> [i iN|i j iN jN]; first by rewrite -E // H1.
by rewrite -!E //; apply: H2.
Qed.

Lemma composeLLME M0 p1 p2 R N x : R <= N -> (forall i, i < N -> p1 i < N) ->
  (forall i, i < N - R -> p2 i < N - R) -> x < N ->
  composeLLM M0 p1 p2 R N x = sigma p1 0 N (dsum R (sigma p2 0 (N - R)) x).
Proof.
move=> RN H1 H2 xN; rewrite /composeLLM composeMLME // lapack2mathE // ifT //.
exact: (dsum_perm RN (sigma_perm H2)).1.
Qed.

Lemma composeLLM_perm M0 p1 p2 R N : R <= N -> (forall i, i < N -> p1 i < N) ->
  (forall i, i < N - R -> p2 i < N - R) -> is_perm N (composeLLM M0 p1 p2 R N).
Proof.
move=> RN H1 H2.
apply: (perm_ext (s := fun x => sigma p1 0 N (dsum R (sigma p2 0 (N - R)) x))).
  by move=> x xN; rewrite composeLLME.
by apply: perm_comp; [apply: sigma_perm | apply: dsum_perm => //; apply: sigma_perm].
Qed.

Lemma composeLLLE M0 p1 p2 R N : R <= N -> (forall i, i < N -> p1 i < N) ->
  (forall i, i < N - R -> p2 i < N - R) ->
  let p := composeLLL M0 p1 p2 R N in is_lapack N p /\
  forall x, x < N -> sigma p 0 N x = sigma p1 0 N (dsum R (sigma p2 0 (N - R)) x).
Proof.
move=> RN H1 H2 p; have [L [E _]] := math2lapackE p1 (composeLLM_perm M0 RN H1 H2).
by split=> // x xN; rewrite E // composeLLME.
Qed.

Lemma cyclic_shift_mathPermE P s x : 0 < s -> cyclic_shift_mathPerm P s x = P (rot s x).
Proof. by move=> s0; rewrite /cyclic_shift_mathPerm /rot; case: (x =P 0) => [->|_]; rewrite ?s0 //; case: ifP. Qed.

Lemma PermApplySE P M2 R1 R2 R3 R4 i : R1 + R2 <= M2 ->
  PermApplyS P M2 R1 R2 R3 R4 i = P (exch (R1 + R2) (M2 - R1 - R2) (R3 + R4) i).
Proof. by move=> H; rewrite /PermApplyS doApplySE. Qed.

Lemma PermApplyTE P N2 R1 R2 R3 R4 i : R1 + R3 <= N2 ->
  PermApplyT P N2 R1 R2 R3 R4 i =
  P (exch R1 (N2 - R1) R2 (exch (R1 + R2 + R3) (N2 - R1 - R3) R4 i)).
Proof. by move=> H; rewrite /PermApplyT doApplyTE. Qed.
