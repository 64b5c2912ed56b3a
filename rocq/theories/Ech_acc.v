(** * Entries of the matrices returned by the accessors *)
From mathcomp Require Import all_ssreflect all_algebra zify.
From Verif Require Import Grid Perm_model Perm_spec Perm_proofs Tri_model Tri_spec Tri_proofs.
From Verif Require Import Pluq_model Pluq_spec Pluq_proofs Pluq_rank Api_model Api_proofs Ludiv_model Ludiv_proofs Ech_model Ech_spec Ech_proofs Ech_steps.
Set Implicit Arguments.
Unset Strict Implicit.
Unset Printing Implicit Defensive.
Import GRing.Theory.
Local Open Scope ring_scope.

Section Acc.
Variable F : fieldType.
Implicit Types A B X Y T E V : grid F.

Lemma at_zE i j m n T x y : at_ i j (fzero m n) T x y = if ((i <= x < i + m) && (j <= y < j + n))%N then 0 else T x y.
Proof.
rewrite /at_ /fzero /fill /sub; case: (boolP ((i <= x) && (j <= y))%N) => h; last by rewrite ifF //; lia.
have -> : ((x - i < m) && (y - j < n))%N = ((i <= x < i + m) && (j <= y < j + n))%N by lia.
by case: ifP => // _; rewrite !subnKC //; lia.
Qed.

Lemma at_cE i j m n A T x y : at_ i j (fassign m n (sub i j A)) T x y = if ((i <= x < i + m) && (j <= y < j + n))%N then A x y else T x y.
Proof.
rewrite /at_ /fassign /fill /sub; case: (boolP ((i <= x) && (j <= y))%N) => h; last by rewrite ifF //; lia.
have -> : ((x - i < m) && (y - j < n))%N = ((i <= x < i + m) && (j <= y < j + n))%N by lia.
by rewrite !subnKC //; lia.
Qed.

Lemma at_iE i m n T x y : at_ i i (fidentity m n) T x y = if ((i <= x < i + m) && (i <= y < i + n))%N then (x == y)%:R else T x y.
Proof.
rewrite /at_ fidentityE /sub; case: (boolP ((i <= x) && (i <= y))%N) => h; last by rewrite ifF //; lia.
have -> : ((x - i < m) && (y - i < n))%N = ((i <= x < i + m) && (i <= y < i + n))%N by lia.
have -> : (x - i == y - i)%N = (x == y) by lia.
by rewrite !subnKC //; lia.
Qed.

Lemma iter_rows n (body : nat -> grid F -> grid F) (g : nat -> nat -> F -> F) T x y :
  (forall i T x y, (i < n)%N -> body i T x y = if x == i then g i y (T i y) else T x y) ->
  iteri n body T x y = if (x < n)%N then g x y (T x y) else T x y.
Proof.
elim: n x y => [|n IH] x y h //=; rewrite h // IH => [|i S a b it]; last by apply: h; lia.
rewrite IH => [|i S a b it]; last by apply: h; lia.
by rewrite ltnn ltnS; case: (ltngtP x n) => [h1|h1|->].
Qed.

Lemma iter_cols n (body : nat -> grid F -> grid F) (g : nat -> nat -> F -> F) T x y :
  (forall i T x y, (i < n)%N -> body i T x y = if y == i then g i x (T x i) else T x y) ->
  iteri n body T x y = if (y < n)%N then g y x (T x y) else T x y.
Proof.
elim: n x y => [|n IH] x y h //=; rewrite h // IH => [|i S a b it]; last by apply: h; lia.
rewrite IH => [|i S a b it]; last by apply: h; lia.
by rewrite ltnn ltnS; case: (ltngtP y n) => [h1|h1|->].
Qed.

(** ** Triangular parts *)

Lemma getTriangularU d M N R A T (only : bool) x y : (R <= M)%N -> (R <= N)%N -> (x < if only then R else M)%N -> (y < N)%N ->
  getTriangular Upper d M N R A T only x y = if (x < R)%N then Up d A x y else 0.
Proof.
move=> RM RN xM yN; rewrite /getTriangular; set T1 := iteri R _ T.
have T1E a b : (b < N)%N -> T1 a b = if (a < R)%N then Up d A a b else T a b.
  move=> bN; rewrite /T1 (iter_rows (g := fun a b v => if (b < N)%N then Up d A a b else v)) => [|i S p q iR].
    by rewrite bN.
  case: (d).
    rewrite at_cE /upd at_zE /Up; have [->|ne] := eqVneq p i; last by rewrite !ifF //; lia.
    by case: (ltngtP q i) => qi; do ! [case: ifP => //]; lia.
  rewrite at_cE at_zE /Up; have [->|ne] := eqVneq p i; last by rewrite !ifF //; lia.
  by case: (ltngtP q i) => qi; rewrite ?qi; do ! [case: ifP => //]; lia.
case: only xM => /= xM; first by rewrite T1E // xM.
rewrite at_zE T1E //; case: (ltnP x R) => xR //=; rewrite ifT //; lia.
Qed.

Lemma getTriangularL d M N R A T (only : bool) x y : (R <= N)%N -> (x < M)%N -> (y < if only then R else N)%N ->
  getTriangular Lower d M N R A T only x y = if (y < R)%N then Lo (odiag d) A x y else 0.
Proof.
move=> RN xM yN; rewrite /getTriangular; set mc := if only then R else N in yN *; set T1 := iteri R _ T.
have T1E a b : (b < mc)%N -> T1 a b = if (a < R)%N then Lo (odiag d) A a b else T a b.
  move=> bN; rewrite /T1 (iter_rows (g := fun a b v => if (b < mc)%N then Lo (odiag d) A a b else v)) => [|i S p q iR].
    by rewrite bN.
  have im : (i < mc)%N by rewrite /mc; case: (only); lia.
  case: (d).
    rewrite at_zE /upd at_cE /Lo /=; have [->|ne] := eqVneq p i; last by rewrite !ifF //; lia.
    by case: (ltngtP q i) => qi; do ! [case: ifP => //]; lia.
  rewrite at_zE at_cE /Lo /=; have [->|ne] := eqVneq p i; last by rewrite !ifF //; lia.
  by case: (ltngtP q i) => qi; rewrite ?qi; do ! [case: ifP => //]; lia.
set T2 := at_ R 0 _ T1.
have T2E a b : (a < M)%N -> (b < mc)%N -> (b < R)%N -> T2 a b = Lo (odiag d) A a b.
  move=> aM bm bR; rewrite /T2 at_cE T1E //; case: (ltnP a R) => aR //=.
  by rewrite ifT /Lo ?ifT //; lia.
have T2lo a b : (a < R)%N -> (b < mc)%N -> T2 a b = Lo (odiag d) A a b.
  by move=> aR bm; rewrite /T2 at_cE ifF ?T1E ?aR //; lia.
have yN' : (y < N)%N by move: yN; rewrite /mc; case: (only); lia.
case: (ltnP y R) => yR.
  by case: (only); rewrite ?at_zE ?ifF ?T2E //; lia.
have -> : only = false by move: yN; rewrite /mc; case: (only); lia.
rewrite at_zE; case: ifP => // h; rewrite T2lo //; last by move: h; lia.
by rewrite /Lo !ifF //; move: h; lia.
Qed.

Lemma getTriangularU_in d M N R A x y : (R <= M)%N -> (x < M)%N -> (y < N)%N ->
  getTriangular_in Upper d M N R A x y = if (x < R)%N then Up d A x y else 0.
Proof.
move=> RM xM yN; rewrite /getTriangular_in at_zE.
rewrite (iter_rows (g := fun a b v => if (b < a)%N then 0 else if (a == b) && (if d is Unit then true else false) then 1 else v)) => [|i S p q iR].
  case: (ltnP x R) => xR /=; last by rewrite ifT //; lia.
  by rewrite /Up; case: ltngtP => // ->; case: (d).
case: (d); rewrite ?/upd at_zE; have [->|ne] := eqVneq p i; try by rewrite !ifF //; lia.
  by case: (ltngtP q i) => qi; do ! [case: ifP => //]; lia.
by rewrite andbF; case: (ltngtP q i) => qi; do ! [case: ifP => //]; lia.
Qed.

Lemma getTriangularL_in d M N R A x y : (R <= N)%N -> (x < M)%N -> (y < N)%N ->
  getTriangular_in Lower d M N R A x y = if (y < R)%N then Lo (odiag d) A x y else 0.
Proof.
move=> RN xM yN; rewrite /getTriangular_in at_zE.
rewrite (iter_rows (g := fun a b v => if (a < b < N)%N then 0 else if (a == b) && (if d is Unit then true else false) then 1 else v)) => [|i S p q iR].
  case: (ltnP x R) => xR /=; last first.
    case: (ltnP y R) => yR /=; first by rewrite andbF /Lo ifT //; lia.
    by rewrite ifT //; lia.
  case: (ltnP y R) => yR; last by rewrite ifT //; lia.
  by rewrite /Lo; case: (ltngtP x y) => xy /=; rewrite ?yN // xy; case: (d).
case: (d); rewrite at_zE ?/upd; have [->|ne] := eqVneq p i; try by rewrite !ifF //; lia.
  by case: (ltngtP q i) => qi; do ! [case: ifP => //]; lia.
by rewrite andbF; case: (ltngtP q i) => qi; do ! [case: ifP => //]; lia.
Qed.

(** ** The echelon permutation *)

Definition epi (N R : nat) (P : nat -> nat) := sigma (PLUQtoEchelonPermutation N R P id) 0 R.

Lemma epi_ok N R P : (R <= N)%N -> (forall i, (i < N)%N -> (P i < N)%N) ->
  [/\ forall i, (i < R)%N -> (epi N R P i < R)%N, forall i, (R <= i)%N -> epi N R P i = i,
      forall i, (i < R)%N -> (PLUQtoEchelonPermutation N R P id i < R)%N &
      forall t t', (t < t' < R)%N -> (sigma P 0 N (epi N R P t) < sigma P 0 N (epi N R P t'))%N].
Proof.
move=> RN hP; set u := sigma P 0 N; have [uN ui] : is_perm N u by exact: sigma_perm.
set MP := memo1 N (lapack2math id P N).
have MPE x : (x < N)%N -> MP x = u x by move=> xN; rewrite /MP memo1E lapack2mathE // xN.
set inv := memo1 N (iteri N (fun i q => upd1 q (MP i) i) id).
have invE x : (x < N)%N -> inv (u x) = x.
  move=> xN; rewrite /inv memo1E.
  suff H n : (n <= N)%N -> (x < n)%N -> iteri n (fun i q => upd1 q (MP i) i) id (u x) = x by apply: H.
  elim: n => [|n IH] nN // xn /=; rewrite /upd1 MPE //; case: eqP => [/ui|ne]; first by move=> ->.
  apply: IH; first lia.
  by rewrite ltn_neqAle -ltnS xn andbT; apply/eqP => xe; apply: ne; rewrite xe.
set srt := sort leq [seq MP i | i <- iota 0 R].
have srtE : srt = sort leq [seq u i | i <- iota 0 R].
  by congr sort; apply/eq_in_map => i; rewrite mem_iota => iR; rewrite MPE //; lia.
have ssz : size srt = R by rewrite size_sort size_map size_iota.
have su : uniq srt.
  rewrite srtE sort_uniq map_inj_in_uniq ?iota_uniq // => x y; rewrite !mem_iota => xR yR; apply: ui; lia.
have sincr : sorted ltn srt by rewrite ltn_sorted_uniq_leq su sort_sorted //; exact: leq_total.
have smem i : (i < R)%N -> exists2 j, (j < R)%N & nth 0%N srt i = u j.
  move=> iR; have := mem_nth 0%N (s := srt); rewrite ssz => /(_ i iR); rewrite {2}srtE mem_sort => /mapP[j].
  by rewrite mem_iota => jR ->; exists j => //; lia.
set mp := memo1 R (fun i => inv (nth 0%N srt i)).
have mpE i : (i < R)%N -> (mp i < R)%N /\ u (mp i) = nth 0%N srt i.
  by move=> iR; rewrite /mp memo1E; have [j jR ->] := smem i iR; rewrite invE //; lia.
have pm : is_perm R mp.
  split=> [i iR|i j iR jR e]; first exact: (mpE i iR).1.
  have := (mpE i iR).2; rewrite e (mpE j jR).2 => /eqP; rewrite nth_uniq ?ssz // => /eqP->.
  by [].
have [l [e _]] := math2lapackE id pm.
have oE i : PLUQtoEchelonPermutation N R P id i = math2lapack id mp R i by rewrite /PLUQtoEchelonPermutation memo1E.
have eE i : epi N R P i = sigma (math2lapack id mp R) 0 R i by apply: sigma_ext.
split=> [i iR|i iR|i iR|t t' /andP[tt tR]].
- by rewrite eE e //; exact: (mpE i iR).1.
- by rewrite eE; apply: (@sigma_ge _ R) => // k /andP[_ /l]; lia.
- by rewrite oE; have := l i iR; lia.
rewrite !eE !e //; try lia; rewrite !(mpE _ _).2 //; try lia.
by have := sorted_ltn_nth ltn_trans 0%N sincr; apply; rewrite ?inE ?ssz //; lia.
Qed.

(** Increasing values: nothing to do. *)
Lemma incr_same R (f g : nat -> nat) : (forall i, (i < R)%N -> (g i < R)%N) ->
  (forall t t', (t < t' < R)%N -> (f t < f t')%N) -> (forall t t', (t < t' < R)%N -> (f (g t) < f (g t'))%N) ->
  forall i, (i < R)%N -> g i = i.
Proof.
move=> gR fi fgi; apply: (incr_id (ltn0Sn 0)) => // t t' tt; have := fgi t t' tt.
case: (ltngtP (g t) (g t')) => // [h|->]; last by rewrite ltnn.
by have := fi (g t') (g t); have := gR t; have := gR t'; lia.
Qed.

Lemma epi_perm N R P M : (R <= N)%N -> (forall i, (i < N)%N -> (P i < N)%N) -> (R <= M)%N -> is_perm M (epi N R P).
Proof.
move=> RN hP RM; have [h1 h2 _ _] := epi_ok RN hP; split=> [i iM|i j _ _]; last exact: sigma_inj.
by case: (ltnP i R) => h; [have := h1 i h | rewrite h2]; lia.
Qed.

(** ** Application of the permutations *)
Variable bk : nat.
Hypothesis bk0 : (0 < bk)%N.
Lemma pR_NoTrans M e P B i j : (i < M)%N -> applyP bk SRight NoTrans M 0 e P B i (sigma P 0 e j) = B i j.
Proof. by move=> iM; rewrite applyPE //= iM sigmaK. Qed.
Lemma pL_Trans M e P B i j : (j < M)%N -> applyP bk SLeft Trans M 0 e P B (sigma P 0 e i) j = B i j.
Proof. by move=> iM; rewrite applyPE //= iM sigmaK. Qed.
Lemma pL_NoTrans M e P B i j : (j < M)%N -> applyP bk SLeft NoTrans M 0 e P B i j = B (sigma P 0 e i) j.
Proof. by move=> iM; rewrite applyPE //= iM. Qed.
Lemma pR_Trans M e P B i j : (i < M)%N -> applyP bk SRight Trans M 0 e P B i j = B i (sigma P 0 e j).
Proof. by move=> iM; rewrite applyPE //= iM. Qed.

End Acc.
