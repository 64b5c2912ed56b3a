(** * Reading the factors off a Bruhat generator *)
From mathcomp Require Import all_ssreflect all_algebra zify ring.
From Verif Require Import Grid Perm_model Perm_spec Tri_model Tri_spec Tri_proofs Pluq_model.
From Verif Require Import Bruhat_model Bruhat_spec Bruhat_combine Bruhat_proofs Bruhat_rank.
Set Implicit Arguments.
Unset Strict Implicit.
Unset Printing Implicit Defensive.
Import GRing.Theory.
Local Open Scope ring_scope.

Section Get.
Variable F : fieldType.
Implicit Types A X : grid F.
Implicit Types T : nat -> F.

Lemma upd_miss n (f : nat -> nat) (g : nat -> F) T x : (forall t, (t < n)%N -> f t <> x) ->
  iteri n (fun t T => upd1 T (f t) (g t)) T x = T x.
Proof.
elim: n => // n IH h; rewrite iteriS /upd1 ifF; first by apply: IH => t tn; apply: h; lia.
by apply/eqP => e; apply: (h n).
Qed.

Lemma upd_hit n (f : nat -> nat) (g : nat -> F) T t : (forall i j, (i < n)%N -> (j < n)%N -> f i = f j -> i = j) ->
  (t < n)%N -> iteri n (fun t T => upd1 T (f t) (g t)) T (f t) = g t.
Proof.
elim: n => // n IH inj tn; rewrite iteriS /upd1; case: eqP => [e|ne].
  by congr g; apply/esym; apply: inj.
apply: IH => [i j iN jn|]; first by apply: inj; lia.
have tn' : t <> n by move=> e; apply: ne; rewrite e.
by lia.
Qed.

Lemma zero_loop n (f : nat -> nat) T x : iteri n (fun t T => upd1 T (f t) 0) T x =
  if has (fun t => f t == x) (iota 0 n) then 0 else T x.
Proof.
elim: n => // n IH; rewrite iteriS /upd1 -addn1 iotaD has_cat /= add0n orbF IH eq_sym.
by case: eqP => _; rewrite ?orbT ?orbF.
Qed.

Lemma flat_inj ld a c a' c' : (c < ld)%N -> (c' < ld)%N -> (a * ld + c = a' * ld + c' -> a = a' /\ c = c')%N.
Proof.
move=> h h' e; have e1 : (a = a')%N.
  by have := congr1 (fun x => x %/ ld)%N e; rewrite /= !divnMDl ?divn_small ?addn0 //; lia.
by split=> //; move: e; rewrite e1; lia.
Qed.

Variables (d : diag) (N r ldt : nat) (A : grid F) (P Q : nat -> nat) (T : nat -> F).
Hypothesis lt : forall k, (k < r)%N -> (P k + Q k + 1 < N)%N.
Hypothesis Pi : forall j k, (j < r)%N -> (k < r)%N -> P j = P k -> j = k.
Hypothesis Qi : forall j k, (j < r)%N -> (k < r)%N -> Q j = Q k -> j = k.
Hypothesis NT : (N <= ldt)%N.
Hypothesis T0 : forall a c, (a < N)%N -> (c < N)%N -> getLT_clear N T (a * ldt + c)%N = 0.

(** one row of U *)
Lemma U_row k S a c : (k < r)%N -> (a < N)%N -> (c < N)%N ->
  (a = P k -> S (a * ldt + c)%N = 0) ->
  let row := P k in let col := Q k in
  let S' := if d is Unit then
        upd1 (iteri (N - 2 - row - col) (fun t T => upd1 T (row * ldt + col + 1 + t)%N (A row (col + 1 + t)%N)) S)
          (row * ldt + col)%N 1
      else iteri (N - 1 - row - col) (fun t T => upd1 T (row * ldt + col + t)%N (A row (col + t)%N)) S in
  iteri k (fun j T => upd1 T (row * ldt + Q j)%N 0) S' (a * ldt + c)%N =
  if a == P k then Ub d N P Q A k c else S (a * ldt + c)%N.
Proof.
move=> kr aN cN S0 row col S'.
have hk := lt kr; rewrite -/row -/col in hk.
have Qlt j : (j < r)%N -> (Q j < ldt)%N by move=> jr; have := lt jr; lia.
have S'E : S' (a * ldt + c)%N = if [&& a == row, (col <= c)%N & (c + row + 1 < N)%N]
    then (if (c == col) && (if d is Unit then true else false) then 1 else A row c) else S (a * ldt + c)%N.
  rewrite /S'; case: (boolP [&& a == row, (col <= c)%N & (c + row + 1 < N)%N]) => [/and3P[/eqP -> h1 h2]|no].
  - case: (d); last first.
    + rewrite andbF; have {1}-> : (row * ldt + c = row * ldt + col + (c - col))%N by lia.
      by rewrite upd_hit ?subnKC //; lia.
    + rewrite andbT /upd1 eqn_add2l; case: eqP => // ne.
      have {1}-> : (row * ldt + c = row * ldt + col + 1 + (c - col - 1))%N by lia.
      by rewrite (upd_hit (f := fun t => row * ldt + col + 1 + t)%N); [congr A| |]; lia.
  - have no' t : (t < N - 1 - row - col)%N -> (row * ldt + col + t)%N <> (a * ldt + c)%N.
      by move=> tn; rewrite -addnA => /esym/flat_inj[||e1 e2]; [lia|lia|]; move: no; rewrite e1 eqxx e2; lia.
    case: (d); last by rewrite upd_miss.
    rewrite /upd1 ifF; last by apply/eqP => e; apply: (no' 0%N); lia.
    by rewrite upd_miss // => t tn; rewrite -addnA; apply: no'; lia.
rewrite zero_loop S'E.
have -> : has (fun t => row * ldt + Q t == a * ldt + c)%N (iota 0 k) = (a == row) && has (fun j => Q j == c) (iota 0 k).
  apply/hasP/andP => [[j jk /flat_inj[||e1 e2]]|[/eqP -> /hasP[j jk e]]].
  - by apply: Qlt; lia.
  - by lia.
  - by rewrite e1 eqxx; split=> //; apply/hasP; exists j.
  - by exists j; rewrite ?e.
rewrite /Ub -/row -/col; case: (a =P row) => [e|] //=.
case: hasP => [[j jk e']|no]; first by rewrite !andbF.
by rewrite /= andbT; case: ifP => // _; exact: S0.
Qed.

Lemma getU_ok a c : (a < N)%N -> (c < N)%N -> getLT_U d N r P Q A ldt T (a * ldt + c)%N = Umat d N r P Q A a c.
Proof.
move=> aN cN; rewrite /getLT_U /Umat.
suff H n : (n <= r)%N -> iteri n (fun i T =>
    let row := P i in let col := Q i in
    let T := if d is Unit then
        upd1 (iteri (N - 2 - row - col) (fun t T => upd1 T (row * ldt + col + 1 + t)%N (A row (col + 1 + t)%N)) T)
          (row * ldt + col)%N 1
      else iteri (N - 1 - row - col) (fun t T => upd1 T (row * ldt + col + t)%N (A row (col + t)%N)) T in
    iteri i (fun j T => upd1 T (row * ldt + Q j)%N 0) T) (getLT_clear N T) (a * ldt + c)%N =
    \sum_(k < n) (if P k == a then Ub d N P Q A k c else 0) by apply: H.
elim: n => [|n IH] nr; first by rewrite big_ord0 /= T0.
rewrite iteriS big_ord_recr /= U_row //.
  rewrite IH ?(ltnW nr) // eq_sym; case: eqP => [e|]; rewrite ?addr0 //.
  rewrite big1 ?add0r // => k _; rewrite ifF //; apply/eqP => e'.
  by have := @Pi k n; have := ltn_ord k; lia.
move=> e; rewrite IH ?(ltnW nr) // big1 // => k _; rewrite ifF //; apply/eqP => e'.
by have := @Pi k n; have := ltn_ord k; lia.
Qed.

(** one column of L *)
Lemma L_col k S a c : (k < r)%N -> (a < N)%N -> (c < N)%N ->
  (c = Q k -> S (a * ldt + c)%N = 0) ->
  let row := P k in let col := Q k in
  let S' := if d is Unit then
        upd1 (iteri (N - 2 - row - col) (fun t T => upd1 T ((row + 1 + t) * ldt + col)%N (A (row + 1 + t)%N col)) S)
          (row * ldt + col)%N 1
      else iteri (N - 1 - row - col) (fun t T => upd1 T ((row + t) * ldt + col)%N (A (row + t)%N col)) S in
  iteri k (fun j T => upd1 T (P j * ldt + col)%N 0) S' (a * ldt + c)%N =
  if c == Q k then Lb d N P Q A a k else S (a * ldt + c)%N.
Proof.
move=> kr aN cN S0 row col S'.
have hk := lt kr; rewrite -/row -/col in hk.
have cl : (c < ldt)%N by lia. have cl' : (col < ldt)%N by lia.
have S'E : S' (a * ldt + c)%N = if [&& c == col, (row <= a)%N & (a + col + 1 < N)%N]
    then (if (a == row) && (if d is Unit then true else false) then 1 else A a col) else S (a * ldt + c)%N.
  rewrite /S'; case: (boolP [&& c == col, (row <= a)%N & (a + col + 1 < N)%N]) => [/and3P[/eqP -> h1 h2]|no].
  - case: (d); last first.
    + rewrite andbF; have {1}-> : (a = row + (a - row))%N by lia.
      rewrite (upd_hit (f := fun t => (row + t) * ldt + col)%N) ?subnKC //; last by lia.
      by move=> i j _ _ /flat_inj[||]; lia.
    + rewrite andbT /upd1; case: (a =P row) => [->|ne]; first by rewrite eqxx.
      rewrite ifF; last by apply/eqP => /flat_inj[||]; lia.
      have {1}-> : (a = row + 1 + (a - row - 1))%N by lia.
      rewrite (upd_hit (f := fun t => (row + 1 + t) * ldt + col)%N); [congr A; lia| |lia].
      by move=> i j _ _ /flat_inj[||]; lia.
  - have no' t : (t < N - 1 - row - col)%N -> ((row + t) * ldt + col)%N <> (a * ldt + c)%N.
      by move=> tn /esym/flat_inj[||e1 e2]; [lia|lia|]; move: no; rewrite e2 eqxx e1; lia.
    case: (d); last by rewrite upd_miss.
    rewrite /upd1 ifF; last by apply/eqP => e; apply: (no' 0%N); rewrite ?addn0; lia.
    by rewrite upd_miss // => t tn; rewrite -(addnA row); apply: no'; lia.
rewrite zero_loop S'E.
have -> : has (fun t => P t * ldt + col == a * ldt + c)%N (iota 0 k) = (c == col) && has (fun j => P j == a) (iota 0 k).
  apply/hasP/andP => [[j jk /flat_inj[||e1 e2]]|[/eqP -> /hasP[j jk e]]] //.
  - by rewrite e2 eqxx; split=> //; apply/hasP; exists j.
  - by exists j; rewrite ?e.
rewrite /Lb -/row -/col; case: (c =P col) => [e|] //=.
case: hasP => [[j jk e']|no]; first by rewrite !andbF.
by rewrite /= andbT; case: ifP => // _; exact: S0.
Qed.

Lemma getL_ok a c : (a < N)%N -> (c < N)%N -> getLT_L d N r P Q A ldt T (a * ldt + c)%N = Lmat d N r P Q A a c.
Proof.
move=> aN cN; rewrite /getLT_L /Lmat.
suff H n : (n <= r)%N -> iteri n (fun i T =>
    let row := P i in let col := Q i in
    let T := if d is Unit then
        upd1 (iteri (N - 2 - row - col) (fun t T => upd1 T ((row + 1 + t) * ldt + col)%N (A (row + 1 + t)%N col)) T)
          (row * ldt + col)%N 1
      else iteri (N - 1 - row - col) (fun t T => upd1 T ((row + t) * ldt + col)%N (A (row + t)%N col)) T in
    iteri i (fun j T => upd1 T (P j * ldt + col)%N 0) T) (getLT_clear N T) (a * ldt + c)%N =
    \sum_(k < n) (if Q k == c then Lb d N P Q A a k else 0) by apply: H.
elim: n => [|n IH] nr; first by rewrite big_ord0 /= T0.
rewrite iteriS big_ord_recr /= L_col //.
  rewrite IH ?(ltnW nr) // eq_sym; case: eqP => [e|]; rewrite ?addr0 //.
  rewrite big1 ?add0r // => k _; rewrite ifF //; apply/eqP => e'.
  by have := @Qi k n; have := ltn_ord k; lia.
move=> e; rewrite IH ?(ltnW nr) // big1 // => k _; rewrite ifF //; apply/eqP => e'.
by have := @Qi k n; have := ltn_ord k; lia.
Qed.

Lemma getR_ok (R0 : grid F) a c : (a < N)%N -> (c < N)%N -> getLTBruhatGenR N r P Q R0 a c = Rmat F r P Q a c.
Proof.
move=> aN cN; rewrite /getLTBruhatGenR /Rmat.
suff H n : (n <= r)%N -> iteri n (fun i R => upd R (P i) (Q i) 1) (fzero N N R0) a c = \sum_(k < n) ((P k == a) && (Q k == c))%:R by apply: H.
elim: n => [|n IH] nr; first by rewrite big_ord0 /= /fzero /fill aN cN.
rewrite iteriS big_ord_recr /= /upd (eq_sym a) (eq_sym c); case: andP => [[/eqP ea /eqP ec]|_]; last by rewrite addr0 IH // ltnW.
rewrite big1 ?add0r // => k _; case: (P k =P a) => //= e'.
by have := @Pi k n; have := ltn_ord k; lia.
Qed.

End Get.

Lemma clear_N (F : fieldType) N (T : nat -> F) a c : (a < N)%N -> (c < N)%N -> getLT_clear N T (a * N + c)%N = 0.
Proof. by move=> aN cN; rewrite /getLT_clear ifT //; nia. Qed.
