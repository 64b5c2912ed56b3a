(** * The Crout base case of PLUQ *)
From mathcomp Require Import all_ssreflect all_algebra zify ring.
From Verif Require Import Grid Perm_model Perm_spec Perm_proofs Tri_model Tri_spec Tri_proofs.
From Verif Require Import Pluq_model Pluq_spec Pluq_combine.
Set Implicit Arguments.
Unset Strict Implicit.
Unset Printing Implicit Defensive.
Import GRing.Theory.
Local Open Scope ring_scope.

(** Rotation of [r..i] by one to the right: source of destination x. *)
Definition rotat (r i x : nat) : nat :=
  if (r <= x <= i)%N then (if x == r then i else x.-1) else x.

Lemma rotat_rot r i x : (r <= i)%N -> (r <= x)%N -> (r + rot (i - r + 1) (x - r))%N = rotat r i x.
Proof. by move=> ri rx; rewrite /rot /rotat; bprune. Qed.

Lemma rotat_lo r i x : (x < r)%N -> rotat r i x = x.
Proof. by move=> h; rewrite /rotat ifF //; lia. Qed.
Lemma rotat_hi r i x : (i < x)%N -> rotat r i x = x.
Proof. by move=> h; rewrite /rotat ifF //; lia. Qed.

Lemma rotat_perm r i n : (i < n)%N -> is_perm n (rotat r i).
Proof. by move=> iN; split=> [x xN|x y xN yN]; rewrite /rotat; repeat case: ifP => ?; lia. Qed.

Lemma searchP f z N i : (N <= f + i)%N -> (i < N)%N ->
  (i <= search f z N i < N)%N /\ (forall x, (i <= x < search f z N i)%N -> z x) /\
  (z (search f z N i) -> forall x, (i <= x < N)%N -> z x).
Proof.
elim: f i => [|f IH] i /=; first by lia.
move=> H iN; case E : (z i) => /=; last first.
  by rewrite E; split; [lia | split=> // x; lia].
case: ltnP => i1; last first.
  by split; [lia | split=> [x|_ x]; [lia | move=> xi; have -> : x = i by lia]].
have [H1 [H2 H3]] : _ := IH i.+1 ltac:(lia) i1.
split; [lia | split=> [x|zz x] Hx; have [->//|xi] := eqVneq x i; [apply: H2 | apply: H3 => //]; lia].
Qed.

Section Crout.
Variable F : fieldType.
Implicit Types A X : grid F.
Variables (d : diag) (M N : nat).

(** Residual of row [row] and of column [i] once r pivots are eliminated. *)
Definition resb X r row l := X row l - rsum r (fun t => X t l * X row t).
Definition resc X r i k := X k i - rsum r (fun t => X k t * X t i).

(** The new matrix, cell by cell, where it matters. *)
Definition step_cells row r X i X' := let rr := rotat r row in let cr := rotat r i in let piv := resb X r row i in
  [/\ forall k t, (k < M)%N -> (t < r)%N -> X' k t = X (rr k) t,
      forall t l, (t < r)%N -> (r <= l < N)%N -> X' t l = X t (cr l),
      X' r r = piv /\ (forall l, (r < l < N)%N -> X' r l = resb X r row (cr l) * (if d is Unit then piv^-1 else 1)),
      (forall k, (r < k <= row)%N -> X' k r = 0) /\
      (forall k, (row < k < M)%N -> X' k r = resc X r i k * (if d is Unit then 1 else piv^-1)) &
      (forall k l, (row < k < M)%N -> (r < l < N)%N -> X' k l = X k (cr l)) /\ frame M N X' X].

Section Step.
Variables (row r : nat) (X : grid F) (mP mQ : nat -> nat).
Hypotheses (rowM : (row < M)%N) (rrow : (r <= row)%N) (rN : (r < N)%N).

Let A1 := at_ row r (fill 1 (N - r)
      (fun _ l => X row (r + l)%N - rsum r (fun t => X t (r + l)%N * X row t))) X.

Lemma A1E k l : A1 k l = if ((k == row) && (r <= l < N))%N then resb X r row l else X k l.
Proof.
rewrite /A1 /at_ /fill /sub /resb.
case E1 : ((row <= k) && (r <= l))%N; last by rewrite ifF //; lia.
case/andP: E1 => h1 h2; rewrite (subnKC h1) (subnKC h2).
have -> : ((k - row < 1) && (l - r < N - r))%N = ((k == row) && (r <= l < N))%N by lia.
by [].
Qed.

Let i := search N (fun l => A1 row l == 0) N r.

Lemma iP : (r <= i < N)%N /\ (forall x, (r <= x < i)%N -> resb X r row x = 0) /\
  (resb X r row i = 0 -> forall x, (r <= x < N)%N -> resb X r row x = 0).
Proof.
have [h1 [h2 h3]] := @searchP N (fun l => A1 row l == 0) N r ltac:(lia) rN.
rewrite -/i in h1 h2 h3.
have e x : (r <= x < N)%N -> A1 row x = resb X r row x by move=> hx; rewrite A1E eqxx hx.
split=> //; split=> [x hx|H x hx]; first by rewrite -e ?(eqP (h2 x hx)) //; lia.
by rewrite -e // (eqP (h3 _ x hx)) //; rewrite e ?H.
Qed.

Let A2 := at_ row.+1 i (fill (M - row - 1) 1
        (fun k _ => A1 (row.+1 + k)%N i - rsum r (fun t => A1 (row.+1 + k)%N t * A1 t i))) A1.

Lemma A2E k l : A2 k l = if ((row < k < M) && (l == i))%N then resc X r i k
  else if ((k == row) && (r <= l < N))%N then resb X r row l else X k l.
Proof.
have [h _] := iP.
rewrite -A1E /A2 /at_ /fill /sub.
case E1 : ((row < k) && (i <= l))%N; last by rewrite ifF //; lia.
case/andP: E1 => h1 h2; rewrite (subnKC h1) (subnKC h2).
have -> : ((k - row.+1 < M - row - 1) && (l - i < 1))%N = ((row < k < M) && (l == i))%N by lia.
case: ifP => // /andP[kM _]; rewrite /resc A1E ifF; last by lia.
by congr (_ - _); apply: eq_rsum => t tr; rewrite !A1E !ifF //; lia.
Qed.

Let piv := resb X r row i.
Let invpiv := (A2 row i)^-1.
Let A3 := match d with
        | Unit => at_ row i.+1 (fscalin 1 (N - i - 1) invpiv) A2
        | NonUnit => at_ row.+1 i (fscalin (M - row - 1) 1 invpiv) A2
        end.

Lemma A2piv : A2 row i = piv.
Proof. by have [h _] := iP; rewrite A2E ltnn /= eqxx h. Qed.

Lemma A3E k l : A3 k l =
  if ((row < k < M) && (l == i))%N then resc X r i k * (if d is Unit then 1 else piv^-1)
  else if ((k == row) && (r <= l < N))%N then
     resb X r row l * (if d is Unit then (if (i < l)%N then piv^-1 else 1) else 1)
  else X k l.
Proof.
have [h _] := iP.
rewrite /A3 /invpiv A2piv; case: (d); rewrite /at_ fscalinE /sub.
- case E1 : ((row <= k) && (i < l))%N; last first.
    rewrite A2E; case: ifP => //; rewrite ?mulr1 // => _; case: ifP => // h3; rewrite ifF ?mulr1 //; lia.
  case/andP: E1 => h1 h2; rewrite (subnKC h1) (subnKC h2) h2 A2E.
  have -> : ((row < k < M) && (l == i))%N = false by lia.
  have -> : ((k - row < 1) && (l - i.+1 < N - i - 1))%N = ((k == row) && (r <= l < N))%N by lia.
  by case E : [&& k == row, r <= l & l < N]%N; rewrite // mulrC.
- case E1 : ((row < k) && (i <= l))%N; last first.
    by rewrite A2E ifF ?mulr1 1?[in RHS]ifF //; lia.
  case/andP: E1 => h1 h2; rewrite (subnKC h1) (subnKC h2) A2E.
  have -> : ((k - row.+1 < M - row - 1) && (l - i < 1))%N = ((row < k < M) && (l == i))%N by lia.
  by case E : ((row < k < M) && (l == i))%N; rewrite ?mulr1 // mulrC.
Qed.

Let A7 := if (r < i)%N then
          let A4 := at_ 0 r (cyclic_shift_col r (i - r + 1)) A3 in
          let A5 := at_ row.+1 r (cyclic_shift_col (M - row - 1) (i - r + 1)) A4 in
          let A6 := upd A5 r r (A5 row i) in
          at_ r r.+1 (fzero 1 (i - r)) A6
        else A3.

Lemma A7E k l : A7 k l =
  if (r < i)%N then
    if ((k < r) || (row < k < M))%N then A3 k (rotat r i l)
    else if ((k == r) && (r < l <= i))%N then 0
    else if ((k == r) && (l == r))%N then A3 row i else A3 k l
  else A3 k l.
Proof.
have [h _] := iP.
rewrite /A7; case: ltnP => // ri.
set A4 := at_ 0 r _ A3; set A5 := at_ row.+1 r _ A4.
have A4E x y : A4 x y = if (x < r)%N then A3 x (rotat r i y) else A3 x y.
  rewrite /A4 /at_ cyclic_shift_colE /sub subn0 !add0n /=.
  case: (leqP r y) => ry; last by rewrite rotat_lo //; case: ifP.
  by rewrite rotat_rot ?subnKC //; lia.
have A5E x y : A5 x y = if ((x < r) || (row < x < M))%N then A3 x (rotat r i y) else A3 x y.
  rewrite /A5 /at_ cyclic_shift_colE /sub !A4E.
  case: (leqP r y) => ry; last first.
    by rewrite andbF rotat_lo //; do !case: ifP.
  rewrite andbT; case: (ltnP row x) => rx; last by rewrite orbF.
  rewrite (subnKC rx) (subnKC ry) rotat_rot //; [|lia].
  have -> : (x < r)%N = false by lia.
  by have -> : (x - row.+1 < M - row - 1)%N = (x < M)%N by lia.
rewrite /at_ /fzero /fill /sub.
case E1 : ((r <= k) && (r < l))%N; last first.
  rewrite /upd !A5E; case E2 : ((k == r) && (l == r))%N.
    have -> : ((k < r) || (row < k < M))%N = false by lia.
    have -> : ((row < r) || (row < row < M))%N = false by lia.
    by rewrite ifF //; lia.
  case: ifP => // _; rewrite ifF //; lia.
case/andP: E1 => h1 h2; rewrite (subnKC h1) (subnKC h2) /upd !A5E.
have -> : ((k - r < 1) && (l - r.+1 < i - r))%N = ((k == r) && (r < l <= i))%N by lia.
have -> : ((k == r) && (l == r))%N = false by lia.
by case: ifP => // h3; rewrite ifF //; lia.
Qed.

Let A12 := if (r < row)%N then
          let A8 := at_ r 0 (cyclic_shift_row (row - r + 1) r) A7 in
          let A9 := at_ r i.+1 (fassign 1 (N - i - 1) (sub row i.+1 A8)) A8 in
          let A10 := upd A9 r r (A9 row i) in
          let A11 := at_ r.+1 r (fzero (row - r) 1) A10 in
          upd A11 row i 0
        else A7.

Lemma A12E k l : A12 k l =
  if (r < row)%N then
    if ((k == row) && (l == i))%N then 0
    else if ((r < k <= row) && (l == r))%N then 0
    else if ((k == r) && (l == r))%N then A7 row i
    else if ((k == r) && (i < l < N))%N then A7 row l
    else if (l < r)%N then A7 (rotat r row k) l
    else A7 k l
  else A7 k l.
Proof.
have [h _] := iP.
rewrite /A12; case: ltnP => // rw.
set A8 := at_ r 0 _ A7; set A9 := at_ r i.+1 _ A8; set A10 := upd A9 _ _ _; set A11 := at_ r.+1 r _ A10.
have A8E x y : A8 x y = if (y < r)%N then A7 (rotat r row x) y else A7 x y.
  rewrite /A8 /at_ cyclic_shift_rowE /sub subn0 !add0n andbT.
  case: (leqP r x) => rx; last by rewrite rotat_lo //; case: ifP.
  by rewrite rotat_rot ?subnKC //; lia.
have A9E x y : A9 x y = if ((x == r) && (i < y < N))%N then A7 row y else A8 x y.
  rewrite /A9 /at_ /fassign /fill /sub.
  case E1 : ((r <= x) && (i < y))%N; last by rewrite ifF //; lia.
  case/andP: E1 => h1 h2; rewrite (subnKC h1) (subnKC h2).
  have -> : ((x - r < 1) && (y - i.+1 < N - i - 1))%N = ((x == r) && (i < y < N))%N by lia.
  case: ifP => // hx; have -> : (row + (x - r))%N = row by lia.
  by rewrite A8E ifF //; lia.
have A11E x y : A11 x y = if ((r < x <= row) && (y == r))%N then 0
    else if ((x == r) && (y == r))%N then A7 row i else A9 x y.
  have A9p : A9 row i = A7 row i by rewrite A9E A8E !ifF //; lia.
  rewrite /A11 /at_ /fzero /fill /sub.
  case E1 : ((r < x) && (r <= y))%N; last first.
    rewrite /A10 /upd A9p; case: ifP => h1; first by rewrite ifF //; lia.
    by rewrite ifF //; lia.
  case/andP: E1 => h1 h2; rewrite (subnKC h1) (subnKC h2) /A10 /upd A9p.
  by have -> : ((x - r.+1 < row - r) && (y - r < 1))%N = ((r < x <= row) && (y == r))%N by lia.
by rewrite /upd A11E A9E A8E.
Qed.

Lemma step_cellsP : step_cells row r X i (memo M N A12).
Proof.
have [h [hz _]] := iP.
split.
- move=> k t kM tr; rewrite memoE A12E.
  have e x y : (y < r)%N -> A7 x y = X x y.
    move=> yr; rewrite A7E !A3E.
    have -> : rotat r i y = y by rewrite /rotat ifF //; lia.
    by bprune.
  have [rw|rw] := ltnP r row; last by rewrite e // /rotat; bprune.
  by rewrite tr !ifF ?e //; lia.
- move=> t l tr lN; rewrite memoE A12E.
  have e : A7 t l = X t (rotat r i l).
    rewrite A7E !A3E; case: (ltnP r i) => ri.
      have -> : ((t < r) || (row < t < M))%N by lia.
      by rewrite !ifF //; lia.
    by rewrite /rotat; bprune.
  by rewrite e; case: ltnP => // rw; rewrite !ifF //; lia.
- rewrite memoE; split=> [|l lN].
    have e : A3 row i = piv.
      by rewrite A3E !ltnn eqxx h /= eqxx; case: (d); rewrite mulr1.
    rewrite A12E; case: (ltnP r row) => rw.
      rewrite ifF; last by lia.
      rewrite ifF; last by lia.
      rewrite !eqxx /= A7E e; case: ltnP => // ri.
      by rewrite !ifF //; lia.
    have rE : row = r by lia.
    rewrite A7E e; case: ltnP => ri; first by rewrite !eqxx !ifF //; lia.
    by rewrite -[RHS]e; congr (A3 _ _); lia.
  rewrite memoE A12E.
  have e x : (i < x < N)%N -> A7 row x = resb X r row x * (if d is Unit then piv^-1 else 1).
    move=> xi; have -> : A7 row x = A3 row x.
      by rewrite A7E; case: ltnP => // ri; rewrite !ifF //; lia.
    rewrite A3E ltnn eqxx /= ifT; last by lia.
    by case: (d) => //; rewrite ifT //; lia.
  case: (ltnP i l) => il.
    have -> : rotat r i l = l by rewrite /rotat ifF //; lia.
    case: (ltnP r row) => rw.
      do 3 (rewrite ifF; [|lia]); rewrite eqxx ifT; last by lia.
      by rewrite e //; lia.
    have rE : r = row by lia.
    by rewrite -e; [congr (A7 _ _) | lia].
  have -> : resb X r row (rotat r i l) = 0.
    by apply: hz; rewrite /rotat; repeat case: ifP => ?; lia.
  rewrite mul0r; have e7 : A7 r l = 0.
    rewrite A7E; have -> : (r < i)%N by lia.
    have -> : ((r < r) || (row < r < M))%N = false by lia.
    by rewrite eqxx ifT //; lia.
  case: (ltnP r row) => rw; last by rewrite e7.
  by rewrite e7; repeat case: ifP => ? //; lia.
- split=> k hk; rewrite memoE A12E.
    by rewrite ifT; [case: ifP => // _; rewrite ifT //|]; lia.
  have -> : A7 k r = A3 k i.
    rewrite A7E; case: ltnP => ri; last by congr (A3 _ _); lia.
    rewrite ifT; last by lia.
    by congr (A3 _ _); rewrite /rotat; repeat case: ifP => ? //; lia.
  rewrite A3E; have -> : ((row < k < M) && (i == i))%N by lia.
  by case: ltnP => // rw; rewrite !ifF //; lia.
- split=> [k l hk hl|k l hkl]; rewrite memoE A12E.
    have e : A7 k l = X k (rotat r i l).
      rewrite A7E !A3E; case: (ltnP r i) => ri.
        rewrite ifT; last by lia.
        rewrite ifF; first by rewrite ifF //; lia.
        by rewrite /rotat; repeat case: ifP => ? //; lia.
      rewrite !ifF; [|lia..].
      by congr (X _ _); rewrite /rotat; repeat case: ifP => ? //; lia.
    by rewrite e; case: ltnP => // rw; rewrite !ifF //; lia.
  have e3 x y : ~~ ((x < M) && (y < N))%N -> A3 x y = X x y.
    by move=> hxy; rewrite A3E !ifF //; lia.
  have e7 x y : ~~ ((x < M) && (y < N))%N -> A7 x y = X x y.
    move=> hxy; rewrite A7E (e3 x y) //; case: (ltnP r i) => // ri.
    case: ifP => hh; first by rewrite rotat_hi ?e3 //; lia.
    by rewrite !ifF //; lia.
  case: ltnP => // rw; last exact: e7.
  do 4 (rewrite ifF; [|lia]); case: ifP => kr; last exact: e7.
  by rewrite (_ : rotat r row k = k) ?e7 // /rotat ifF //; lia.
Qed.

Let mQ7 := if (r < i)%N then at1 r (fun p => cyclic_shift_mathPerm p (i - r + 1)) mQ else mQ.
Let mP7 := if (r < row)%N then at1 r (fun p => cyclic_shift_mathPerm p (row - r + 1)) mP else mP.

Lemma at1_rot (p : nat -> nat) a x : (r <= a)%N ->
  (if (r < a)%N then at1 r (fun p => cyclic_shift_mathPerm p (a - r + 1)) p else p) x = p (rotat r a x).
Proof.
move=> ra; case: ltnP => rlt; last by congr p; rewrite /rotat; repeat case: ifP => ?; lia.
rewrite /at1 cyclic_shift_mathPermE; last by lia.
by case: leqP => rx; [rewrite rotat_rot | rewrite /rotat ifF //; lia].
Qed.

Lemma crout_stepE : resb X r row i != 0 ->
  let st := crout_step d M N row (Pluq X mP mQ r) in
  [/\ step_cells row r X i (resA st), forall x, resP st x = mP (rotat r row x), forall x, resQ st x = mQ (rotat r i x) & resR st = r.+1].
Proof.
move=> nz; have [h _] := iP.
have nz' : A1 row i != 0 by rewrite A1E eqxx h.
have -> : crout_step d M N row (Pluq X mP mQ r) = Pluq (memo M N A12) (memo1 M mP7) (memo1 N mQ7) r.+1.
  rewrite /crout_step rN -/A1 -/i nz' -/A2 -/invpiv -/A3 /A12 /mP7 /mQ7 /A7.
  by case: (ltnP r i) => ?; case: (ltnP r row).
split=> //=; first exact: step_cellsP.
- by move=> x; rewrite memo1E; exact: at1_rot.
- by move=> x; rewrite memo1E; apply: at1_rot; lia.
Qed.

Lemma crout_step0 : resb X r row i = 0 ->
  let st := crout_step d M N row (Pluq X mP mQ r) in
  [/\ resA st = memo M N A1, resP st = mP, resQ st = mQ & resR st = r].
Proof.
move=> z; have [h _] := iP.
have z' : A1 row i == 0 by rewrite A1E eqxx h z.
by rewrite /crout_step rN -/A1 -/i z'.
Qed.

Lemma crout_step_cases : let st := crout_step d M N row (Pluq X mP mQ r) in
  (exists i, [/\ (r <= i < N)%N, forall x, (r <= x < i)%N -> resb X r row x = 0, resb X r row i != 0 &
    [/\ step_cells row r X i (resA st), forall x, resP st x = mP (rotat r row x),
       forall x, resQ st x = mQ (rotat r i x) & resR st = r.+1]]) \/
  [/\ forall x, (r <= x < N)%N -> resb X r row x = 0,
      forall k l, resA st k l = if ((k == row) && (r <= l < N))%N then resb X r row l else X k l,
      resP st = mP, resQ st = mQ & resR st = r].
Proof.
have [h1 [h2 h3]] := iP; case: (eqVneq (resb X r row i) 0) => z; [right|left].
  have [e1 e2 e3 e4] := crout_step0 z; split=> //; first exact: h3.
  by move=> k l; rewrite e1 memoE A1E.
by exists i; split=> //; exact: crout_stepE.
Qed.

End Step.

(** State after [w] rows with [r] pivots. *)
Record cinv A0 (w : nat) (X : grid F) (rho gam : nat -> nat) (r : nat) : Prop := Cinv {
  c_p : is_perm M rho; c_q : is_perm N gam;
  c_rw : (r <= w <= M)%N; c_rN : (r <= N)%N;
  c_fix : forall k, (w <= k < M)%N -> rho k = k;
  c_ms : forall i j, (r <= i < j)%N -> (j < M)%N -> (rho i < rho j)%N;
  c_mu : forall i j, (r <= i < j)%N -> (j < N)%N -> (gam i < gam j)%N;
  c_law : forall k l, (k < M)%N -> (l < N)%N -> (k < w)%N || (l < r)%N ->
     A0 (rho k) (gam l) = rsum r (fun t => Lo d X k t * Up d X t l);
  c_raw : forall k l, (w <= k < M)%N -> (r <= l < N)%N -> X k l = A0 k (gam l);
  c_piv : forall t, (t < r)%N -> X t t != 0;
  c_lo : forall k t, (k < M)%N -> (t < r)%N -> Lo d X k t != 0 -> (rho t <= rho k)%N;
  c_up : forall t l, (t < r)%N -> (l < N)%N -> Up d X t l != 0 -> (gam t <= gam l)%N;
  c_frame : frame M N X A0 }.

Lemma cinv0 A0 : cinv A0 0 A0 id id 0.
Proof. by split=> //; lia. Qed.

(** Rows already treated stay among themselves. *)
Lemma c_lt A0 w X rho gam r k : cinv A0 w X rho gam r -> (k < w)%N -> (rho k < w)%N.
Proof.
move=> h kw; rewrite ltnNge; apply/negP => wr.
have kM : (k < M)%N by have := c_rw h; lia.
have rM : (rho k < M)%N by apply: (c_p h).1.
have e : rho (rho k) = rho k by apply: (c_fix h); lia.
by have := (c_p h).2 _ _ rM kM e; lia.
Qed.

Lemma cinv_full A0 w X rho gam : (w < M)%N -> cinv A0 w X rho gam N -> cinv A0 w.+1 X rho gam N.
Proof.
move=> wM h; split; try (by case: h); [by case: h; lia|..].
- by move=> k kw; apply: (c_fix h); lia.
- by move=> k l kM lN _; apply: (c_law h) => //; rewrite lN orbT.
- by move=> k l; lia.
Qed.

Lemma cinv_none A0 w X X' rho gam r : (w < M)%N -> cinv A0 w X rho gam r ->
  (forall x, (r <= x < N)%N -> resb X r w x = 0) ->
  (forall k l, X' k l = if ((k == w) && (r <= l < N))%N then resb X r w l else X k l) ->
  cinv A0 w.+1 X' rho gam r.
Proof.
move=> wM h z e.
have rw : (r <= w)%N by have := c_rw h; lia.
have eL k t : (t < r)%N -> Lo d X' k t = Lo d X k t.
  move=> tr; rewrite /Lo !e; have -> : ((k == w) && (r <= t < N))%N = false by lia.
  by case: ifP => // h1; case: eqP => // tk; rewrite ifF //; lia.
have eU t l : (t < r)%N -> Up d X' t l = Up d X t l.
  move=> tr; rewrite /Up !e.
  have -> : ((t == w) && (r <= l < N))%N = false by lia.
  by have -> : ((t == w) && (r <= t < N))%N = false by lia.
have eS k l : rsum r (fun t => Lo d X' k t * Up d X' t l) = rsum r (fun t => Lo d X k t * Up d X t l).
  by apply: eq_rsum => t tr; rewrite eL ?eU.
split; try (by case: h); [by case: h; lia|..].
- by move=> k kw; apply: (c_fix h); lia.
- move=> k l kM lN kl; rewrite eS; case kl' : ((k < w) || (l < r))%N; first exact: (c_law h).
  have -> : k = w by lia.
  rewrite (c_fix h); last by lia.
  rewrite -(c_raw h); [|lia..].
  have /eqP := z l ltac:(lia); rewrite /resb subr_eq0 => /eqP ->.
  by apply: eq_rsum => t tr; rewrite mulrC /Lo /Up !ifT //; lia.
- by move=> k l kw lr; rewrite e ifF ?(c_raw h) //; lia.
- by move=> t tr; rewrite e ifF ?(c_piv h) //; lia.
- by move=> k t kM tr; rewrite eL //; exact: (c_lo h).
- by move=> t l tr lN; rewrite eU //; exact: (c_up h).
- by move=> k l kl; rewrite e ifF ?(c_frame h) //; lia.
Qed.

Lemma cinv_pivot A0 w X X' rho gam rho' gam' r i : (w < M)%N -> cinv A0 w X rho gam r ->
  (r <= i < N)%N -> (forall x, (r <= x < i)%N -> resb X r w x = 0) -> resb X r w i != 0 ->
  step_cells w r X i X' -> (forall x, rho' x = rho (rotat r w x)) -> (forall x, gam' x = gam (rotat r i x)) ->
  cinv A0 w.+1 X' rho' gam' r.+1.
Proof.
move=> wM h ri hz hp [E1 E2 [Ep E4] [E5 E6] [E7 E8]] erho egam.
have rw : (r <= w)%N by have := c_rw h; lia.
have rrlo k : (k < r)%N -> rotat r w k = k by exact: rotat_lo.
have rrge k : (r <= k)%N -> (r <= rotat r w k)%N.
  by move=> rk; rewrite /rotat; repeat case: ifP => ?; lia.
have crge k : (r <= k)%N -> (r <= rotat r i k)%N.
  by move=> rk; rewrite /rotat; repeat case: ifP => ?; lia.
have crlt k : (k < N)%N -> (rotat r i k < N)%N by move=> kN; apply: (rotat_perm r _).1 => //; lia.
have rrlt k : (k < M)%N -> (rotat r w k < M)%N by move=> kN; apply: (rotat_perm r _).1.
have rrr : rotat r w r = w by rewrite /rotat leqnn rw eqxx.
have crr : rotat r i r = i by rewrite /rotat leqnn eqxx ifT //; lia.
have eL k t : (k < M)%N -> (t < r)%N -> Lo d X' k t = Lo d X (rotat r w k) t.
  move=> kM tr; case: (ltnP k r) => kr.
    by rewrite rrlo // /Lo !E1 // ?rrlo //; case: eqP => // tk; rewrite E1 // rrlo.
  have := rrge _ kr => kr'; rewrite /Lo E1 // !ifT //; lia.
have eU t l : (t < r)%N -> (l < N)%N -> Up d X' t l = Up d X t (rotat r i l).
  move=> tr lN; case: (ltnP l r) => lr.
    by rewrite rotat_lo // /Up !E1 ?rrlo //; lia.
  by have := crge _ lr => kr'; rewrite /Up E2 ?lr // !ifT //; lia.
have bE l : (r <= l < N)%N -> X w l = rsum r (fun t => Lo d X w t * Up d X t l) + resb X r w l.
  move=> lr; rewrite /resb addrCA -[LHS]addr0; congr (_ + _); apply/esym/eqP; rewrite subr_eq0; apply/eqP.
  by apply: eq_rsum => t tr; rewrite mulrC /Lo /Up !ifT //; lia.
have newU l : (l < N)%N -> Up d X' r l = if (l < r)%N then 0 else
     resb X r w (rotat r i l) * (if d is Unit then (resb X r w i)^-1 else 1).
  move=> lN; rewrite /Up; case: (ltngtP r l) => rl //.
  - by rewrite E4 //; lia.
  - by rewrite -rl crr Ep; case: (d); rewrite ?mulr1 ?mulfV.
have newL k : (k < M)%N -> Lo d X' k r = if k == r then (if d is Unit then resb X r w i else 1)
    else if (k <= w)%N then 0 else resc X r i k * (if d is Unit then 1 else (resb X r w i)^-1).
  move=> kM; rewrite /Lo; case: (ltngtP r k) => rk.
  - by case: (leqP k w) => kw; [rewrite E5 | rewrite E6] => //; lia.
  - by rewrite ifT //; lia.
  - by rewrite -rk Ep.
have sumE k l : (k < M)%N -> (l < N)%N -> rsum r.+1 (fun t => Lo d X' k t * Up d X' t l) =
    rsum r (fun t => Lo d X (rotat r w k) t * Up d X t (rotat r i l)) + Lo d X' k r * Up d X' r l.
  move=> kM lN /=; congr (_ + _); apply: eq_rsum => t tr.
  by rewrite eL ?eU.
split.
- by apply: (perm_ext (s := fun x => rho (rotat r w x))) => // ; apply: perm_comp (c_p h) (rotat_perm r wM).
- apply: (perm_ext (s := fun x => gam (rotat r i x))) => //; apply: perm_comp (c_q h) (rotat_perm r _).
  by lia.
- lia.
- lia.
- by move=> k kM; rewrite erho rotat_hi ?(c_fix h) //; lia.
- move=> a b ab bM; rewrite !erho; case: (leqP a w) => aw; last first.
    by rewrite !rotat_hi ?(c_ms h) //; lia.
  have -> : rotat r w a = a.-1 by rewrite /rotat; repeat case: ifP => ?; lia.
  by apply: (c_ms h); rewrite ?rrlt //; rewrite /rotat; repeat case: ifP => ?; lia.
- move=> a b ab bM; rewrite !egam; case: (leqP a i) => aw; last first.
    by rewrite !rotat_hi ?(c_mu h) //; lia.
  have -> : rotat r i a = a.-1 by rewrite /rotat; repeat case: ifP => ?; lia.
  by apply: (c_mu h); rewrite ?crlt //; rewrite /rotat; repeat case: ifP => ?; lia.
- move=> k l kM lN kl; rewrite sumE // erho egam.
  have rkM := rrlt _ kM; have rlN := crlt _ lN.
  rewrite newU //; case: (ltnP l r) => lr.
    rewrite mulr0 addr0; apply: (c_law h) => //.
    by rewrite [rotat r i l]rotat_lo // lr orbT.
  rewrite newL //; case: (eqVneq k r) => [->|kr].
    rewrite rrr (c_fix h); last by lia.
    rewrite -(c_raw h) ?crge ?rlN //; last by lia.
    rewrite bE ?crge //; congr (_ + _).
    by case: (d); rewrite ?mulr1 ?mul1r // mulrC mulfVK.
  case: (leqP k w) => kw.
    rewrite mul0r addr0; apply: (c_law h) => //.
    by apply/orP; left; rewrite /rotat; repeat case: ifP => ?; lia.
  have lE : l = r by lia.
  rewrite lE crr rotat_hi // (c_fix h); last by lia.
  rewrite -(c_raw h) ?ri //; last by lia.
  have -> : X k i = rsum r (fun t => X k t * X t i) + resc X r i k by rewrite /resc addrC subrK.
  congr (_ + _); first by apply: eq_rsum => t tr; rewrite /Lo /Up !ifT //; lia.
  by case: (d); rewrite ?mulr1 ?mulfVK // mulfV ?mulr1.
- move=> k l kM lN; rewrite E7; [|lia..].
  by rewrite (c_raw h) ?egam ?crge ?crlt //; lia.
- move=> t; rewrite ltnS leq_eqVlt => /orP[/eqP->|tr]; first by rewrite Ep.
  by rewrite E1 ?rrlo ?(c_piv h) //; lia.
- move=> k t kM; rewrite ltnS leq_eqVlt => /orP[/eqP->|tr].
    have wE : rho w = w by apply: (c_fix h); lia.
    rewrite newL // !erho rrr wE.
    case: (eqVneq k r) => [->|kr]; first by rewrite rrr wE.
    case: (leqP k w) => kw; first by rewrite eqxx.
    by move=> _; rewrite rotat_hi // (c_fix h); lia.
  rewrite eL // !erho [rotat r w t]rrlo //; apply: (c_lo h) => //; exact: rrlt.
- move=> t l; rewrite ltnS leq_eqVlt => /orP[/eqP->|tr] lN.
    rewrite newU // !egam crr; case: (ltnP l r) => lr; first by rewrite eqxx.
    have [->|lnr] := eqVneq l r; first by rewrite crr.
    move=> nz; case: (ltnP i l) => il; last first.
      by rewrite hz ?mul0r ?eqxx // in nz; rewrite /rotat; repeat case: ifP => ?; lia.
    by rewrite rotat_hi // ltnW // (c_mu h) //; lia.
  by rewrite eU // !egam [rotat r i t]rotat_lo //; apply: (c_up h) => //; exact: crlt.
- by move=> k l kl; rewrite E8 // (c_frame h).
Qed.

Lemma crout_inv A0 w : (w <= M)%N ->
  let st := iteri w (crout_step d M N) (Pluq A0 id id 0%N) in
  cinv A0 w (resA st) (resP st) (resQ st) (resR st).
Proof.
elim: w => [_|w IH wM] /=; first exact: cinv0.
have := IH (ltnW wM); case: (iteri w _ _) => X mP mQ r /= h.
have rw : (r <= w)%N by have := c_rw h; lia.
have := c_rN h; rewrite leq_eqVlt => /orP[/eqP rN|rN].
  by subst r; rewrite /crout_step ltnn; exact: cinv_full.
case: (@crout_step_cases w r X mP mQ wM rw rN) => [[i [h1 h2 h3 [h4 h5 h6 ->]]]|[h1 h2 -> -> ->]].
  exact: cinv_pivot h1 h2 h3 h4 h5 h6.
exact: cinv_none h h1 h2.
Qed.

Lemma crout_ok A0 P Q : let st := crout d M N A0 P Q in
  [/\ is_lapack M (resP st), is_lapack N (resQ st), frame M N (resA st) A0 &
   fac d M N A0 (resA st) (sigma (resP st) 0 M) (sigma (resQ st) 0 N) (resR st)].
Proof.
rewrite /crout; have := crout_inv A0 (leqnn M); case: (iteri M _ _) => X mP mQ r /= h.
have [rM rN] : (r <= M)%N /\ (r <= N)%N by have := c_rw h; have := c_rN h; lia.
have [p1 [p2 _]] := math2lapackE P (c_p h); have [q1 [q2 _]] := math2lapackE Q (c_q h).
set X' := at_ _ _ _ _; set mp := memo1 M _; set mq := memo1 N _.
have eX k l : X' k l = if ((r <= k < M) && (r <= l < N))%N then 0 else X k l.
  rewrite /X' /at_ /fzero /fill /sub; case E1 : ((r <= k) && (r <= l))%N; last by rewrite ifF //; lia.
  case/andP: E1 => h1 h2; rewrite (subnKC h1) (subnKC h2).
  by have -> : ((k - r < M - r) && (l - r < N - r))%N = ((r <= k < M) && (r <= l < N))%N by lia.
have eL k t : (t < r)%N -> Lo d X' k t = Lo d X k t.
  move=> tr; rewrite /Lo !eX; have -> : ((r <= k < M) && (r <= t < N))%N = false by lia.
  by case: ifP => // h1; case: eqP => // tk; rewrite ifF //; lia.
have eU t l : (t < r)%N -> Up d X' t l = Up d X t l.
  move=> tr; rewrite /Up !eX; have -> : ((r <= t < M) && (r <= l < N))%N = false by lia.
  by have -> : ((r <= t < M) && (r <= t < N))%N = false by lia.
have sP x : (x < M)%N -> sigma mp 0 M x = mP x.
  by move=> xM; rewrite -p2 //; apply: sigma_ext => k _; exact: memo1E.
have sQ x : (x < N)%N -> sigma mq 0 N x = mQ x.
  by move=> xM; rewrite -q2 //; apply: sigma_ext => k _; exact: memo1E.
split.
- by move=> k kM; rewrite ?/mp ?/mq memo1E; exact: p1.
- by move=> k kM; rewrite ?/mp ?/mq memo1E; exact: q1.
- by move=> k l kl; rewrite eX ifF ?(c_frame h) //; lia.
split=> //.
- by apply: (perm_ext _ (c_p h)) => x xM; rewrite sP.
- by apply: (perm_ext _ (c_q h)) => x xM; rewrite sQ.
- by move=> t tr; rewrite eX ifF ?(c_piv h) //; lia.
- by move=> k l kM lN; rewrite eX kM lN.
- move=> k l kM lN; rewrite sP // sQ // (c_law h) ?kM //.
  by apply: eq_rsum => t tr; rewrite eL ?eU.
- by move=> _ k t kM tr; rewrite !sP ?eL //; [exact: (c_lo h) | lia].
- by move=> _ t l tr lN; rewrite !sQ ?eU //; [exact: (c_up h) | lia].
- by move=> _ a b ab bM; rewrite !sP ?(c_ms h) //; lia.
- by move=> _ a b ab bM; rewrite !sQ ?(c_mu h) //; lia.
Qed.

End Crout.
