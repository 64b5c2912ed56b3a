From mathcomp Require Import all_ssreflect all_algebra zify ring.
From Verif Require Import Grid Perm_model Perm_spec Tri_model Tri_spec Tri_proofs Sym_model Sym_spec Sym_proofs
  Strass_model Strass_spec.
Set Implicit Arguments.
Unset Strict Implicit.
Unset Printing Implicit Defensive.
Import GRing.Theory.
Local Open Scope ring_scope.

Section Strassen.
Variable F : fieldType.
Implicit Types A B C R S T X : grid F.

(** ** Dot products *)
Definition dot (K : nat) (f g : nat -> F) : F := \sum_(l < K) f l * g l.

Lemma eq_dot K f f' g g' : (forall l, (l < K)%N -> f l = f' l) -> (forall l, (l < K)%N -> g l = g' l) ->
  dot K f g = dot K f' g'.
Proof. by move=> Hf Hg; apply: eq_bigr => l _; rewrite Hf // Hg. Qed.

Lemma dotC K f g : dot K f g = dot K g f.
Proof. by apply: eq_bigr => l _; rewrite mulrC. Qed.

Lemma dotDl K f f' g : dot K (fun l => f l + f' l) g = dot K f g + dot K f' g.
Proof. by rewrite -big_split; apply: eq_bigr => l _; rewrite mulrDl. Qed.

Lemma dotBl K f f' g : dot K (fun l => f l - f' l) g = dot K f g - dot K f' g.
Proof. by rewrite -sumrB; apply: eq_bigr => l _; rewrite mulrBl. Qed.

Lemma dotDr K f g g' : dot K f (fun l => g l + g' l) = dot K f g + dot K f g'.
Proof. by rewrite dotC dotDl !(dotC K f). Qed.

Lemma dotBr K f g g' : dot K f (fun l => g l - g' l) = dot K f g - dot K f g'.
Proof. by rewrite dotC dotBl !(dotC K f). Qed.

Lemma dot_cat K1 K2 f g : dot (K1 + K2) f g = dot K1 f g + dot K2 (fun l => f (K1 + l)%N) (fun l => g (K1 + l)%N).
Proof. by rewrite /dot big_split_ord. Qed.

(** The product by Y on the right. *)
Definition rot (k : nat) (x y : F) (f : nat -> F) (l : nat) : F :=
  if (l < k)%N then x * f l - y * f (k + l)%N else x * f l + y * f (l - k)%N.

Lemma rot_l k x y f l : (l < k)%N -> rot k x y f l = x * f l - y * f (k + l)%N.
Proof. by rewrite /rot => ->. Qed.
Lemma rot_r k x y f l : (k <= l)%N -> rot k x y f l = x * f l + y * f (l - k)%N.
Proof. by rewrite /rot leqNgt; case: ltnP. Qed.

Lemma dot_rot k x y f g : x * x + y * y = -1 -> dot (k + k) (rot k x y f) (rot k x y g) = - dot (k + k) f g.
Proof.
move=> H; rewrite !dot_cat.
rewrite (eq_dot (f' := fun l => x * f l - y * f (k + l)%N) (g' := fun l => x * g l - y * g (k + l)%N)); first last.
- by move=> l lk; rewrite /rot lk.
- by move=> l lk; rewrite /rot lk.
rewrite [X in _ + X](eq_dot (f' := fun l => x * f (k + l)%N + y * f l) (g' := fun l => x * g (k + l)%N + y * g l)); first last.
- by move=> l lk; rewrite /rot ltnNge leq_addr /= addKn.
- by move=> l lk; rewrite /rot ltnNge leq_addr /= addKn.
rewrite -!big_split /= -sumrN; apply: eq_bigr => l _ /=.
rewrite -[RHS]mulN1r -H; ring.
Qed.

(** ** computeS1S2 *)
Lemma optr_atop0 t k (f : grid F -> grid F) R i l :
  optr t (atop t 0 k f R) i l = if (k <= l)%N then optr t (f (subop t 0 k R)) i (l - k)%N else optr t R i l.
Proof.
case: t => /=; rewrite /at_ /=; first by rewrite subn0.
by rewrite /tr /= subn0 andbT.
Qed.

Lemma cS_E t N K x y A S T i l : (K./2 = K./2./2 + K./2./2)%N ->
  optr t (computeS1S2 t N K x y A S T).1 i l =
  if ((i < N./2) && (l < K./2))%N then rot K./2./2 x y (optr t A (N./2 + i)%N) l - rot K./2./2 x y (optr t A i) l
  else optr t S i l.
Proof.
move=> KE; rewrite /computeS1S2; cbv zeta; set k := K./2./2 in KE *; rewrite /=.
set Sa := fillop t N./2 K./2 _ S.
set Sb := if y == 0 then Sa else _.
have SbE i' l' : optr t Sb i' l' = if ((i' < N./2) && (l' < K./2))%N then rot k x y (optr t A (N./2 + i')%N) l' else optr t S i' l'.
  rewrite /Sb; case: eqP => [y0|_].
    rewrite /Sa fillopE optr_subop add0n; case: ifP => // _.
    by rewrite /rot y0 !mul0r subr0 addr0 if_same.
  rewrite optr_atop0; case: (leqP k l') => kl.
    rewrite fillopE !optr_subop !add0n subnKC // !fillopE !optr_subop !add0n.
    rewrite (_ : ((i' < N./2) && (l' < k))%N = false); last lia.
    rewrite (_ : (l' - k < k)%N = (l' < K./2)%N); last lia.
    by case: ((i' < N./2) && (l' < K./2))%N => //; rewrite rot_r.
  rewrite !fillopE !optr_subop !add0n kl andbT.
  have -> : (l' < K./2)%N by lia.
  by case: (i' < N./2)%N => //=; rewrite rot_l // mulNr.
set Sc := fillop t N./2 K./2 _ Sb.
have ScE i' l' : optr t Sc i' l' = if ((i' < N./2) && (l' < K./2))%N then rot k x y (optr t A (N./2 + i')%N) l' - x * optr t A i' l' else optr t S i' l'.
  by rewrite /Sc fillopE SbE; case: ((i' < N./2) && (l' < K./2))%N => //; rewrite mulNr.
case: eqP => [y0|_].
  rewrite ScE; case: ifP => // _; congr (_ - _).
  by rewrite /rot y0 !mul0r subr0 addr0 if_same.
rewrite optr_atop0; case: (leqP k l) => kl.
  rewrite fillopE !optr_subop !add0n subnKC // fillopE ScE.
  rewrite (_ : ((i < N./2) && (l < k))%N = false); last lia.
  rewrite (_ : (l - k < k)%N = (l < K./2)%N); last lia.
  by case: ((i < N./2) && (l < K./2))%N => //; rewrite [rot _ _ _ (optr t A i) _]rot_r //; ring.
rewrite fillopE !ScE kl andbT.
have -> : (l < K./2)%N by lia.
rewrite andbT.
by case: (i < N./2)%N => //=; rewrite [rot _ _ _ (optr t A i) _]rot_l //; ring.
Qed.

Lemma cT_E t N K x y A S T i l : (K./2 = K./2./2 + K./2./2)%N ->
  optr t (computeS1S2 t N K x y A S T).2 i l =
  if ((i < N./2) && (l < K./2))%N then optr t A (N./2 + i)%N (K./2 + l)%N - rot K./2./2 x y (optr t A (N./2 + i)%N) l
  else optr t T i l.
Proof.
move=> KE; rewrite /computeS1S2; cbv zeta; set k := K./2./2 in KE *; rewrite /=.
set Sa := fillop t N./2 K./2 _ S.
set Sb := if y == 0 then Sa else _.
have SbE i' l' : optr t Sb i' l' = if ((i' < N./2) && (l' < K./2))%N then rot k x y (optr t A (N./2 + i')%N) l' else optr t S i' l'.
  rewrite /Sb; case: eqP => [y0|_].
    rewrite /Sa fillopE optr_subop add0n; case: ifP => // _.
    by rewrite /rot y0 !mul0r subr0 addr0 if_same.
  rewrite optr_atop0; case: (leqP k l') => kl.
    rewrite fillopE !optr_subop !add0n subnKC // !fillopE !optr_subop !add0n.
    rewrite (_ : ((i' < N./2) && (l' < k))%N = false); last lia.
    rewrite (_ : (l' - k < k)%N = (l' < K./2)%N); last lia.
    by case: ((i' < N./2) && (l' < K./2))%N => //; rewrite rot_r.
  rewrite !fillopE !optr_subop !add0n kl andbT.
  have -> : (l' < K./2)%N by lia.
  by case: (i' < N./2)%N => //=; rewrite rot_l // mulNr.
by rewrite fillopE SbE optr_subop; case: ((i < N./2) && (l < K./2))%N.
Qed.

(** ** Quadrants *)
Definition quad_eq (q q' : quad) : bool :=
  match q, q' with Q11, Q11 | Q12, Q12 | Q21, Q21 | Q22, Q22 => true | _, _ => false end.

Lemma subq_atq u n q q' f C i j : (i < n)%N -> (j < n)%N -> frame n n (f (subq u n q C)) (subq u n q C) ->
  subq u n q' (atq u n q f C) i j = if quad_eq q q' then f (subq u n q C) i j else subq u n q' C i j.
Proof.
move=> iN jN fr; rewrite /subq {1}/sub /atq /at_ -/(subq u n q C).
have E a b : ~~ ((a < n) && (b < n))%N -> f (subq u n q C) a b = subq u n q C a b by apply: fr.
case: u q q' fr E => [] [] [] fr E; rewrite /= ?leq0n ?leq_addr ?subn0 ?add0n ?addKn //=;
  try (by case: ifP => // H; rewrite E /subq /sub /=; [same_cell|lia]);
  try (by rewrite E /subq /sub /=; [same_cell|lia]).
Qed.

Lemma atq_out u n q f C i j : frame n n (f (subq u n q C)) (subq u n q C) -> ~~ ((i < n + n) && (j < n + n))%N ->
  atq u n q f C i j = C i j.
Proof.
move=> fr ne; rewrite /atq /at_ -/(subq u n q C); case: ifP => // H.
by rewrite fr; [rewrite /subq /sub; same_cell | case: u q ne H {fr} => [] [] /=; lia].
Qed.

(** ** Loops *)
Lemma tri_addinE u n B C i j : tri_addin u n B C i j = if [&& i < n, j < n & in_tri u i j]%N then C i j + B i j else C i j.
Proof. by rewrite /tri_addin memoE. Qed.

Lemma explicitE u n C i j : explicit u n C i j =
  if [&& i < n, j < n & ~~ in_tri u i j]%N then C j i else C i j.
Proof.
rewrite /explicit memoE.
have inner k m C' a b : (m <= k)%N -> iteri m (fun j C => if u is Lower then upd C j k (C k j) else upd C k j (C j k)) C' a b =
    if u is Lower then (if (b == k) && (a < m)%N then C' k a else C' a b) else (if (a == k) && (b < m)%N then C' b k else C' a b).
  elim: m a b => [|m IH] a b mk /=; first by case: u; rewrite andbF.
  have mk' : (m <= k)%N by lia.
  case: u IH => IH; rewrite /upd !IH //; bsolve; move: E; try (by move/eqP=> e; subst; rewrite ?ltnn ?eqxx /= in E0 *; try lia).
have outer m C' a b : (m <= n)%N -> iteri m (fun i C => iteri i (fun j C =>
    if u is Lower then upd C j i (C i j) else upd C i j (C j i)) C) C' a b =
    if [&& a < m, b < m & ~~ in_tri u a b]%N then C' b a else C' a b.
  elim: m a b => [|m IH] a b mn //=.
  rewrite inner //; case: u IH {inner} => IH; rewrite !IH /in_tri; try lia; bsolve.
by rewrite outer.
Qed.

Lemma add_trE n B C i j : add_tr n B C i j = if ((i < n) && (j < n))%N then C i j + B j i else C i j.
Proof.
rewrite /add_tr memoE.
have inner k m C' a b : iteri m (fun j C => upd C j k (C j k + B k j)) C' a b =
    if (b == k) && (a < m)%N then C' a b + B b a else C' a b.
  elim: m a b => [|m IH] a b /=; first by rewrite andbF.
  rewrite /upd !IH; case: (altP (b =P k)) => [->|_] /=; last by rewrite andbF.
  by rewrite eqxx /= andbT; case: (altP (a =P m)) => [->|ne]; [rewrite ltnn ltnSn | congr (if _ then _ else _); lia].
have outer m C' a b : iteri m (fun i C => iteri n (fun j C => upd C j i (C j i + B i j)) C) C' a b =
    if ((a < n) && (b < m))%N then C' a b + B b a else C' a b.
  elim: m a b => [|m IH] a b /=; first by rewrite andbF.
  rewrite inner !IH; case: (altP (b =P m)) => [->|ne] /=; first by rewrite ltnn ltnSn andbF andbT.
  by congr (if _ then _ else _); lia.
exact: outer.
Qed.

Lemma saveE u n C22 C11 a0 b0 : save u n C22 C11 a0 b0 =
  if u is Lower then (if (a0 < b0 < n)%N then C22 (n - a0.+1)%N (b0 - a0.+1)%N else C11 a0 b0)
  else (if (b0 < a0 < n)%N then C22 (n - a0.+1)%N (n - a0 + b0)%N else C11 a0 b0).
Proof.
rewrite /save memoE.
have inner i' m C' a b : (m <= n - i'.+1)%N -> iteri m (fun s C =>
    if u is Lower then upd C i' (i'.+1 + s)%N (C22 (n - i'.+1)%N s) else upd C (n - i'.+1)%N s (C22 i' (i'.+1 + s)%N)) C' a b =
    if u is Lower then (if (a == i') && (i'.+1 <= b < i'.+1 + m)%N then C22 (n - i'.+1)%N (b - i'.+1)%N else C' a b)
    else (if (a == n - i'.+1)%N && (b < m)%N then C22 i' (i'.+1 + b)%N else C' a b).
  elim: m a b => [|m IH] a b mk /=; first by case: u; bsolve.
  have mk' : (m <= n - i'.+1)%N by lia.
  by case: u IH => IH; rewrite /upd !IH //; bsolve.
have outer m C' a b : (m <= n.-1)%N -> iteri m (fun i' C => let i := i'.+1 in iteri (n - i) (fun s C =>
    if u is Lower then upd C i' (i + s)%N (C22 (n - i)%N s)
    else upd C (n - i)%N s (C22 i' (i + s)%N)) C) C' a b =
    if u is Lower then (if (a < m)%N && (a < b < n)%N then C22 (n - a.+1)%N (b - a.+1)%N else C' a b)
    else (if (n - m <= a)%N && (b < a < n)%N then C22 (n - a.+1)%N (n - a + b)%N else C' a b).
  elim: m a b => [|m IH] a b mk /=; first by case: (u); bsolve.
  have mk' : (m <= n.-1)%N by lia.
  rewrite inner //; case: u IH {inner} => IH; rewrite !IH //; bsolve.
by rewrite outer //; case: u {inner outer}; bsolve.
Qed.

Lemma restoreE u n be C11 D C22 a0 b0 : (0 < n)%N -> restore u n be C11 D C22 a0 b0 =
  if ~~ ((a0 < n) && (b0 < n))%N then C22 a0 b0 else
  if (a0 == b0)%N then C22 a0 b0 + be * D a0
  else if u is Lower then (if (b0 < a0)%N then C22 a0 b0 + be * C11 (n - a0.+1)%N (n - a0 + b0)%N else C22 a0 b0)
  else (if (a0 < b0)%N then C22 a0 b0 + be * C11 (n - a0.+1)%N (b0 - a0.+1)%N else C22 a0 b0).
Proof.
move=> n0; rewrite /restore memoE.
have inner i' m C' a b : (m <= n - i'.+1)%N -> iteri m (fun s C =>
      if u is Lower then upd C (n - i'.+1)%N s (C (n - i'.+1)%N s + be * C11 i' (i'.+1 + s)%N)
      else upd C i' (i'.+1 + s)%N (C i' (i'.+1 + s)%N + be * C11 (n - i'.+1)%N s)) C' a b =
    if u is Lower then (if (a == n - i'.+1)%N && (b < m)%N then C' a b + be * C11 i' (i'.+1 + b)%N else C' a b)
    else (if (a == i') && (i'.+1 <= b < i'.+1 + m)%N then C' a b + be * C11 (n - i'.+1)%N (b - i'.+1)%N else C' a b).
  elim: m a b => [|m IH] a b mk /=; first by case: u; bsolve.
  have mk' : (m <= n - i'.+1)%N by lia.
  case: u IH => IH; rewrite /upd !IH //.
    case: (altP (a =P i')) => [->|ne] //=; rewrite ?eqxx /=.
    case: (altP (b =P (i'.+1 + m)%N)) => [->|ne'] /=.
      by rewrite ltnn andbF addnS ltnSn leq_addr /= addKn.
    by congr (if _ then _ else _); lia.
  case: (altP (a =P (n - i'.+1)%N)) => [->|ne] //=; rewrite ?eqxx /=.
  case: (altP (b =P m)) => [->|ne'] /=; first by rewrite ltnn ltnSn.
  by congr (if _ then _ else _); lia.
pose G a b := if (a == b)%N then be * D a
  else if u is Lower then (if (b < a)%N then be * C11 (n - a.+1)%N (n - a + b)%N else 0)
  else (if (a < b)%N then be * C11 (n - a.+1)%N (b - a.+1)%N else 0).
pose W m a b := if (a == b)%N then a == m else if u is Lower then (a == n - m.+1)%N && (b < a)%N else (a == m) && (a < b < n)%N.
set step := fun (i' : nat) C => _.
have stepE m C a b : (m < n.-1)%N -> step m C a b = if W m a b then C a b + G a b else C a b.
  move=> mn; rewrite /step /= {1}/upd !inner // /W /G.
  case Eu: u => /=; case: (altP (a =P b)) => [->|ne] /=.
  - by case: eqP => [->|_] /=; rewrite ?ltnn ?andbF.
  - rewrite (_ : (a == m) && (b == m) = false); last by case: eqP => //= e; apply/negbTE; rewrite -e eq_sym.
    case: (altP (a =P m)) => [->|_] //=.
    rewrite (_ : (m < b < m.+1 + (n - m.+1))%N = (m < b < n)%N); last lia.
    by case: ifP => // /andP[-> _].
  - rewrite andbb; case: (altP (b =P m)) => [->|_] //=; case: ifP => // H; lia.
  - rewrite (_ : (a == m) && (b == m) = false); last by case: eqP => //= e; apply/negbTE; rewrite -e eq_sym.
    case: (altP (a =P (n - m.+1)%N)) => [->|_] //=.
    by case: ifP => // H; congr (_ + be * C11 _ _); lia.
have outer m a b : (m <= n.-1)%N -> iteri m step C22 a b =
    if (if (a == b)%N then (a < m)%N else if u is Lower then (n - m <= a < n)%N && (b < a)%N else (a < m)%N && (a < b < n)%N)
    then C22 a b + G a b else C22 a b.
  elim: m a b => [|m IH] a b mk /=.
    by rewrite ltn0 /=; case: (u) => /=; case: ifP => //; case: ifP => //; lia.
  rewrite stepE // IH; last lia.
  rewrite /W; case: (altP (a =P b)) => [_|ne].
    by case: (altP (a =P m)) => [->|ne]; [rewrite ltnn ltnSn | congr (if _ then _ else _); lia].
  case: (u).
    by case: (altP (a =P m)) => [->|ne'] /=; [rewrite ltnn ltnSn /=; case: ifP | congr (if _ then _ else _); lia].
  case: (altP (a =P (n - m.+1)%N)) => [e|ne'] /=; last by congr (if _ then _ else _); lia.
  rewrite (_ : (n - m <= a < n)%N && (b < a)%N = false); last lia.
  by rewrite (_ : (n - m.+1 <= a < n)%N && (b < a)%N = (b < a)%N); last lia.
rewrite {1}/upd !outer // ?eqxx ?ltnn /G ?eqxx.
case: (altP (a0 =P b0)) => [<-|ne].
  by case: (altP (a0 =P n.-1)) => [->|ne] /=; [rewrite prednK // leqnn | bsolve].
rewrite (_ : (a0 == n.-1) && (b0 == n.-1) = false); last by case: eqP => //= e; apply/negbTE; rewrite -e eq_sym.
by case: (u); bsolve; rewrite ?addr0.
Qed.

End Strassen.
