(** * The Gauss-Jordan elimination by column slices: one slice *)
From mathcomp Require Import all_ssreflect all_algebra zify ring.
From Verif Require Import Grid Perm_model Perm_spec Perm_proofs Tri_model Tri_spec Tri_proofs.
From Verif Require Import Pluq_model Pluq_spec Pluq_proofs Pluq_main Pluq_rank Pluq_api_proofs Api_model Ludiv_model Ludiv_proofs.
From Verif Require Import Ech_model Ech_spec Ech_proofs Ech_steps Ech_acc Ech_acc2 Ech_main Ech_thm.
Set Implicit Arguments.
Unset Strict Implicit.
Unset Printing Implicit Defensive.
Import GRing.Theory.
Local Open Scope ring_scope.

(** ** Transposition lists *)

Lemma sigma_cat p b m e x : (b <= m)%N -> (m <= e)%N -> sigma p b e x = sigma p b m (sigma p m e x).
Proof.
move=> bm me; rewrite /sigma (_ : (e - b = (m - b) + (e - m))%N); last by lia.
by rewrite iotaD foldr_cat subnKC.
Qed.

Lemma sigma_id p b e x : (forall i, (b <= i < e)%N -> p i = i) -> sigma p b e x = x.
Proof.
move=> h; rewrite (sigma_ext (q := id)) // /sigma; elim: (iota _ _) => //= i s ->; exact: tij_id.
Qed.

Lemma sigma_shift p q c n x : (forall i, (i < n)%N -> p (c + i)%N = (c + q i)%N) ->
  sigma p c (c + n) (c + x)%N = (c + sigma q 0 n x)%N.
Proof.
elim: n x => [|n IH] x h; first by rewrite addn0 !sigma_nil.
rewrite addnS sigmaSr ?leq_addr // sigmaSr // -IH => [|i iN]; last by apply: h; lia.
by rewrite h // /transpose_ij !eqn_add2l; case: eqP => _ //; case: eqP.
Qed.

(** A transposition list of a permutation which fixes everything from n on. *)
Lemma lapack_tail Q n N : is_lapack N Q -> (n <= N)%N ->
  (forall x, (n <= x < N)%N -> sigma Q 0 N x = x) ->
  (forall x, (n <= x < N)%N -> Q x = x) /\ (forall x, (x < n)%N -> (Q x < n)%N).
Proof.
move=> lQ nN fx.
have H b : (b <= N)%N -> (forall x, (n <= x < N)%N -> sigma Q b N x = x) /\
   (forall x, (x < b)%N -> if (x < n)%N then (Q x < n)%N else Q x == x).
  elim: b => [|b IH] bN; first by [].
  have [h1 h2] := IH (ltnW bN).
  have e x : sigma Q b N x = transpose_ij b (Q b) (sigma Q b.+1 N x) by apply: sigmaSl.
  have lo : sigma Q b.+1 N b = b.
    by apply: (sigma_lo (p := Q)) => // i ib; have := lQ i; lia.
  have sb : sigma Q b N b = Q b by rewrite e lo /transpose_ij eqxx.
  have Qb := lQ b bN.
  have nb : if (b < n)%N then (Q b < n)%N else Q b == b.
    case: ltnP => bn; last by apply/eqP; rewrite -sb h1 //; lia.
    case: (ltnP (Q b) n) => // c; have qb : (n <= Q b < N)%N by lia.
    have := sigma_inj (etrans (h1 _ qb) (esym sb)); lia.
  split=> [x xn|x]; last by rewrite ltnS leq_eqVlt => /orP[/eqP->|/h2].
  have := h1 x xn; rewrite e => /(congr1 (transpose_ij b (Q b))); rewrite tijK => ->.
  rewrite /transpose_ij; case: ltnP nb => bn nb.
    by rewrite ifF; [rewrite ifF //; lia | lia].
  by rewrite (eqP nb); case: eqP => //; case: eqP.
have [_ h] := H N (leqnn N); split=> x xn.
  by have xN : (x < N)%N by [lia]; have := h x xN; rewrite ifF => [/eqP|]; lia.
by have xN : (x < N)%N by [lia]; have := h x xN; rewrite xn.
Qed.

Section Gj.
Variable F : fieldType.
Implicit Types A B X Y T E W : grid F.
Variables (bk thr tthr bc : nat).
Hypotheses (bk0 : (0 < bk)%N) (tthr0 : (0 < tthr)%N).

(** ** The rows are combined: pivot rows rho, ..., rho + R - 1 *)

Definition act (rho R : nat) Y (x : nat -> F) (i : nat) : F :=
  rsum R (fun t => Y i t * x (rho + t)%N) + (if (rho <= i < rho + R)%N then 0 else x i).

Lemma act_ext rho R Y Y' x x' i : (forall t, (t < R)%N -> Y i t = Y' i t) ->
  (forall t, (t < R)%N -> x (rho + t)%N = x' (rho + t)%N) -> x i = x' i -> act rho R Y x i = act rho R Y' x' i.
Proof. by move=> h1 h2 h3; rewrite /act h3; congr (_ + _); apply: eq_rsum => t tR; rewrite h1 // h2. Qed.

Lemma act_comp rho r1 r2 Y1 Y2 s x i :
  (forall k, (k < rho + r1)%N -> s k = k) -> (forall k, (rho + r1 <= k)%N -> (rho + r1 <= s k)%N) ->
  act (rho + r1) r2 Y2 (fun k => act rho r1 Y1 x (s k)) i =
  act rho (r1 + r2) (fun i t => if (t < r1)%N then act (rho + r1) r2 Y2 (fun k => Y1 (s k) t) i else Y2 i (t - r1)%N)
    (fun k => x (s k)) i.
Proof.
move=> slo shi; rewrite [RHS]/act rsum_cat.
have -> : rsum r1 (fun t => (if (t < r1)%N then act (rho + r1) r2 Y2 (fun k => Y1 (s k) t) i else Y2 i (t - r1)%N) * x (s (rho + t)%N)) =
   rsum r1 (fun t => act (rho + r1) r2 Y2 (fun k => Y1 (s k) t) i * x (rho + t)%N).
  by apply: eq_rsum => t tr; rewrite tr slo //; lia.
have -> : rsum r2 (fun t => (if (r1 + t < r1)%N then act (rho + r1) r2 Y2 (fun k => Y1 (s k) (r1 + t)%N) i else Y2 i (r1 + t - r1)%N) * x (s (rho + (r1 + t))%N)) =
   rsum r2 (fun t => Y2 i t * x (s (rho + r1 + t)%N)).
  by apply: eq_rsum => t tr; rewrite ifF ?addKn ?addnA //; lia.
rewrite {1}/act.
have piv k : (rho <= s k < rho + r1)%N = (rho <= k < rho + r1)%N.
  by case: (ltnP k (rho + r1)) => h; [rewrite slo // h | have := shi k h; lia].
set U := rsum r2 (fun t => Y2 i t * x (s (rho + r1 + t)%N)).
set S := rsum r1 (fun t => rsum r2 (fun t' => Y2 i t' * Y1 (s (rho + r1 + t')%N) t) * x (rho + t)%N).
have -> : rsum r2 (fun t => Y2 i t * act rho r1 Y1 x (s (rho + r1 + t)%N)) = S + U.
  have e1 : rsum r2 (fun t => Y2 i t * act rho r1 Y1 x (s (rho + r1 + t)%N)) =
     rsum r2 (fun t => rsum r1 (fun t' => Y2 i t * (Y1 (s (rho + r1 + t)%N) t' * x (rho + t')%N)) + Y2 i t * x (s (rho + r1 + t)%N)).
    by apply: eq_rsum => t _; rewrite /act piv ifF ?mulrDr ?rsum_mull //; lia.
  rewrite e1 rsumD rsum_exch; congr (_ + _); apply: eq_rsum => t _; rewrite -rsum_mulr.
  by apply: eq_rsum => t' _; rewrite mulrA.
have -> : rsum r1 (fun t => act (rho + r1) r2 Y2 (fun k => Y1 (s k) t) i * x (rho + t)%N) =
   S + (if (rho + r1 <= i < rho + r1 + r2)%N then 0 else rsum r1 (fun t => Y1 (s i) t * x (rho + t)%N)).
  case: ifP => h.
    by rewrite addr0; apply: eq_rsum => t _; rewrite /act h addr0.
  by rewrite -rsumD; apply: eq_rsum => t _; rewrite /act h mulrDl.
case: ifP => h; first by rewrite !addr0 ifT ?addr0 //; lia.
rewrite /act piv (_ : (rho <= i < rho + (r1 + r2))%N = (rho <= i < rho + r1)%N); last by lia.
by rewrite addrA; congr (_ + _); rewrite addrAC.
Qed.

(** ** The base case keeps what lies right of the slice *)

Lemma trow_right M R X k l : (R <= M)%N -> (forall t, (t < R)%N -> X t t != 0) -> (R <= l)%N ->
  trow tthr M R X k l = X k l.
Proof.
move=> RM dg Rl; have dX : inv_diag NonUnit R X by move=> _.
have [f _] := ftrtriE tthr0 Lower dX; rewrite /trow; set X1 := ftrtri _ _ _ _ _ _ in f *.
rewrite /at_ ftrmmE //; case: ifP => h; last by apply: f; lia.
by rewrite ifF; [rewrite /sub !subn0 add0n subnKC; [apply: f; lia | lia] | lia].
Qed.

Lemma redrow_right tag M N A P0 Q0 k l : st_tag tag -> (k < M)%N -> (N <= l)%N ->
  resA (redrow bk thr tthr tag true M N A P0 Q0) k l = A k l.
Proof.
move=> tg kM Nl; rewrite redrowE; set P1 := iteri M _ _; set Q1 := iteri N _ _.
have := row_stage thr bk0 tthr0 M N A P1 Q1 tg.
have fr : resA (rowlu bk thr tag M N A P1 Q1) k l = A k l.
  case: (tg) => ->; rewrite /rowlu.
    have := @ludiv_full F bk bk0 N.+1 Trans NonUnit false N M A P1 Q1 (ltnSn N); rewrite /LUdivine.
    by case: (ludiv _ _ _ _ _ _ _ _ _ _) => X P Q R /(_ _)[] // h _ _; apply: (h l k); lia.
  have := @PLUQ_factors F bk Unit thr M N A bk0.
  by case: (PLUQ _ _ _ _ _ _) => X P Q R [_ _ h _ _]; apply: h; lia.
case: (rowlu _ _ _ _ _ _ _) fr => X P Q R /= fr st.
have [hl bP bQ _ hs] := st; have [_ [RM RN] dg _ _] := hl.
have [V [_ _ _ ->]] := rrow_ok tthr0 (memo M N (if tag is Slab then iteri R (fun i X => if (i < Q i)%N then fswap_col i (Q i) i X else X) (trow tthr M R X) else trow tthr M R X)) RN; last by lia.
have tr : trow tthr M R X k l = A k l.
  by rewrite trow_right //; [move=> t tR; rewrite -(diag_Z tag R Q); exact: dg | lia].
rewrite memoE; case: (tag) tg bQ hs => // _ bQ [iQ _].
rewrite cloopE; last first.
  elim=> // t IH tR; have := IH (ltnW tR); have := iQ t t.+1; lia.
case: ifP => // kR; rewrite (sigma_ge (n := N)) // => i ik; apply: bQ; lia.
Qed.

(** ** Updates by a slice *)

Lemma gemmG p q m n r al be A B X k l : at_ p q (fgemm NoTrans NoTrans m n r al A B be) X k l =
  if ((p <= k < p + m) && (q <= l < q + n))%N then al * rsum r (fun t => A (k - p)%N t * B t (l - q)%N) + be * X k l
  else X k l.
Proof.
rewrite /at_ fgemmE; case E1 : ((p <= k) && (q <= l))%N; last by rewrite ifF //; lia.
case/andP: E1 => h1 h2; rewrite /sub h1 h2 /= (subnKC h1) (subnKC h2).
by have -> : ((k - p < m) && (l - q < n))%N = ((k < p + m) && (l < q + n))%N by lia.
Qed.

Definition core (M rho c1 c2 cols r : nat) X : grid F :=
  let A := at_ 0 c2 (fgemm NoTrans NoTrans rho cols r 1 (sub 0 c1 X) (sub rho c2 X) 1) X in
  let A := at_ (rho + r) c2 (fgemm NoTrans NoTrans (M - rho - r) cols r 1
             (sub (rho + r) c1 A) (sub rho c2 A) 1) A in
  let tmp := sub rho c2 A in
  at_ rho c2 (fgemm NoTrans NoTrans r cols r 1 (sub rho c1 A) tmp 0) A.

Lemma coreE M rho c1 c2 cols r X i j : (rho + r <= M)%N -> (i < M)%N ->
  (forall t, (t < r)%N -> ~~ (c2 <= c1 + t < c2 + cols)%N) ->
  core M rho c1 c2 cols r X i j =
  if (c2 <= j < c2 + cols)%N then act rho r (fun i t => X i (c1 + t)%N) (fun k => X k j) i else X i j.
Proof.
move=> rM iM dis; rewrite /core.
set A1 := at_ 0 c2 _ X; set A2 := at_ (rho + r) c2 _ A1.
have e1 k l : A1 k l = if ((k < rho) && (c2 <= l < c2 + cols))%N then
    rsum r (fun t => X k (c1 + t)%N * X (rho + t)%N l) + X k l else X k l.
  rewrite /A1 gemmG /= add0n; case: ifP => // h; rewrite !mul1r; congr (_ + _).
  by apply: eq_rsum => t tr; rewrite /sub add0n subn0 subnKC //; lia.
have e2 k l : (k < M)%N -> A2 k l = if ((rho + r <= k) && (c2 <= l < c2 + cols))%N then
    rsum r (fun t => X k (c1 + t)%N * X (rho + t)%N l) + X k l else A1 k l.
  move=> kM; rewrite /A2 gemmG (_ : (rho + r <= k < rho + r + (M - rho - r))%N = (rho + r <= k)%N); last by lia.
  case: ifP => // h; rewrite !mul1r; congr (_ + _); last by rewrite e1 ifF //; lia.
  apply: eq_rsum => t tr; rewrite /sub !subnKC; try lia.
  by rewrite !e1 ifF; [rewrite ifF //; lia | have := dis t tr; lia].
rewrite gemmG; case: (boolP (c2 <= j < c2 + cols)%N) => jw; last first.
  by rewrite andbF e2 // (negbTE jw) andbF e1 (negbTE jw) andbF.
rewrite andbT /act; case: ifP => h.
  rewrite mul1r mul0r; congr (_ + _); apply: eq_rsum => t tr; rewrite /sub !subnKC; try lia.
  by rewrite !e2 ?ifF ?e1 ?ifF //; have := dis t tr; lia.
rewrite e2 // jw andbT; case: ifP => h2 //; rewrite e1 ifT //; lia.
Qed.

Lemma gj_updateE M rho c1 c2 cols r maxp P X i j : (rho + r <= M)%N -> (i < M)%N ->
  (forall t, (t < r)%N -> ~~ (c2 <= c1 + t < c2 + cols)%N) ->
  gj_update bk M rho c1 c2 cols r maxp P X i j =
  if (c2 <= j < c2 + cols)%N then
    act rho r (fun i t => X i (c1 + t)%N) (fun k => X (dsum rho (sigma P 0 maxp) k) j) i else X i j.
Proof.
move=> rM iM dis; have -> : gj_update bk M rho c1 c2 cols r maxp P X =
   core M rho c1 c2 cols r (at_ rho c2 (applyP bk SLeft NoTrans cols 0 maxp P) X) by [].
rewrite coreE //; case: ifP => jw; last by rewrite applyL // jw andbF.
have ap k l : at_ rho c2 (applyP bk SLeft NoTrans cols 0 maxp P) X k l =
   if (c2 <= l < c2 + cols)%N then X (dsum rho (sigma P 0 maxp) k) l else X k l.
  by rewrite applyL // /dsum; case: (ltnP k rho) => h /=; case: ifP.
apply: act_ext => [t tr|t tr|]; rewrite ap ?jw //.
by rewrite ifF //; have := dis t tr; lia.
Qed.

Lemma gj_mergeE M rho c1 c2 r1 r2 n2 P2 X i j : (rho + r1 + r2 <= M)%N -> (i < M)%N ->
  (forall t, (t < r2)%N -> ~~ (c1 <= c2 + t < c1 + r1)%N) ->
  gj_merge M rho c1 c2 r1 r2 (at_ (rho + r1) c1 (applyP bk SLeft NoTrans r1 0 n2 P2) X) i j =
  if (c1 <= j < c1 + r1)%N then
    act (rho + r1) r2 (fun i t => X i (c2 + t)%N) (fun k => X (dsum (rho + r1) (sigma P2 0 n2) k) j) i else X i j.
Proof.
move=> rM iM dis; rewrite -(gj_updateE n2 P2 X j rM iM dis) /gj_merge /gj_update.
by rewrite subnDA.
Qed.

(** ** The rotation *)

Definition vrot (rec r1 r2 l : nat) : nat :=
  if (l < r1)%N then l else if (l < r1 + r2)%N then (rec + (l - r1))%N else if (l < rec + r2)%N then (l - r2)%N else l.

Lemma vrot_perm w rec r1 r2 : (r1 <= rec)%N -> (rec + r2 <= w)%N -> is_perm w (vrot rec r1 r2).
Proof.
move=> h1 h2; split=> [i iw|i j iw jw]; rewrite /vrot.
  by case: (ltnP i r1) => ?; case: (ltnP i (r1 + r2)) => ?; case: (ltnP i (rec + r2)) => ?; lia.
by case: (ltnP i r1) => ?; case: (ltnP i (r1 + r2)) => ?; case: (ltnP i (rec + r2)) => ?;
  case: (ltnP j r1) => ?; case: (ltnP j (r1 + r2)) => ?; case: (ltnP j (rec + r2)) => ?; lia.
Qed.

Lemma atF p q m n f X k l : at_ p q (fill m n f) X k l =
  if ((p <= k < p + m) && (q <= l < q + n))%N then f (k - p)%N (l - q)%N else X k l.
Proof.
rewrite /at_ /fill; case E1 : ((p <= k) && (q <= l))%N; last by rewrite ifF //; lia.
case/andP: E1 => h1 h2; rewrite /sub h1 h2 /= (subnKC h1) (subnKC h2).
by have -> : ((k - p < m) && (l - q < n))%N = ((k < p + m) && (l < q + n))%N by lia.
Qed.

Lemma rotA M N rho c rec r1 r2 X Q i j : (r1 < rec)%N -> (rho + r1 <= M)%N -> (i < M)%N ->
  (gj_rotate M N rho c rec r1 r2 X Q).1 i j =
  if (c + r1 + r2 <= j < c + rec + r2)%N then if (i < rho + r1)%N then X i (j - r2)%N else 0
  else if (c + r1 <= j < c + r1 + r2)%N then X i (c + rec + (j - (c + r1)))%N else X i j.
Proof.
move=> rr rM iM; rewrite /gj_rotate /=.
set A1 := iteri M _ _.
have row k (Y : grid F) a b l : iteri k (fun j X => upd X a (c + r1 + j) (X a (c + rec + j)%N)) Y b l =
   if (b == a) && (c + r1 <= l < c + r1 + k)%N then Y a (c + rec + (l - (c + r1)))%N else Y b l.
  elim: k b l => [|k IH] b l; first by rewrite ifF //; lia.
  rewrite iteriS {1}/upd !IH eqxx; case: eqP => [->|_] //=.
  case: eqP => [->|nl]; last by rewrite (_ : (c + r1 <= l < c + r1 + k.+1)%N = (c + r1 <= l < c + r1 + k)%N) //; lia.
  by rewrite addKn ifF ?ifT //; lia.
have all k b l : iteri k (fun i X => iteri r2 (fun j X => upd X i (c + r1 + j) (X i (c + rec + j)%N)) X) X b l =
   if (b < k)%N && (c + r1 <= l < c + r1 + r2)%N then X b (c + rec + (l - (c + r1)))%N else X b l.
  elim: k b l => [|k IH] b l //.
  rewrite iteriS row !IH ltnn ltnS /=; case: (ltngtP b k) => [h|h|->] //=; by rewrite leqNgt h.
rewrite /fzero /fassign !atF /sub !add0n.
case: (boolP (c + r1 + r2 <= j < c + rec + r2)%N) => h.
  case: (ltnP i (rho + r1)) => hi.
    by rewrite /= ifT; [congr (X _ _); lia | lia].
  by rewrite ifT //; lia.
rewrite ifF; last by lia.
rewrite ifF; last by lia.
by rewrite /A1 all iM.
Qed.

Lemma rotQ M N rho c w rec r1 r2 X Q : (r1 < rec)%N -> (rec + r2 <= w)%N -> (c + w <= N)%N ->
  (forall x, (x < N)%N -> (Q x < N)%N) ->
  let Q' := (gj_rotate M N rho c rec r1 r2 X Q).2 in
  is_lapack N Q' /\ forall x, (x < N)%N ->
    sigma Q' 0 N x = sigma Q 0 N (if (c <= x < c + w)%N then (c + vrot rec r1 r2 (x - c))%N else x).
Proof.
move=> rr rw cN hQ; rewrite /gj_rotate /=.
set MQ := memo1 N (lapack2math id Q N).
set M1 := iteri r2 _ MQ; set M2 := iteri (rec - r1) _ M1.
have m0 x : (x < N)%N -> MQ x = sigma Q 0 N x by move=> xN; rewrite /MQ memo1E lapack2mathE // xN.
have e1 k x : (k <= r2)%N -> iteri k (fun i q => upd1 q (c + r1 + i) (q (c + rec + i)%N)) MQ x =
    if (c + r1 <= x < c + r1 + k)%N then MQ (c + rec + (x - (c + r1)))%N else MQ x.
  elim: k x => [|k IH] x kr; first by rewrite ifF //; lia.
  rewrite iteriS {1}/upd1 !IH; [|lia..].
  case: eqP => [->|nx]; last by rewrite (_ : (c + r1 <= x < c + r1 + k.+1)%N = (c + r1 <= x < c + r1 + k)%N) //; lia.
  by rewrite addKn ifF ?ifT //; lia.
have e2 k x : iteri k (fun j q => upd1 q (c + r1 + r2 + j) (MQ (c + r1 + j)%N)) M1 x =
    if (c + r1 + r2 <= x < c + r1 + r2 + k)%N then MQ (x - r2)%N else M1 x.
  elim: k x => [|k IH] x; first by rewrite ifF //; lia.
  rewrite iteriS {1}/upd1 IH.
  case: eqP => [->|nx]; last by rewrite (_ : (c + r1 + r2 <= x < c + r1 + r2 + k.+1)%N = (c + r1 + r2 <= x < c + r1 + r2 + k)%N) //; lia.
  by rewrite ifT; [congr (MQ _); lia | lia].
have eM x : (x < N)%N -> M2 x = sigma Q 0 N (if (c <= x < c + w)%N then (c + vrot rec r1 r2 (x - c))%N else x).
  move=> xN; rewrite /M2 e2 /M1 e1 // -m0; last first.
    case: ifP => // h; have := proj1 (vrot_perm (ltnW rr) rw) (x - c)%N; lia.
  rewrite /vrot; case: (boolP (c <= x < c + w)%N) => h; last by rewrite !ifF //; lia.
  case: (ltnP (x - c) r1) => h1; first by rewrite ifF; [rewrite ifF; [congr (MQ _); lia | lia] | lia].
  case: (ltnP (x - c) (r1 + r2)) => h2; first by rewrite ifF; [rewrite ifT; [congr (MQ _); lia | lia] | lia].
  case: (ltnP (x - c) (rec + r2)) => h3; first by rewrite ifT; [congr (MQ _); lia | lia].
  by rewrite ifF; [rewrite ifF; [congr (MQ _); lia | lia] | lia].
have pM : is_perm N M2.
  apply: (perm_ext (s := fun x => sigma Q 0 N (if (c <= x < c + w)%N then (c + vrot rec r1 r2 (x - c))%N else x))) => [x xN|]; first by rewrite eM.
  apply: (perm_comp (s := sigma Q 0 N) (sigma_perm hQ)).
  have [v1 v2] := vrot_perm (ltnW rr) rw; split=> [x xN|x y xN yN].
    by case: ifP => // h; have := v1 (x - c)%N; lia.
  case: ifP => hx; case: ifP => hy //; try by [have := v1 (x - c)%N; have := v1 (y - c)%N; lia].
  by move=> /addnI /v2 h; have : (x - c = y - c)%N by [apply: h; lia]; lia.
have [h1 [h2 _]] := math2lapackE Q pM; split=> [x xN|x xN]; first by rewrite memo1E; exact: h1.
by rewrite (sigma_ext (q := math2lapack Q M2 N)) => [|y _]; rewrite ?memo1E // h2 ?eM.
Qed.

(** ** What a slice leaves *)

Definition pnum (slab : bool) (M rho R : nat) : nat := if slab then R else (M - rho)%N.

(** Columns c, ..., c + w - 1 have been eliminated from row rho on; A and Q0
    are the contents before. *)
Record slice (slab : bool) (M N c rho w : nat) A (Q0 : nat -> nat) X (P Q : nat -> nat) (R : nat) (u : nat -> nat) : Prop := Slice {
  sl_R : (rho + R <= M)%N /\ (R <= w)%N;
  sl_P : forall k, (k < pnum slab M rho R)%N -> (P k < M - rho)%N;
  sl_u : is_perm w u;
  sl_Q : (forall x, (x < c + w)%N -> (Q x < c + w)%N) /\ (forall x, (c + w <= x < N)%N -> Q x = x);
  sl_lo : forall x, (x < c)%N -> sigma Q 0 N x = sigma Q0 0 N x;
  sl_hi : forall l, (l < w)%N -> sigma Q 0 N (c + l) = (c + u l)%N;
  sl_law : forall i l, (i < M)%N -> (l < w)%N ->
    act rho R (fun i t => X i (c + t)%N) (fun k => A (dsum rho (sigma P 0 (pnum slab M rho R)) k) (c + u l)%N) i =
    if (l < R)%N then (i == rho + l)%N%:R else if (i < rho + R)%N then X i (c + l)%N else 0;
  sl_ord : forall k l, (k < R)%N -> (R <= l < w)%N -> X (rho + k)%N (c + l)%N != 0 -> (u k < u l)%N;
  sl_inc : slab -> incr R u;
  sl_fr : forall i j, (i < M)%N -> ~~ (c <= j < c + w)%N -> X i j = A i j }.

Lemma base_ok slab M N c rho w A P0 Q0 : (rho <= M)%N -> (c + w <= N)%N ->
  (forall x, (x < c)%N -> (Q0 x < c)%N) -> (forall x, (c <= x < N)%N -> Q0 x = x) ->
  let: Pluq X P Q R := gj_base bk thr tthr slab M c rho w A P0 Q0 in
  exists u, slice slab M N c rho w A Q0 X P Q R u.
Proof.
move=> rM cN Qlo Qhi; rewrite /gj_base.
set tag := if slab then Slab else Tile.
have tg : st_tag tag by rewrite /tag /st_tag; case: (slab); [left | right].
set P1 := P0; set Q1 := fun x => Q0 (c + x)%N.
have right := @redrow_right tag (M - rho) w (sub rho c A) P1 Q1.
have := @redrow_elim F bk thr tthr bk0 tthr0 tag tg (M - rho) w (sub rho c A) P1 Q1.
case: (redrow _ _ _ _ _ _ _ _ _ _) right => W P q0 R; rewrite [resA _]/= => right [el [X0' st]].
have [_ bP bQ _ hs] := st; have [[ps pu] [RM Rw] law _ ord] := el.
pose q y := if slab && (R <= y)%N then y else q0 y.
have qw y : (y < w)%N -> (q y < w)%N.
  move=> yw; rewrite /q; case: ifP => // h; apply: bQ; move: h; rewrite /tag; case: (slab) => //=; lia.
have pE : perm_of tag (M - rho) R P = sigma P 0 (pnum slab M rho R) by rewrite /tag /pnum; case: (slab).
pose u := sigma q 0 w.
have uE l : perm_of tag w R q0 l = u l.
  rewrite /u /tag /q; case: (slab) => /=.
    rewrite (sigma_cat _ _ (leq0n R) Rw) [sigma _ R w l]sigma_id => [|i h]; last by rewrite ifT //; lia.
    by apply: sigma_ext => i h; rewrite ifF //; lia.
  exact: sigma_ext.
have pu' : is_perm w u by apply: (perm_ext _ pu) => x _; rewrite uE.
rewrite -/tag; set X0 := at_ rho c _ A; set Qa := at1 c _ Q0.
set Qb := iteri w _ Qa; set Qf := (if slab then _ else Qb).
have qa x : Qa x = if (c <= x < c + w)%N then q0 (x - c)%N else Q0 x.
  rewrite /Qa /at1; case: (leqP c x) => cx //=.
  by rewrite (_ : (x - c < w)%N = (x < c + w)%N); [rewrite subnKC|lia].
have qb x : Qb x = if (c <= x < c + w)%N then (c + q0 (x - c))%N else Q0 x.
  have h k : (k <= w)%N -> iteri k (fun i q => upd1 q (c + i) (q (c + i) + c)%N) Qa x =
     if (c <= x < c + k)%N then (c + q0 (x - c))%N else Qa x.
    elim: k => [|k IH] kw; first by rewrite ifF //; lia.
    have IH' := IH (ltnW kw); rewrite iteriS {1}/upd1; case: eqP => [e|nx]; last first.
      by rewrite IH' (_ : (c <= x < c + k.+1)%N = (c <= x < c + k)%N) //; lia.
    by rewrite -e IH' ifF ?ifT; [rewrite qa ifT; [rewrite addnC | lia] | lia | lia].
  by rewrite /Qb h // qa; case: ifP => // ->.
have qf x : Qf x = if (c <= x < c + w)%N then (c + q (x - c))%N else Q0 x.
  rewrite /Qf /q; case: (slab) => /=; last exact: qb.
  have h k : (k <= w - R)%N -> iteri k (fun i q => upd1 q (c + (R + i)) (c + (R + i))%N) Qb x =
     if (c + R <= x < c + R + k)%N then x else Qb x.
    elim: k => [|k IH] kw; first by rewrite ifF //; lia.
    rewrite iteriS {1}/upd1 IH; last by lia.
    case: eqP => [e|nx]; last by rewrite (_ : (c + R <= x < c + R + k.+1)%N = (c + R <= x < c + R + k)%N) //; lia.
    by rewrite ifT //; lia.
  rewrite h // qb; case: (boolP (c <= x < c + w)%N) => h1; last by rewrite ifF //; lia.
  by case: (leqP R (x - c)) => h2; [rewrite ifT; lia | rewrite ifF //; lia].
have sw l : sigma Qf c (c + w) (c + l) = (c + u l)%N.
  by apply: sigma_shift => i iw; rewrite qf addKn ifT //; lia.
have sout x : ~~ (c <= x < c + w)%N -> sigma Qf c (c + w) x = x.
  case: (ltnP x c) => xc h; first by apply: sigma_lo => // i hi; rewrite qf hi leq_addr.
  apply: (sigma_ge (n := (c + w)%N)) => //; last by lia.
  by move=> i hi; rewrite qf hi ltn_add2l qw //; lia.
(* the entries *)
have e0 i j : (i < M)%N -> X0 i j = if (rho <= i)%N && (c <= j < c + w)%N then W (i - rho)%N (j - c)%N else A i j.
  move=> iM; rewrite /X0 /at_; case: (leqP rho i) => ri //=; case: (leqP c j) => cj //=.
  case: ltnP => jw //; rewrite right //; [|lia..].
  by rewrite /sub !subnKC.
set X1 := applyP _ _ _ _ _ _ _ X0.
have e1 i j : X1 i j = if (i < rho)%N then X0 i (sigma Qf c (c + w) j) else X0 i j by rewrite /X1 applyPE.
have e1t i l : (i < rho)%N -> X1 i (c + l)%N = A i (c + u l)%N.
  by move=> ir; rewrite e1 ir sw e0 ?ifF //; lia.
have e1b i j : (rho <= i)%N -> X1 i j = X0 i j by move=> ir; rewrite e1 ltnNge ir.
set X2 := at_ 0 (c + R) _ X1; set X3 := at_ 0 c _ X2.
have e2 i j : X2 i j = if ((i < rho) && (c + R <= j < c + w))%N then
    X1 i j - rsum R (fun t => X1 i (c + t)%N * X1 (rho + t)%N j) else X1 i j.
  rewrite /X2 gemmW /= add0n (_ : (c + R + (w - R) = c + w)%N); last by lia.
  case: ifP => // h; congr (_ - _); apply: eq_rsum => t tR; rewrite /sub add0n subn0 subnKC //; lia.
have e3 i j : X3 i j = if ((i < rho) && (c <= j < c + R))%N then
    - rsum R (fun t => X1 i (c + t)%N * X1 (rho + t)%N j) else X2 i j.
  rewrite /X3 gemmG /= add0n; case: ifP => // h; rewrite mul0r addr0 mulN1r; congr (- _).
  apply: eq_rsum => t tR; rewrite /sub add0n subn0 subnKC; last by lia.
  by rewrite !e2 ifF ?ifF //; lia.
have fb i j : (rho <= i < M)%N -> X3 i j = if (c <= j < c + w)%N then W (i - rho)%N (j - c)%N else A i j.
  move=> ri; rewrite e3 ifF; last by lia.
  rewrite e2 ifF; last by lia.
  rewrite e1b; last by lia.
  by rewrite e0 ?(proj1 (andP ri)) //; lia.
have pW t l : (t < R)%N -> (l < w)%N -> X1 (rho + t)%N (c + l)%N = W t l.
  move=> tR lw; rewrite e1b ?leq_addr // e0; last by lia.
  by rewrite ifT; [rewrite !addKn | lia].
have ft i l : (i < rho)%N -> (l < w)%N -> X3 i (c + l)%N =
    (if (l < R)%N then 0 else A i (c + u l)%N) - rsum R (fun t => A i (c + u t)%N * W t l).
  move=> ir lw; have eS : rsum R (fun t => X1 i (c + t)%N * X1 (rho + t)%N (c + l)%N) =
      rsum R (fun t => A i (c + u t)%N * W t l) by apply: eq_rsum => t tR; rewrite e1t // pW.
  case: ltnP => lR; first by rewrite e3 ifT ?eS ?sub0r //; lia.
  by rewrite e3 ifF ?e2 ?ifT ?eS ?e1t //; lia.
have lawW k l : (k < M - rho)%N -> (l < w)%N ->
   rsum R (fun t => W k t * A (rho + sigma P 0 (pnum slab M rho R) t)%N (c + u l)%N) +
     (if (k < R)%N then 0 else A (rho + sigma P 0 (pnum slab M rho R) k)%N (c + u l)%N) = if (k < R)%N then Er R W k l else 0.
  by move=> kM lw; rewrite -law // (Tm_sum W _ RM kM) /sub pE uE.
exists u; split.
- by split=> //; lia.
- by move=> k kn; apply: bP; move: kn; rewrite /pnum /tag; case: (slab).
- exact: pu'.
- split=> x hx; rewrite qf; last by rewrite ifF ?Qhi //; lia.
  by case: ifP => h; [have := qw (x - c)%N | have := Qlo x]; lia.
- move=> x xc; rewrite (sigma_cat _ _ (leq0n c)); last by lia.
  rewrite [in RHS](sigma_cat _ _ (leq0n c)); last by lia.
  have f Z : (forall y, (c <= y < N)%N -> (c <= Z y)%N) -> sigma Z c N x = x by move=> hZ; apply: sigma_lo.
  rewrite !f => [|y hy|y hy].
  + by apply: sigma_ext => i hi; rewrite qf ifF //; lia.
  + by rewrite Qhi //; lia.
  by rewrite qf; case: ifP => h; [lia | rewrite Qhi; lia].
- move=> l lw; rewrite (sigma_cat _ _ (leq0n c)); last by lia.
  rewrite (@sigma_cat _ c (c + w) N) ?leq_addr // [sigma _ (c + w) N _]sigma_id => [|i hi]; last first.
    by rewrite qf ifF ?Qhi //; lia.
  rewrite sw; apply: (sigma_ge (n := c)) => //; last by lia.
  by move=> i hi; rewrite qf ifF ?Qlo //; lia.
- move=> i l iM lw; rewrite /act /dsum; case: (ltnP i rho) => ir.
    rewrite [if false && _ then _ else _]/=.
    rewrite (eq_rsum (g := fun t => - rsum R (fun m => A i (c + u m)%N * (W m t * A (rho + sigma P 0 (pnum slab M rho R) t)%N (c + u l)%N)))); last first.
      move=> t tR; rewrite ft ?tR ?sub0r ?ltnNge ?leq_addr /=; [|lia..].
      rewrite addKn mulNr -rsum_mulr; congr (- _); apply: eq_rsum => m _; rewrite mulrA //.
    rewrite rsumN rsum_exch (eq_rsum (g := fun m => A i (c + u m)%N * Er R W m l)) => [|m mR]; last first.
      by rewrite rsum_mull; congr (_ * _); have := lawW m l; rewrite mR addr0; apply=> //; lia.
    case: ltnP => lR.
      rewrite (eq_rsum (g := fun m => (m == l)%:R * A i (c + u m)%N)) => [|m mR]; last by rewrite /Er lR mulrC.
      by rewrite rsum_sel // addNr; have -> : (i == rho + l)%N = false by lia.
    rewrite ifT; last by lia.
    rewrite ft // ltnNge lR /= addrC; congr (_ - _); apply: eq_rsum => m mR; rewrite /Er ltnNge lR //.
  have := lawW (i - rho)%N l; rewrite (_ : (i - rho < M - rho)%N); last by lia.
  move=> /(_ isT lw) h; rewrite (eq_rsum (g := fun t => W (i - rho)%N t * A (rho + sigma P 0 (pnum slab M rho R) t)%N (c + u l)%N)); last first.
    move=> t tR; rewrite fb; last by rewrite ir.
    rewrite ifT; last by lia.
    by rewrite !addKn ltnNge leq_addr.
  rewrite andTb (_ : (i < rho + R)%N = (i - rho < R)%N) ?h; last by lia.
  rewrite /Er; case: (ltnP l R) => lR.
    rewrite (_ : (i == rho + l)%N = (i - rho == l)%N); last by lia.
    by case: ltnP => // h1; have -> : (i - rho == l)%N = false by lia.
  by case: ltnP => // h1; rewrite fb ?ifT ?addKn //; lia.
- move=> k l kR lw nz; have lw' : (l < w)%N by lia.
  have := (ord k l kR lw').2; rewrite /Er ifF; last by lia.
  rewrite fb in nz; last by lia.
  rewrite ifT ?addKn in nz; last by lia.
  rewrite !uE => /(_ nz); rewrite leq_eqVlt => /orP[/eqP|//] /(proj2 pu'); lia.
- move=> sl; move: hs uE; rewrite /tag sl => -[iQ _] uE t t' tt.
  by rewrite -!uE /= !(sigma_incr (R := R)) //; [apply: iQ | lia..].
move=> i j iM jw; case: (ltnP i rho) => ir; last by rewrite fb ?(negbTE jw) //; lia.
rewrite e3 ifF; last by lia.
rewrite e2 ifF; last by lia.
by rewrite e1 ir sout // e0 // (negbTE jw) andbF.
Qed.

End Gj.
