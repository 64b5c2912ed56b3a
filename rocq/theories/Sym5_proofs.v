From mathcomp Require Import all_ssreflect all_algebra zify ring.
From Verif Require Import Grid Perm_model Perm_spec Tri_model Tri_spec Tri_proofs Trmm_proofs Trtri_proofs Sym_model Sym_spec Sym_proofs Sym2_proofs Sym3_proofs Sym4_proofs.
Set Implicit Arguments.
Unset Strict Implicit.
Unset Printing Implicit Defensive.
Import GRing.Theory.
Local Open Scope ring_scope.

Section Sym.
Variable F : fieldType.
Implicit Types A B C D X S W : grid F.
Implicit Types E : nat -> F.

(** ** fsytrf, elementwise: S = U^T D^-1 U on the upper triangle, in the
    coordinates of [optr (st u)]. *)
Definition ldl (n : nat) W E S : Prop := forall r c, (r <= c < n)%N ->
  S r c = W r c + rsum r (fun l => W l r * E l * W l c).

Definition invs (n : nat) W E : Prop := forall l, (l < n)%N -> E l * W l l = 1.

Definition fails (N : nat) S : Prop :=
  exists k W E, [/\ (k < N)%N, ldl k.+1 W E S, invs k W E & W k k = 0].

(** What fsytrf_nonunit does. *)
Definition sytrf_post u N A E0 (res : outcome (grid F * (nat -> F))) : Prop :=
  match res with
  | Done (A', E) => [/\ frame N N A' A, ldl N (optr (st u) A') E (optr (st u) A), invs N (optr (st u) A') E &
                      forall i, (N <= i)%N -> E i = E0 i]
  | Not_generic => fails N (optr (st u) A)
  | No_result => False
  end.

Lemma optr_diag (t : transp) A i : optr t A i i = A i i.
Proof. by case: t. Qed.

Lemma optr_opcell (t : transp) N (f : nat -> nat -> F) (P : nat -> nat -> bool) A j k :
  optr t (memo N N (fun r c => let: (j, k) := opcell t r c in if P j k then f j k else A r c)) j k =
  if P j k then f j k else optr t A j k.
Proof. by case: t; rewrite /= /tr memoE. Qed.

Lemma frame_opcell (t : transp) N (f : nat -> nat -> F) (P : nat -> nat -> bool) A :
  (forall j k, P j k -> (j < N)%N && (k < N)%N) ->
  frame N N (memo N N (fun r c => let: (j, k) := opcell t r c in if P j k then f j k else A r c)) A.
Proof.
move=> H i j ij; rewrite memoE; case: t => /=; case: ifP => // /H; by [rewrite andbC (negbTE ij)|rewrite (negbTE ij)].
Qed.

(** right-looking *)
Definition part (k n : nat) W E S : Prop := forall r c, (r <= c < n)%N ->
  S r c = W r c + rsum (minn k r) (fun l => W l r * E l * W l c).

Lemma sytrf_RL_loop_ok n u N i A E S : (i + n = N)%N ->
  part i N (optr (st u) A) E S -> invs i (optr (st u) A) E ->
  match sytrf_RL_loop n u N i A E 1 with
  | Done (A', E') => [/\ frame N N A' A, ldl N (optr (st u) A') E' S, invs N (optr (st u) A') E' &
                       forall j, (N <= j)%N -> E' j = E j]
  | Not_generic => fails N S
  | No_result => False
  end.
Proof.
elim: n i A E => [|n IH] i A E /= iN P I.
  split=> //; last by move: iN I; rewrite addn0 => ->.
  move=> r c rc; rewrite P // (_ : minn i r = r) //; lia.
case: eqP => [A0|/eqP A0].
  exists i, (optr (st u) A), E; split=> //; [lia| |by rewrite optr_diag].
  move=> r c rc; have mr : minn i r = r by lia.
  by rewrite P ?mr //; lia.
set A1 := memo _ _ _.
pose V := optr (st u) A; pose V1 := optr (st u) A1.
have V1E j k : V1 j k = if [&& i < j, j <= k & k < N]%N then V j k + (- (A i i)^-1 * V i j) * V i k else V j k.
  by rewrite /V1 /A1 (optr_opcell (st u) N (fun j k => V j k + (- (A i i)^-1 * V i j) * V i k) (fun j k => [&& i < j, j <= k & k < N]%N)).
have fr1 : frame N N A1 A.
  by apply: (@frame_opcell (st u) N (fun j k => V j k + (- (A i i)^-1 * V i j) * V i k) (fun j k => [&& i < j, j <= k & k < N]%N)) => j k; lia.
have V1up j k : (j <= i)%N -> V1 j k = V j k by move=> ji; rewrite V1E ifN //; lia.
rewrite muln1.
have EE l : (l < i)%N -> upd1 E i (A i i)^-1 l = E l by move=> li; rewrite /upd1 ifN //; lia.
have Ei : upd1 E i (A i i)^-1 i = (A i i)^-1 by rewrite /upd1 eqxx.
have P1 : part i.+1 N V1 (upd1 E i (A i i)^-1) S.
  move=> r c rc; rewrite P //.
  have [ri|ri] := leqP r i.
    have -> : minn i.+1 r = r by lia.
    rewrite V1up //; congr (_ + _); apply: eq_rsum => l lr.
    by rewrite !V1up ?EE //; lia.
  have -> : minn i.+1 r = i.+1 by lia.
  rewrite /= Ei (V1up i r) // (V1up i c) // (V1E r c) ri rc.
  have -> : rsum i (fun l => V1 l r * upd1 E i (A i i)^-1 l * V1 l c) = rsum i (fun l => V l r * E l * V l c).
    by apply: eq_rsum => l li; rewrite !V1up ?EE //; lia.
  rewrite /= /V; ring.
have I1 : invs i.+1 V1 (upd1 E i (A i i)^-1).
  move=> l; rewrite ltnS leq_eqVlt => /orP[/eqP->|li].
    by rewrite Ei V1up // /V optr_diag mulVf.
  by rewrite EE // V1up ?I //; lia.
have := IH i.+1 A1 _ _ P1 I1.
rewrite addSnnS iN => /(_ erefl).
case: sytrf_RL_loop => [[A' E']| |] //= [fr L J O].
split=> //; first by apply: frame_trans fr fr1.
by move=> j jN; rewrite O // /upd1 ifN //; lia.
Qed.

Lemma sytrf_RL_ok u N A E : sytrf_post u N A E (sytrf_RL u N A E 1).
Proof.
apply: sytrf_RL_loop_ok => //.
by move=> r c rc; rewrite min0n /= addr0.
Qed.

(** Crout *)
Lemma sytrf_Crout_loop_ok n u N i A E S : (i + n = N)%N ->
  ldl i (optr (st u) A) E S ->
  (forall r c, (r < i <= c)%N -> (c < N)%N -> S r c = optr (st u) A r c + rsum r (fun l => optr (st u) A l r * E l * optr (st u) A l c)) ->
  (forall r c, (i <= r <= c)%N -> S r c = optr (st u) A r c) ->
  invs i (optr (st u) A) E ->
  match sytrf_Crout_loop n u N i A E 1 with
  | Done (A', E') => [/\ frame N N A' A, ldl N (optr (st u) A') E' S, invs N (optr (st u) A') E' &
                       forall j, (N <= j)%N -> E' j = E j]
  | Not_generic => fails N S
  | No_result => False
  end.
Proof.
elim: n i A E => [|n IH] i A E /= iN L R O I.
  by move: iN L I; rewrite addn0 => ->.
set A1 := memo _ _ _.
pose V := optr (st u) A; pose V1 := optr (st u) A1.
pose g k := V i k - rsum i (fun l => V l k * (V l i * E (l * 1)%N)).
have V1E j k : V1 j k = if [&& j == i, i <= k & k < N]%N then g k else V j k.
  by rewrite /V1 /A1 (optr_opcell (st u) N (fun _ => g) (fun j k => [&& j == i, i <= k & k < N]%N)).
have fr1 : frame N N A1 A.
  by apply: (@frame_opcell (st u) N (fun _ => g) (fun j k => [&& j == i, i <= k & k < N]%N)) => j k; lia.
have V1n j k : j != i -> V1 j k = V j k by move=> ji; rewrite V1E (negbTE ji).
have row k : (i <= k < N)%N -> S i k = V1 i k + rsum i (fun l => V1 l i * E l * V1 l k).
  move=> ik; rewrite O; last lia.
  rewrite V1E eqxx ik /g -/V.
  have -> : rsum i (fun l => V1 l i * E l * V1 l k) = rsum i (fun l => V l k * (V l i * E (l * 1)%N)).
    apply: eq_rsum => l li; rewrite !V1n ?muln1; try lia; ring.
  by rewrite subrK.
have L' : ldl i.+1 V1 E S.
  move=> r c rc; case: (ltnP r i) => ri; last first.
    by rewrite (_ : r = i) ?row //; lia.
  have E1 : rsum r (fun l => V1 l r * E l * V1 l c) = rsum r (fun l => V l r * E l * V l c).
    by apply: eq_rsum => l lr; rewrite !V1n //; lia.
  rewrite E1 V1n; last lia.
  have [ci|ci] := ltnP c i; first by rewrite L //; lia.
  by rewrite R //; lia.
have I' : invs i V1 E by move=> l li; rewrite V1n ?I //; lia.
have D1 : A1 i i = V1 i i by rewrite /V1 optr_diag.
case: eqP => [A0|/eqP A0].
  exists i, V1, E; split=> //; [lia|by rewrite -D1].
rewrite muln1.
have EE l : (l < i)%N -> upd1 E i (A1 i i)^-1 l = E l by move=> li; rewrite /upd1 ifN //; lia.
have := IH i.+1 A1 (upd1 E i (A1 i i)^-1).
rewrite addSnnS iN => /(_ erefl) H.
have a1 : ldl i.+1 (optr (st u) A1) (upd1 E i (A1 i i)^-1) S.
  by move=> r c rc; rewrite L' //; congr (_ + _); apply: eq_rsum => l lr; rewrite EE //; lia.
have a2 r c : (r < i.+1 <= c)%N -> (c < N)%N -> S r c = optr (st u) A1 r c +
     rsum r (fun l => optr (st u) A1 l r * upd1 E i (A1 i i)^-1 l * optr (st u) A1 l c).
  move=> ri cN; have -> : rsum r (fun l => optr (st u) A1 l r * upd1 E i (A1 i i)^-1 l * optr (st u) A1 l c) = rsum r (fun l => V1 l r * E l * V1 l c).
    by apply: eq_rsum => l lr; rewrite EE //; lia.
  have [ri'|ri'] := ltnP r i; last by rewrite (_ : r = i) ?row //; lia.
  rewrite R //; last lia.
  rewrite -/V1 V1n; last lia.
  by congr (_ + _); apply: eq_rsum => l lr; rewrite !V1n //; lia.
have a3 r c : (i < r <= c)%N -> S r c = optr (st u) A1 r c.
  by move=> rc; rewrite -/V1 V1n ?O //; lia.
have a4 : invs i.+1 (optr (st u) A1) (upd1 E i (A1 i i)^-1).
  move=> l; rewrite ltnS leq_eqVlt => /orP[/eqP->|li].
    by rewrite /upd1 eqxx -/V1 -D1 mulVf.
  by rewrite EE // I'.
have := H a1 a2 a3 a4.
case: sytrf_Crout_loop => [[A' E']| |] //= [fr L1 J O1].
split=> //; first by apply: frame_trans fr fr1.
by move=> j jN; rewrite O1 // /upd1 ifN //; lia.
Qed.

Lemma sytrf_Crout_ok u N A E : sytrf_post u N A E (sytrf_Crout u N A E 1).
Proof. by apply: sytrf_Crout_loop_ok => // r c; lia. Qed.
End Sym.
