(** * Products with and expansion of sequentially semi-separable matrices *)
From mathcomp Require Import all_ssreflect all_algebra zify.
From Verif Require Import Grid Perm_model Tri_model Tri_proofs Pluq_model Sss_model Sss_spec Bidiag_fold.
Set Implicit Arguments.
Unset Strict Implicit.
Unset Printing Implicit Defensive.
Import GRing.Theory.
Local Open Scope ring_scope.

Section Blocks.
Variables (N s : nat).
Hypothesis s0 : (0 < s)%N.

Lemma sss_kls : (0 < N)%N -> [/\ (0 < sss_k N s)%N, ((sss_k N s - 1) * s + sss_ls N s = N)%N & (0 < sss_ls N s <= s)%N].
Proof.
move=> N0; rewrite /sss_k /sss_ls; have := divn_eq N s; have := ltn_pmod N s0.
move: (N %/ s)%N (N %% s)%N => kf rs h e; case: eqP => z /=.
  by case: kf e => [|kf] e; [lia | rewrite subn1 /=; split; nia].
by rewrite subn1 /=; split; lia.
Qed.

Lemma kcond i (kf := (N %/ s)%N) (rs := (N %% s != 0)%N) (k := sss_k N s) (b := i.*2) : (b < kf)%N ->
  [/\ [|| b + 2 < kf, kf %% 2 == 0 | rs]%N = (b + 1 < k)%N,
      ((b + 2 < kf)%N || rs && (kf %% 2 == 0)%N) = (b + 2 < k)%N &
      ((b + 2 < kf)%N && [|| b + 4 < kf, kf %% 2 == 0 | rs]%N) = (b + 3 < k)%N].
Proof.
rewrite /k /sss_k -/rs -/kf /b => h; rewrite !modn2; have ke := odd_double_half kf; move: ke.
by case: rs; case: (odd kf) => /= ke; split; lia.
Qed.

Lemma blkE b x : (b * s <= x < b.+1 * s)%N -> (x %/ s = b)%N.
Proof. by move=> h; apply/eqP; rewrite eqn_leq leq_divRL // -ltnS ltn_divLR //; lia. Qed.

End Blocks.

Section Gemm.
Variable F : fieldType.

Lemma gemmW i0 j0 m n K al (A T : grid F) be (C : grid F) x c :
  at_ i0 j0 (fgemm NoTrans NoTrans m n K al A T be) C x c =
  if [&& (i0 <= x < i0 + m)%N & (j0 <= c < j0 + n)%N] then
    al * rsum K (fun l => A (x - i0)%N l * T l (c - j0)%N) + be * C x c else C x c.
Proof.
rewrite /at_ fgemmE /sub; case: (leqP i0 x) => h1 /=; last by [].
case: (leqP j0 c) => h2 /=; last by rewrite andbF.
have -> : (x - i0 < m)%N = (x < i0 + m)%N by lia.
have -> : (c - j0 < n)%N = (c < j0 + n)%N by lia.
by rewrite !subnKC.
Qed.

End Gemm.

Section Low.
Variables (F : fieldType) (N t s : nat) (alpha : F).
Implicit Types A B C D P Q R U V W T : grid F.
Hypothesis s0 : (0 < s)%N.
Hypothesis N0 : (0 < N)%N.
Let k := sss_k N s.
Let ls := sss_ls N s.
Let kE : ((k - 1) * s + ls = N)%N. Proof. by have [] := sss_kls s0 N0. Qed.
Let k0 : (0 < k)%N. Proof. by have [] := sss_kls s0 N0. Qed.
Let lsb : (0 < ls <= s)%N. Proof. by have [] := sss_kls s0 N0. Qed.

Variables (P Q R B : grid F).

(** alpha (Q_b B_b + R_b Q_{b-1} B_{b-1} + ...) *)
Fixpoint Xg (b l c : nat) : F :=
  alpha * rsum s (fun m => Q (b * s + l)%N m * B (b * s + m)%N c) +
  (if b is b'.+1 then rsum s (fun m => R (b' * s + l)%N m * Xg b' m c) else 0).

Definition lowinv (C1 : grid F) i (st : sss_state F) :=
  [/\ forall x c, ssC st x c = C1 x c + (if [&& s <= x, x < N, x < i.*2.+1 * s & c < t]%N
        then rsum s (fun l => P (x - s)%N l * Xg (x %/ s).-1 l c) else 0),
      (i.*2.+1 < k)%N -> forall l c, (l < s)%N -> (c < t)%N -> ssT1 st l c = Xg i.*2 l c &
      (i.*2.+1 < k)%N -> ssbs st = s].

Lemma low_step C1 i st : (i.*2 < N %/ s)%N -> lowinv C1 i st -> lowinv C1 i.+1 (sss_low_step N t s alpha P Q R B i st).
Proof.
move=> hi; case: st => C T1 T2 bs [/= hC hT hbs].
rewrite /sss_low_step; have [-> -> ->] := kcond s0 hi; rewrite -/k -/ls.
rewrite /lowinv !doubleS; set b := i.*2 in hi hC hT hbs *.
have bsE : (b.+1 < k)%N -> (if b + 2 == k then ls else bs)%N = (if b + 2 == k then ls else s)%N by move/hbs->.
(* step a *)
set C2 := if (b + 1 < k)%N then _ else _.
have hC2 x c : C2 x c = C1 x c + (if [&& s <= x, x < N, x < b.+2 * s & c < t]%N
        then rsum s (fun l => P (x - s)%N l * Xg (x %/ s).-1 l c) else 0).
  rewrite /C2; case: (leqP k (b + 1)) => kb.
    rewrite hC; congr (_ + _).
    have -> // : [&& s <= x, x < N, x < b.+1 * s & c < t]%N = [&& s <= x, x < N, x < b.+2 * s & c < t]%N.
    by case: (c < t)%N; rewrite ?andbF // !andbT; nia.
  rewrite gemmW bsE; last by lia.
  have w : ((b + 1) * s <= x < (b + 1) * s + (if b + 2 == k then ls else s))%N = ((b + 1) * s <= x < b.+2 * s)%N && (x < N)%N.
    by case: eqP => e; [have e1 : (k - 1 = b + 1)%N by lia | have e1 : (b + 2 <= k - 1)%N by lia]; nia.
  rewrite w hC leq0n add0n /=; case: (ltnP c t) => ct; rewrite !(andbF, andbT) //=.
  case: ifP => [h|h].
  - rewrite [X in _ + _ * (_ + X)](_ : _ = 0) ?addr0; last by rewrite ifF //; apply/negP; lia.
    rewrite ifT; last by nia.
    rewrite !mul1r addrC; congr (_ + _); apply: eq_rsum => l ll.
    rewrite /sub hT ?subn0 //; last by lia.
    have -> : (x %/ s = b.+1)%N by apply: blkE => //; lia.
    by congr (P _ _ * _); lia.
  - congr (_ + _).
    have -> // : [&& s <= x, x < N & x < b.+1 * s]%N = [&& s <= x, x < N & x < b.+2 * s]%N.
    by nia.
(* step b *)
case: (leqP k (b + 2)) => kb /=.
  rewrite ifF; last by lia.
  split=> /=; [|by lia..] => x c; rewrite hC2; congr (_ + _).
  have -> // : [&& s <= x, x < N, x < b.+2 * s & c < t]%N = [&& s <= x, x < N, x < b.+3 * s & c < t]%N.
  by case: (c < t)%N; rewrite ?andbF // !andbT; nia.
set T2' := fgemm _ _ _ _ _ 1 (sub (b * s) 0 R) _ _ _.
have hT2 l c : (l < s)%N -> (c < t)%N -> T2' l c = Xg b.+1 l c.
  move=> ll ct; rewrite /T2' !fgemmE ll ct /= mul0r addr0 !mul1r addrC; congr (_ + _); first congr (_ * _).
    by apply: eq_rsum => m mm; rewrite /sub !add0n addn1.
  by apply: eq_rsum => m mm; rewrite /sub !add0n hT //; lia.
have bsE' : (if (b + 3 == k)%N then ls else if b + 2 == k then ls else bs)%N = (if b + 3 == k then ls else s)%N.
  by case: (b + 3 =P k)%N => // _; rewrite ifF ?hbs; lia.
rewrite bsE'; split=> /=.
- move=> x c; rewrite gemmW.
  have w : ((b + 2) * s <= x < (b + 2) * s + (if b + 3 == k then ls else s))%N = ((b + 2) * s <= x < b.+3 * s)%N && (x < N)%N.
    by case: eqP => e; [have e1 : (k - 1 = b + 2)%N by lia | have e1 : (b + 3 <= k - 1)%N by lia]; nia.
  rewrite w hC2 leq0n add0n /=; case: (ltnP c t) => ct; rewrite !(andbF, andbT) //=.
  case: ifP => [h|h].
  + rewrite [X in _ + _ * (_ + X)](_ : _ = 0) ?addr0; last by rewrite ifF //; apply/negP; lia.
    rewrite ifT; last by nia.
    rewrite !mul1r addrC; congr (_ + _); apply: eq_rsum => l ll.
    rewrite /sub hT2 ?subn0 //.
    have -> : (x %/ s = b.+2)%N by apply: blkE => //; lia.
    by congr (P _ _ * _); lia.
  + congr (_ + _).
    have -> // : [&& s <= x, x < N & x < b.+2 * s]%N = [&& s <= x, x < N & x < b.+3 * s]%N.
    by nia.
- move=> h l c ll ct; rewrite ifT; last by lia.
  rewrite !fgemmE ll ct /= mul0r addr0 !mul1r addrC; congr (_ + _); first congr (_ * _).
    by apply: eq_rsum => m mm; rewrite /sub !add0n addn2.
  by apply: eq_rsum => m mm; rewrite /sub !add0n addn1 hT2 //; lia.
- by move=> h; rewrite ifF //; apply/negP; lia.
Qed.

Lemma lowE C1 T1 T2 : forall x c, ssC (sss_low N t s alpha P Q R B C1 T1 T2) x c =
  C1 x c + (if [&& s <= x, x < N & c < t]%N then rsum s (fun l => P (x - s)%N l * Xg (x %/ s).-1 l c) else 0).
Proof.
have inv i st : (i <= uphalf (N %/ s))%N -> lowinv C1 0 st -> lowinv C1 i (iteri i (sss_low_step N t s alpha P Q R B) st).
  move=> + h; elim: i => // i IH hi; apply: low_step; last by apply: IH; lia.
  by have := leq_uphalf_double i (N %/ s); lia.
rewrite /sss_low; set st := Sss _ _ _ _.
have h0 : lowinv C1 0 st.
  split=> /=; last by [].
  - by move=> x c; rewrite ifF ?addr0 //; apply/negP; lia.
  - move=> h l c ll ct; rewrite -/k h fgemmE ll ct /= mul0r !addr0; congr (_ * _).
have [h _ _] := inv _ _ (leqnn _) h0; move=> x c; rewrite h; congr (_ + _).
have -> // : [&& s <= x, x < N, x < (uphalf (N %/ s)).*2.+1 * s & c < t]%N = [&& s <= x, x < N & c < t]%N.
case: (ltnP x N) => xN; rewrite ?andbF //=.
have -> // : (x < (uphalf (N %/ s)).*2.+1 * s)%N.
have e := divn_eq N s; have r := ltn_mod N s; rewrite s0 in r.
have : (N %/ s <= (uphalf (N %/ s)).*2)%N by rewrite uphalf_half; have := odd_double_half (N %/ s)%N; lia.
by nia.
Qed.

End Low.

Section Up.
Variables (F : fieldType) (N t s : nat) (alpha : F).
Hypothesis s0 : (0 < s)%N.
Hypothesis N0 : (0 < N)%N.
Let k := sss_k N s.
Let ls := sss_ls N s.
Let kE : ((k - 1) * s + ls = N)%N. Proof. by have [] := sss_kls s0 N0. Qed.
Let k0 : (0 < k)%N. Proof. by have [] := sss_kls s0 N0. Qed.
Let lsb : (0 < ls <= s)%N. Proof. by have [] := sss_kls s0 N0. Qed.
Variables (U V W B : grid F).

(** alpha (V_b B_b + W_b V_{b+1} B_{b+1} + ...), b = k - 1 - d *)
Fixpoint Yg (d l c : nat) : F :=
  if d is d'.+1 then
    alpha * rsum s (fun m => V ((k - 3 - d') * s + l)%N m * B ((k - 2 - d') * s + m)%N c) +
    rsum s (fun m => W ((k - 3 - d') * s + l)%N m * Yg d' m c)
  else alpha * rsum ls (fun m => V ((k - 2) * s + l)%N m * B ((k - 1) * s + m)%N c).

Definition upinv (C1 : grid F) i (st : sss_state F) :=
  (forall x c, ssC st x c = C1 x c + (if [&& (k - 1 - i.*2) * s <= x, x < (k - 1) * s & c < t]%N
        then rsum s (fun l => U x l * Yg (k - 2 - x %/ s) l c) else 0)) /\
  ((i.*2.+1 < k)%N -> forall l c, (l < s)%N -> (c < t)%N -> ssT1 st l c = Yg i.*2 l c).

(** Adding U_b times the block row [T] to C. *)
Lemma up_add d C1 C T : (d.+1 < k)%N ->
  (forall x c, C x c = C1 x c + (if [&& (k - 1 - d) * s <= x, x < (k - 1) * s & c < t]%N
        then rsum s (fun l => U x l * Yg (k - 2 - x %/ s) l c) else 0)) ->
  (forall l c, (l < s)%N -> (c < t)%N -> T l c = Yg d l c) ->
  forall x c, at_ ((k - 2 - d) * s) 0 (fgemm NoTrans NoTrans s t s 1 (sub ((k - 2 - d) * s) 0 U) T 1) C x c =
    C1 x c + (if [&& (k - 1 - d.+1) * s <= x, x < (k - 1) * s & c < t]%N
        then rsum s (fun l => U x l * Yg (k - 2 - x %/ s) l c) else 0).
Proof.
move=> hd hC hT x c; rewrite gemmW hC leq0n add0n /=; case: (ltnP c t) => ct; rewrite !(andbF, andbT) //=.
have -> : (k - 1 - d.+1 = k - 2 - d)%N by lia.
have e : ((k - 1 - d) * s = (k - 2 - d) * s + s)%N by rewrite -mulSnr; congr (_ * _)%N; lia.
have m : ((k - 1 - d) * s <= (k - 1) * s)%N by rewrite leq_mul2r; lia.
case: ifP => [h|h].
- rewrite [X in _ + _ * (_ + X)](_ : _ = 0) ?addr0; last by rewrite ifF //; apply/negP; lia.
  rewrite ifT; last by lia.
  rewrite !mul1r addrC; congr (_ + _); apply: eq_rsum => l ll.
  rewrite /sub hT ?subn0 //.
  have -> : (x %/ s = k - 2 - d)%N by apply: blkE => //; rewrite mulSnr; lia.
  by congr (U _ _ * Yg _ _ _); lia.
- congr (_ + _).
  have -> // : ((k - 1 - d) * s <= x < (k - 1) * s)%N = ((k - 2 - d) * s <= x < (k - 1) * s)%N by lia.
Qed.

Lemma Yg_S d T1 T2 : (d.+2 < k)%N -> (forall l c, (l < s)%N -> (c < t)%N -> T1 l c = Yg d l c) ->
  forall l c, (l < s)%N -> (c < t)%N ->
  fgemm NoTrans NoTrans s t s 1 (sub ((k - 3 - d) * s) 0 W) T1 1
    (fgemm NoTrans NoTrans s t s alpha (sub ((k - 3 - d) * s) 0 V) (sub ((k - 2 - d) * s) 0 B) 0 T2) l c = Yg d.+1 l c.
Proof.
move=> hd hT l c ll ct; rewrite !fgemmE ll ct /= mul0r addr0 !mul1r addrC; congr (_ + _).
by apply: eq_rsum => m mm; rewrite hT.
Qed.

Lemma up_step C1 i st : (i.*2.+2 < k)%N -> upinv C1 i st -> upinv C1 i.+1 (sss_up_step N t s alpha U V W B i st).
Proof.
move=> hi; case: st => C T1 T2 bs [/= hC hT].
rewrite /sss_up_step -/k /upinv !doubleS; set b := i.*2 in hi hC hT *.
have cE : ((b + 4 < k) || odd (k - 1))%N = (b.+3 < k)%N.
  have ob : odd b = false by rewrite /b odd_double.
  case: (ltnP b.+3 k) => h; last first.
    have ke : k = b.+3 by lia.
    by rewrite ke subn1 /= ob addn4 ltnNge leqW.
  case: (ltnP (b + 4) k) => h4 //=.
  have -> : (k - 1 = b.+3)%N by lia.
  by rewrite /= ob.
have b1 : (b.+1 < k)%N by lia.
have hC' := up_add b1 hC (hT b1).
have hT2 := Yg_S T2 hi (hT b1).
move: hT2; set T2' := fgemm _ _ _ _ _ 1 _ _ _ _ => hT2.
have e3 : (k - 3 - b = k - 2 - b.+1)%N by lia.
have e4 : (k - 4 - b = k - 3 - b.+1)%N by lia.
rewrite cE; split; first by rewrite e3; apply: up_add hC' hT2.
by move=> h; rewrite [ssT1 _]/ssT1 h e4 e3; apply: Yg_S.
Qed.

Lemma upE st : (s <= N)%N -> exists C, sss_up N t s alpha U V W B st = Some C /\
  forall x c, C x c = ssC st x c + (if (x < (k - 1) * s)%N && (c < t)%N
    then rsum s (fun l => U x l * Yg (k - 2 - x %/ s) l c) else 0).
Proof.
move=> sN; case: st => C1 T1 T2 bs; rewrite /sss_up -/k -/ls /=.
have kf : (0 < N %/ s)%N by rewrite divn_gt0.
have c1 : ((1 < N %/ s) || (N %% s != 0))%N = (1 < k)%N.
  by rewrite /k /sss_k; case: (N %% s != 0)%N; rewrite ?orbT ?orbF ?ltnS.
rewrite c1 ifF; last by apply/negP; lia.
eexists; split; first by [].
set st := Sss _ _ _ _.
have h0 : upinv C1 0 st.
  split=> /=; first by move=> x c; rewrite ifF ?addr0 //; apply/negP; lia.
  by move=> h l c ll ct; rewrite h fgemmE ll ct /= mul0r addr0.
have inv i : (i <= uphalf (k - 2))%N -> upinv C1 i (iteri i (sss_up_step N t s alpha U V W B) st).
  elim: i => // i IH hi; apply: up_step; last by apply: IH; lia.
  by have := leq_uphalf_double i (k - 2); lia.
have [] := inv _ (leqnn _); set st' := iteri _ _ _; set n := uphalf _.
have nE : (n.*2 = (k - 2) + odd (k - 2))%N by rewrite /n uphalf_half; have := odd_double_half (k - 2); lia.
have k1S : (1 < k)%N -> (k - 1 = (k - 2).+1)%N by lia.
case: (boolP (odd (k - 1))) => ok hC hT.
- have k2 : (1 < k)%N by move: ok; case: (k) k0 => [|[|]].
  have od : odd (k - 2) = false by move: ok; rewrite k1S /=; case: odd.
  rewrite od addn0 in nE; rewrite nE in hC hT.
  have lt : ((k - 2).+1 < k)%N by lia.
  move=> x c; have := up_add lt hC (hT lt) x c; rewrite subnn mul0n.
  rewrite /at_ /sub /= !subn0 => ->; congr (_ + _).
  by have -> : (k - 1 - (k - 2).+1 = 0)%N by lia.
- move=> x c; rewrite hC; congr (_ + _).
  have -> // : (k - 1 - n.*2 = 0)%N.
  rewrite nE; have [k1|k1] := leqP k 1; first by lia.
  have : odd (k - 2) by move: ok; rewrite k1S //= negbK.
  by move->; lia.
Qed.

End Up.
