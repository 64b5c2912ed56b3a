(** * Proofs about ftrmm *)
From mathcomp Require Import all_ssreflect all_algebra zify ring.
From Verif Require Import Grid Perm_model Perm_spec Tri_model Tri_spec Tri_proofs.
Set Implicit Arguments.
Unset Strict Implicit.
Unset Printing Implicit Defensive.
Import GRing.Theory.
Local Open Scope ring_scope.

Section Trmm.
Variable F : fieldType.
Implicit Types (T A B C X : grid F).

(** The last [up] rows hold the product restricted to the last [up] columns
    (plus be*c), the others are untouched. *)
Definition mm_lo (up M : nat) T (be : F) (b c x : nat -> F) :=
  forall r, (r < M)%N -> x r = if (M - up <= r)%N then
    rsum up (fun k => T r (M - up + k)%N * b (M - up + k)%N) + be * c r else c r.
Definition mm_up (up M : nat) T (be : F) (b c x : nat -> F) :=
  forall r, (r < M)%N -> x r = if (r < up)%N then
    rsum up (fun k => T r k * b k) + be * c r else c r.

Lemma mm_lo_step up n M T be b c x x1 x2 :
  let o := (M - (up + n))%N in
  (up + n <= M)%N -> (forall i k, (i < k < M)%N -> T i k = 0) ->
  mm_lo up M T be b c x ->
  (forall r, (r < M)%N -> x1 r = if (o + n <= r)%N then x r + rsum n (fun k => T r (o + k)%N * b (o + k)%N) else x r) ->
  (forall r, (r < M)%N -> ~~ (o <= r < o + n)%N -> x2 r = x1 r) ->
  (forall r, (r < n)%N -> x2 (o + r)%N = rsum n (fun k => T (o + r)%N (o + k)%N * b (o + k)%N) + be * x1 (o + r)%N) ->
  mm_lo (up + n) M T be b c x2.
Proof.
move=> o le T0 I E1 E2 S r rM; rewrite -/o.
have Mo : (M - up = o + n)%N by rewrite /o; lia.
have sp g : rsum (up + n) g = rsum n g + rsum up (fun k => g (n + k)%N) by rewrite addnC rsum_cat.
case: ifP => ro; last first.
  rewrite E2 ?E1; [|lia..]; rewrite ifN; last lia.
  by rewrite I // ifN //; lia.
rewrite sp; case: (leqP (o + n) r) => r2.
  rewrite E2 ?E1; [|lia..]; rewrite r2 I // ifT; last lia.
  rewrite addrC addrA; congr (_ + _ + _); apply: eq_rsum => k _.
  by rewrite Mo !addnA.
have {1}-> : r = (o + (r - o))%N by lia.
rewrite S ?E1; [|lia..]; rewrite ifN ?I; [|lia..]; rewrite ifN; last lia.
rewrite [X in _ + X + _]rsum0 ?addr0; last by move=> k kM; rewrite T0 ?mul0r //; lia.
by rewrite subnKC.
Qed.

Lemma mm_up_step up n M T be b c x x1 x2 :
  (up + n <= M)%N -> (forall i k, (k < i < M)%N -> T i k = 0) ->
  mm_up up M T be b c x ->
  (forall r, (r < M)%N -> x1 r = if (r < up)%N then x r + rsum n (fun k => T r (up + k)%N * b (up + k)%N) else x r) ->
  (forall r, (r < M)%N -> ~~ (up <= r < up + n)%N -> x2 r = x1 r) ->
  (forall r, (r < n)%N -> x2 (up + r)%N = rsum n (fun k => T (up + r)%N (up + k)%N * b (up + k)%N) + be * x1 (up + r)%N) ->
  mm_up (up + n) M T be b c x2.
Proof.
move=> le T0 I E1 E2 S r rM; rewrite rsum_cat.
case: ifP => ro; last first.
  rewrite E2 ?E1; [|lia..]; rewrite ifN; last lia.
  by rewrite I // ifN //; lia.
case: (ltnP r up) => r2.
  by rewrite E2 ?E1; [|lia..]; rewrite r2 I // r2 addrAC.
have {1}-> : r = (up + (r - up))%N by lia.
rewrite S ?E1; [|lia..]; rewrite ifN ?I; [|lia..]; rewrite ifN; last lia.
rewrite [X in _ = X + _ + _]rsum0 ?add0r; last by move=> k kM; rewrite T0 ?mul0r //; lia.
by rewrite subnKC.
Qed.

(** X = op(T)*B + be*C on the window, equal to C elsewhere. *)
Definition mult (s : side) u t d (be : F) (M N : nat) A B C X : Prop :=
  frame M N X C /\
  match s with
  | SLeft => forall i j, (i < M)%N -> (j < N)%N -> X i j = rsum M (fun k => triop u t d A i k * B k j) + be * C i j
  | SRight => forall i j, (i < M)%N -> (j < N)%N -> X i j = rsum N (fun k => triop u t d A k j * B i k) + be * C i j
  end.

Definition invm (s : side) u t d (be : F) (up M N : nat) A B C X : Prop :=
  frame M N X C /\
  match s, eff_lower u t with
  | SLeft, true => forall j, (j < N)%N -> mm_lo up M (triop u t d A) be (B^~ j) (C^~ j) (X^~ j)
  | SLeft, false => forall j, (j < N)%N -> mm_up up M (triop u t d A) be (B^~ j) (C^~ j) (X^~ j)
  | SRight, false => forall i, (i < M)%N -> mm_lo up N (tr (triop u t d A)) be (B i) (C i) (X i)
  | SRight, true => forall i, (i < M)%N -> mm_up up N (tr (triop u t d A)) be (B i) (C i) (X i)
  end.

Lemma invm_mult s u t d be M N A B C X :
  invm s u t d be (if s is SLeft then M else N) M N A B C X -> mult s u t d be M N A B C X.
Proof.
move=> [fr H]; split=> //.
case: s H; case: eff_lower => H i j iM jN.
- by rewrite (H j jN i iM) subnn.
- by rewrite (H j jN i iM) iM.
- by rewrite (H i iM j jN) jN.
- by rewrite (H i iM j jN) subnn.
Qed.

Lemma mult_ext s u t d be M N A B B' C X :
  (forall i j, (i < M)%N -> (j < N)%N -> B i j = B' i j) ->
  mult s u t d be M N A B C X -> mult s u t d be M N A B' C X.
Proof.
move=> EB [fr S]; split=> //; case: s S => S i j iM jN; rewrite S //; congr (_ + _).
all: by apply: eq_rsum => k kM; rewrite EB.
Qed.

Lemma LL_stepm u t d be up n M N A B C X Bs slv : eff_lower u t -> (up + n <= M)%N ->
  let o := (M - (up + n))%N in
  invm SLeft u t d be up M N A B C X ->
  (forall k j, (k < n)%N -> (j < N)%N -> Bs k j = B (o + k)%N j) ->
  let X1 := at_ (o + n) 0 (fgemm t NoTrans up N n 1 (subop t n 0 (sub o o A)) Bs 1) X in
  mult SLeft u t d be n N (sub o o A) (sub o 0 B) (sub o 0 X1) (slv (sub o 0 X1)) ->
  invm SLeft u t d be (up + n) M N A B C (at_ o 0 slv X1).
Proof.
move=> lo le o [fr I] EB X1 [fr1 S1]; rewrite /invm lo in I *.
have Mo : (o + n + up = M)%N by rewrite /o; lia.
have fX1 : frame M N X1 C.
  by apply: (frame_sub (c := up) (e := N)) => // [|i j ij]; [lia|rewrite fgemmE (negbTE ij)].
split; first by apply: frame_sub fX1 fr1; lia.
move=> j jN; apply: (@mm_lo_step up n M _ be _ _ _ (X1^~ j)) (I j jN) _ _ _ => //; rewrite -/o //.
- by move=> i k ik; apply: triop_lo0 => //; lia.
- move=> r rM; rewrite /X1 /at_ andbT; case: ifP => // oi; rewrite fgemmE ifT; last lia.
  rewrite mul1r mul1r /sub subn0 !subnKC // addrC; congr (_ + _); apply: eq_rsum => k kn.
  rewrite optr_subop /= EB // optr_sub triop_lo; [|done|lia]; congr (optr _ _ _ _ * _); lia.
- move=> r rM ro; rewrite {1}/at_; case: ifP => // oi; rewrite fr1 /sub ?subnKC //; lia.
- move=> r rn; rewrite -{1}[j]add0n at_in S1 //; congr (_ + _); apply: eq_rsum => k kn.
  by rewrite triop_sub.
Qed.

Lemma RU_stepm u t d be up n M N A B C X Bs slv : ~~ eff_lower u t -> (up + n <= N)%N ->
  let o := (N - (up + n))%N in
  invm SRight u t d be up M N A B C X ->
  (forall i k, (i < M)%N -> (k < n)%N -> Bs i k = B i (o + k)%N) ->
  let X1 := at_ 0 (o + n) (fgemm NoTrans t M up n 1 Bs (subop t 0 n (sub o o A)) 1) X in
  mult SRight u t d be M n (sub o o A) (sub 0 o B) (sub 0 o X1) (slv (sub 0 o X1)) ->
  invm SRight u t d be (up + n) M N A B C (at_ 0 o slv X1).
Proof.
move=> lo le o [fr I] EB X1 [fr1 S1]; rewrite /invm (negbTE lo) in I *.
have Mo : (o + n + up = N)%N by rewrite /o; lia.
have fX1 : frame M N X1 C.
  by apply: (frame_sub (c := M) (e := up)) => // [|i j ij]; [lia|rewrite fgemmE (negbTE ij)].
split; first by apply: frame_sub fX1 fr1; lia.
move=> i iM; apply: (@mm_lo_step up n N _ be _ _ _ (X1 i)) (I i iM) _ _ _ => //; rewrite -/o //.
- by move=> j k jk; apply: triop_up0 => //; lia.
- move=> r rM; rewrite /X1 /at_ /=; case: ifP => // oi; rewrite fgemmE ifT; last lia.
  rewrite mul1r mul1r /sub subn0 !subnKC // addrC; congr (_ + _); apply: eq_rsum => k kn.
  rewrite optr_subop /= EB // optr_sub /tr triop_up; [|done|lia]; rewrite mulrC; congr (optr _ _ _ _ * _); lia.
- move=> r rM ro; rewrite {1}/at_; case: ifP => // oi; rewrite fr1 /sub ?subnKC //; lia.
- move=> r rn; rewrite -{1}[i]add0n at_in S1 //; congr (_ + _); apply: eq_rsum => k kn.
  by rewrite triop_sub.
Qed.

Lemma LU_stepm u t d be up n M N A B C X Bs slv : ~~ eff_lower u t -> (up + n <= M)%N ->
  invm SLeft u t d be up M N A B C X ->
  (forall k j, (k < n)%N -> (j < N)%N -> Bs k j = B (up + k)%N j) ->
  let X1 := fgemm t NoTrans up N n 1 (subop t 0 up A) Bs 1 X in
  mult SLeft u t d be n N (sub up up A) (sub up 0 B) (sub up 0 X1) (slv (sub up 0 X1)) ->
  invm SLeft u t d be (up + n) M N A B C (at_ up 0 slv X1).
Proof.
move=> lo le [fr I] EB X1 [fr1 S1]; rewrite /invm (negbTE lo) in I *.
have fX1 : frame M N X1 C by move=> i j ij; rewrite /X1 fgemmE ifN ?fr //; lia.
split; first by apply: frame_sub fX1 fr1; lia.
move=> j jN; apply: (@mm_up_step up n M _ be _ _ _ (X1^~ j)) (I j jN) _ _ _ => //.
- by move=> i k ik; apply: triop_up0 => //; lia.
- move=> r rM; rewrite /X1 fgemmE jN andbT; case: ifP => // oi.
  rewrite mul1r mul1r addrC; congr (_ + _); apply: eq_rsum => k kn.
  rewrite optr_subop /= EB // triop_up; [|done|lia]; congr (optr _ _ _ _ * _); lia.
- move=> r rM ro; rewrite {1}/at_; case: ifP => // oi; rewrite fr1 /sub ?subnKC //; lia.
- move=> r rn; rewrite -{1}[j]add0n at_in S1 //; congr (_ + _); apply: eq_rsum => k kn.
  by rewrite triop_sub.
Qed.

Lemma RL_stepm u t d be up n M N A B C X Bs slv : eff_lower u t -> (up + n <= N)%N ->
  invm SRight u t d be up M N A B C X ->
  (forall i k, (i < M)%N -> (k < n)%N -> Bs i k = B i (up + k)%N) ->
  let X1 := fgemm NoTrans t M up n 1 Bs (subop t up 0 A) 1 X in
  mult SRight u t d be M n (sub up up A) (sub 0 up B) (sub 0 up X1) (slv (sub 0 up X1)) ->
  invm SRight u t d be (up + n) M N A B C (at_ 0 up slv X1).
Proof.
move=> lo le [fr I] EB X1 [fr1 S1]; rewrite /invm lo in I *.
have fX1 : frame M N X1 C by move=> i j ij; rewrite /X1 fgemmE ifN ?fr //; lia.
split; first by apply: frame_sub fX1 fr1; lia.
move=> i iM; apply: (@mm_up_step up n N _ be _ _ _ (X1 i)) (I i iM) _ _ _ => //.
- by move=> j k jk; apply: triop_lo0 => //; lia.
- move=> r rM; rewrite /X1 fgemmE iM andTb; case: ifP => // oi.
  rewrite mul1r mul1r addrC; congr (_ + _); apply: eq_rsum => k kn.
  rewrite optr_subop /= EB // /tr triop_lo; [|done|lia]; rewrite mulrC; congr (optr _ _ _ _ * _); lia.
- move=> r rM ro; rewrite {1}/at_; case: ifP => // oi; rewrite fr1 /sub ?subnKC //; lia.
- move=> r rn; rewrite -{1}[i]add0n at_in S1 //; congr (_ + _); apply: eq_rsum => k kn.
  by rewrite triop_sub.
Qed.

(** The first block. *)
Lemma LL_firstm u t d be o up M N A B C slv : eff_lower u t -> (o + up = M)%N ->
  mult SLeft u t d be up N (sub o o A) (sub o 0 B) (sub o 0 C) (slv (sub o 0 C)) ->
  invm SLeft u t d be up M N A B C (at_ o 0 slv C).
Proof.
move=> lo le [fr S]; split; first by apply: (frame_sub _ _ _ fr) => //; lia.
have oE : (M - up = o)%N by lia.
rewrite lo => j jN r rM; rewrite oE /at_ andbT; case: ifP => // ro; rewrite subn0 S; [|lia..].
rewrite /sub subnKC //; congr (_ + _); apply: eq_rsum => k ku; rewrite triop_sub subnKC //.
Qed.

Lemma RU_firstm u t d be o up M N A B C slv : ~~ eff_lower u t -> (o + up = N)%N ->
  mult SRight u t d be M up (sub o o A) (sub 0 o B) (sub 0 o C) (slv (sub 0 o C)) ->
  invm SRight u t d be up M N A B C (at_ 0 o slv C).
Proof.
move=> lo le [fr S]; split; first by apply: (frame_sub _ _ _ fr) => //; lia.
have oE : (N - up = o)%N by lia.
rewrite (negbTE lo) => i iM r rN; rewrite oE /at_ /=; case: ifP => // ro; rewrite subn0 S; [|lia..].
rewrite /sub subnKC //; congr (_ + _); apply: eq_rsum => k ku; rewrite triop_sub subnKC //.
Qed.

Lemma LU_firstm u t d be up M N A B C X : ~~ eff_lower u t -> (up <= M)%N ->
  mult SLeft u t d be up N A B C X -> invm SLeft u t d be up M N A B C X.
Proof.
move=> lo le [fr S]; split; first by move=> i j ij; apply: fr; lia.
rewrite (negbTE lo) => j jN r rM; case: ifP => ro; first by rewrite S.
by apply: fr; rewrite ro.
Qed.

Lemma RL_firstm u t d be up M N A B C X : eff_lower u t -> (up <= N)%N ->
  mult SRight u t d be M up A B C X -> invm SRight u t d be up M N A B C X.
Proof.
move=> lo le [fr S]; split; first by move=> i j ij; apply: fr; lia.
rewrite lo => i iM r rM; case: ifP => ro; first by rewrite S.
by apply: fr; rewrite ro andbF.
Qed.

Lemma ext_mult s u t d be M N A B C X X' : X =2 X' ->
  mult s u t d be M N A B C X -> mult s u t d be M N A B C X'.
Proof.
move=> EX [fr S]; split; first by move=> i j ij; rewrite -EX fr.
by case: s S => S i j iM jN; rewrite -EX S.
Qed.

(** The last block, at the origin. *)
Lemma LL_lastm u t d be up n M N A B C X Bs X2 : eff_lower u t -> (up + n = M)%N ->
  invm SLeft u t d be up M N A B C X ->
  (forall k j, (k < n)%N -> (j < N)%N -> Bs k j = B k j) ->
  mult SLeft u t d be n N A B (at_ n 0 (fgemm t NoTrans up N n 1 (subop t n 0 A) Bs 1) X) X2 ->
  mult SLeft u t d be M N A B C X2.
Proof.
move=> lo le I EB S; apply: (ext_mult (X := at_ 0 0 (fun=> X2) (at_ n 0 (fgemm t NoTrans up N n 1 (subop t n 0 A) Bs 1) X))).
  by move=> i j; rewrite at00.
have o0 : (M - (up + n) = 0)%N by lia.
have := @LL_stepm u t d be up n M N A B C X Bs (fun=> X2) lo; rewrite o0 le => /(_ (leqnn _) I EB S) H.
exact: invm_mult.
Qed.

Lemma RU_lastm u t d be up n M N A B C X Bs X2 : ~~ eff_lower u t -> (up + n = N)%N ->
  invm SRight u t d be up M N A B C X ->
  (forall i k, (i < M)%N -> (k < n)%N -> Bs i k = B i k) ->
  mult SRight u t d be M n A B (at_ 0 n (fgemm NoTrans t M up n 1 Bs (subop t 0 n A) 1) X) X2 ->
  mult SRight u t d be M N A B C X2.
Proof.
move=> lo le I EB S; apply: (ext_mult (X := at_ 0 0 (fun=> X2) (at_ 0 n (fgemm NoTrans t M up n 1 Bs (subop t 0 n A) 1) X))).
  by move=> i j; rewrite at00.
have o0 : (N - (up + n) = 0)%N by lia.
have := @RU_stepm u t d be up n M N A B C X Bs (fun=> X2) lo; rewrite o0 le => /(_ (leqnn _) I EB S) H.
exact: invm_mult.
Qed.

Lemma mult1 s u t d M N A B : (if s is SLeft then M else N) = 1%N ->
  mult s u t d 0 M N A B B (if d is NonUnit then fscalin M N (A 0%N 0%N) B else B).
Proof.
move=> N1; have D : triop u t d A 0%N 0%N = if d is Unit then 1 else A 0%N 0%N by rewrite triop_diag.
split; first by case: (d) => // i j ij; rewrite fscalinE (negbTE ij).
case: s N1 => -> i j Hi Hj; rewrite /= add0r mul0r addr0.
- have {Hi}-> : i = 0%N by lia.
  by rewrite D; case: (d); rewrite ?fscalinE ?Hj ?mul1r.
- have {Hj}-> : j = 0%N by lia.
  by rewrite D; case: (d); rewrite ?fscalinE ?Hi ?mul1r.
Qed.

Lemma ftrmm_rec_ok n s u t d M N A B :
  (0 < (if s is SLeft then M else N) <= n)%N ->
  mult s u t d 0 M N A B B (ftrmm_rec n s u t d M N A B).
Proof.
elim: n s M N A B => [|n IH] s M N A B; first by case: s; lia.
move=> Hn /=; case: eqP => N1; first exact: mult1.
case: s Hn N1 => Hn N1; case E: eff_lower => /=.
- set a := M./2; have Ha : (0 < a < M)%N by rewrite /a; lia.
  have I : invm SLeft u t d 0 (M - a) M N A B B (at_ a 0 (ftrmm_rec n SLeft u t d (M - a) N (sub a a A)) B).
    by apply: LL_firstm => //; [lia|apply: IH; lia].
  have low X j k : invm SLeft u t d 0 (M - a) M N A B B X -> (j < N)%N -> (k < a)%N -> X k j = B k j.
    by rewrite /invm E => -[_ H] jN ka; rewrite (H j jN) ?ifN //; lia.
  apply: (LL_lastm (up := M - a) (n := a) E _ I); first lia.
    by move=> k j ka jN; exact: (low _ _ _ I).
  apply: (mult_ext (B := at_ a 0 (fgemm t NoTrans (M - a) N a 1 (subop t a 0 A) (at_ a 0 (ftrmm_rec n SLeft u t d (M - a) N (sub a a A)) B) 1) (at_ a 0 (ftrmm_rec n SLeft u t d (M - a) N (sub a a A)) B))).
    by move=> i j ia jN; rewrite at_out ?ia // (low _ _ _ I).
  by apply: IH; lia.
- set a := M./2; have Ha : (0 < a < M)%N by rewrite /a; lia.
  have I : invm SLeft u t d 0 (M - a) M N A B B (ftrmm_rec n SLeft u t d (M - a) N A B).
    by apply: LU_firstm; rewrite ?E //; [lia|apply: IH; lia].
  have hi X j k : invm SLeft u t d 0 (M - a) M N A B B X -> (j < N)%N -> (k < a)%N -> X (M - a + k)%N j = B (M - a + k)%N j.
    by rewrite /invm E => -[_ H] jN ka; rewrite (H j jN) ?ifN //; lia.
  apply: invm_mult; have := @LU_stepm u t d 0 (M - a) a M N A B B _ (sub (M - a) 0 (ftrmm_rec n SLeft u t d (M - a) N A B)) (ftrmm_rec n SLeft u t d a N (sub (M - a) (M - a) A)) _ _ I.
  have -> : (M - a + a = M)%N by lia.
  rewrite E; apply=> //; first by move=> k j ka jN; exact: (hi _ _ _ I).
  apply: mult_ext; last by apply: IH; lia.
  by move=> i j ia jN; rewrite /sub fgemmE ifN; [exact: (hi _ _ _ I)|lia].
- set a := N./2; have Ha : (0 < a < N)%N by rewrite /a; lia.
  have I : invm SRight u t d 0 (N - a) M N A B B (ftrmm_rec n SRight u t d M (N - a) A B).
    by apply: RL_firstm; rewrite ?E //; [lia|apply: IH; lia].
  have hi X i k : invm SRight u t d 0 (N - a) M N A B B X -> (i < M)%N -> (k < a)%N -> X i (N - a + k)%N = B i (N - a + k)%N.
    by rewrite /invm E => -[_ H] jN ka; rewrite (H i jN) ?ifN //; lia.
  apply: invm_mult; have := @RL_stepm u t d 0 (N - a) a M N A B B _ (sub 0 (N - a) (ftrmm_rec n SRight u t d M (N - a) A B)) (ftrmm_rec n SRight u t d M a (sub (N - a) (N - a) A)) _ _ I.
  have -> : (N - a + a = N)%N by lia.
  rewrite E; apply=> //; first by move=> i k iM ka; exact: (hi _ _ _ I).
  apply: mult_ext; last by apply: IH; lia.
  by move=> i j ia jN; rewrite /sub fgemmE ifN; [exact: (hi _ _ _ I)|lia].
- set a := N./2; have Ha : (0 < a < N)%N by rewrite /a; lia.
  have I : invm SRight u t d 0 (N - a) M N A B B (at_ 0 a (ftrmm_rec n SRight u t d M (N - a) (sub a a A)) B).
    by apply: RU_firstm; rewrite ?E //; [lia|apply: IH; lia].
  have low X i k : invm SRight u t d 0 (N - a) M N A B B X -> (i < M)%N -> (k < a)%N -> X i k = B i k.
    by rewrite /invm E => -[_ H] jN ka; rewrite (H i jN) ?ifN //; lia.
  apply: (RU_lastm (up := N - a) (n := a) (Bs := at_ 0 a (ftrmm_rec n SRight u t d M (N - a) (sub a a A)) B) _ _ I); rewrite ?E //; first lia.
    by move=> i k ka jN; exact: (low _ _ _ I).
  apply: (mult_ext (B := at_ 0 a (fgemm NoTrans t M (N - a) a 1 (at_ 0 a (ftrmm_rec n SRight u t d M (N - a) (sub a a A)) B) (subop t 0 a A) 1) (at_ 0 a (ftrmm_rec n SRight u t d M (N - a) (sub a a A)) B))).
    by move=> i j ia jN; rewrite at_out ?jN ?orbT // (low _ _ _ I).
  by apply: IH; lia.
Qed.

(** Three operands. *)
Lemma mult31 s u t d be M N A B C : be != 0 -> (if s is SLeft then M else N) = 1%N ->
  mult s u t d be M N A B C
    (if d is NonUnit then faxpy M N (A 0%N 0%N) B (fscalin M N be C) else faddin M N B (fscalin M N be C)).
Proof.
move=> b0 N1; have D : triop u t d A 0%N 0%N = if d is Unit then 1 else A 0%N 0%N by rewrite triop_diag.
split; first by case: (d) => // i j ij; rewrite ?faxpyE ?faddinE (negbTE ij) fscalinE (negbTE ij).
case: s N1 => -> i j Hi Hj; rewrite /= add0r.
- have {Hi}-> : i = 0%N by lia.
  by rewrite D; case: (d); rewrite ?faxpyE ?faddinE fscalinE Hj /= ?mul1r // addrC.
- have {Hj}-> : j = 0%N by lia.
  by rewrite D; case: (d); rewrite ?faxpyE ?faddinE fscalinE Hi /= ?mul1r // addrC.
Qed.

Lemma ftrmm3_rec_ok n s u t d be M N A B C : be != 0 ->
  (0 < (if s is SLeft then M else N) <= n)%N ->
  mult s u t d be M N A B C (ftrmm3_rec n s u t d M N A B be C).
Proof.
move=> b0; elim: n s M N A B C => [|n IH] s M N A B C; first by case: s; lia.
move=> Hn /=; case: eqP => N1; first by rewrite (negbTE b0); exact: mult31.
case: s Hn N1 => Hn N1; case E: eff_lower => /=.
- set a := M./2; have Ha : (0 < a < M)%N by rewrite /a; lia.
  apply: (LL_lastm (up := M - a) (n := a) (Bs := B) E) => //; [lia| |by apply: IH; lia].
  by apply: LL_firstm => //; [lia|apply: IH; lia].
- set a := M./2; have Ha : (0 < a < M)%N by rewrite /a; lia.
  have eM : (M - a + a = M)%N by lia.
  apply: invm_mult; rewrite -[X in invm _ _ _ _ _ X _ _ _ _ _ _]eM.
  apply: LU_stepm; rewrite ?E //; first lia.
    by apply: LU_firstm; rewrite ?E //; [lia|apply: IH; lia].
  by apply: IH; lia.
- set a := N./2; have Ha : (0 < a < N)%N by rewrite /a; lia.
  have eM : (N - a + a = N)%N by lia.
  apply: invm_mult; rewrite -[X in invm _ _ _ _ _ X _ _ _ _ _ _]eM.
  apply: RL_stepm; rewrite ?E //; first lia.
    by apply: RL_firstm; rewrite ?E //; [lia|apply: IH; lia].
  by apply: IH; lia.
- set a := N./2; have Ha : (0 < a < N)%N by rewrite /a; lia.
  apply: (RU_lastm (up := N - a) (n := a) (Bs := B)); rewrite ?E //; [lia| |by apply: IH; lia].
  by apply: RU_firstm => //; rewrite ?E //; [lia|apply: IH; lia].
Qed.

Lemma ftrmm3_base_ok s u t d be M N A B C : (0 < (if s is SLeft then M else N))%N ->
  mult s u t d be M N A B C (ftrmm3_base s u t d M N A B be C).
Proof.
move=> Na; rewrite /ftrmm3_base /blas_trmm.
have [fr S] : mult s u t d 0 M N A (fill M N B C) (fill M N B C) (ftrmm_rec (if s is SLeft then M else N) s u t d M N A (fill M N B C)).
  by apply: ftrmm_rec_ok; rewrite Na leqnn.
move: (ftrmm_rec _ _ _ _ _ _ _ _ _) fr S => C1 fr S.
set X := (if _ then _ else _).
have XE i j : X i j = if ((i < M) && (j < N))%N then C1 i j + be * C i j else C i j.
  rewrite /X; case: eqP => [->|_]; rewrite ?faddinE.
    rewrite mul0r addr0; case: ifP => // ij; rewrite fr ?ij // /fill ij //.
  by case: ifP => // ij; rewrite fr ?ij // /fill ij.
split; first by move=> i j ij; rewrite XE (negbTE ij).
case: s S {fr Na} @X XE => S X XE i j iM jN; rewrite XE iM jN S // mul0r addr0; congr (_ + _).
all: by apply: eq_rsum => k kM; rewrite /fill kM ?iM ?jN.
Qed.

(** Blocked loops. *)
Section Loops.
Variables (s : side) (u : uplo) (t : transp) (d : diag) (ns M N : nat) (A : grid F).
Hypotheses (ns0 : (0 < ns)%N).
Let Na := if s is SLeft then M else N.
Hypothesis Na0 : (0 < Na)%N.
Let nb := (Na.-1 %/ ns)%N.
Let nr := (Na.-1 %% ns).+1.

Lemma cutE : (nb * ns + nr = Na)%N.
Proof. by rewrite /nr addnS -divn_eq prednK. Qed.

Lemma cut_step i : (i < nb)%N ->
  [/\ (nr + i * ns + ns = nr + i.+1 * ns)%N, (nr + i.+1 * ns <= Na)%N,
     ((nb - i.+1) * ns = Na - (nr + i.+1 * ns))%N & ((nb - i) * ns = (nb - i.+1) * ns + ns)%N].
Proof.
move=> inb; have := cutE; have : (i.+1 * ns <= nb * ns)%N by rewrite leq_mul2r inb orbT.
rewrite !mulnBl mulSn => H1 H2; split; lia.
Qed.

Lemma ftrmm_fp_iter B B0 i : (i <= nb)%N -> invm s u t d 0 nr M N A B B B0 ->
  invm s u t d 0 (nr + i * ns) M N A B B (iteri i (ftrmm_fp_step s u t d ns M N A) B0).
Proof.
elim: i => [|i IH] Hi I0; first by rewrite mul0n addn0.
have {IH}I := IH (ltnW Hi) I0; have [c1 c2 c3 c4] := cut_step Hi.
rewrite iteriS; move: (iteri i _ _) I => X I.
rewrite -{}c1 in c2 c3 *; rewrite /ftrmm_fp_step -/Na -/nb -/nr.
have bn (n : nat) : (0 < n <= n)%N = (0 < n)%N by rewrite leqnn andbT.
clear I0; case Es: s I c2 c3; case E: eff_lower => I c2 c3; rewrite /Na Es in c2 c3.
- rewrite c4; set o := ((nb - i.+1) * ns)%N in c3 *.
  have lo k j : (j < N)%N -> (k < ns)%N -> X (o + k)%N j = B (o + k)%N j.
    by move: I; rewrite /invm E => -[_ H] jN ka; rewrite (H j jN) ?ifN //; lia.
  rewrite c3; apply: LL_stepm; rewrite -?c3 //.
    by move=> k j kn jN; exact: lo.
  apply: mult_ext; last by apply: ftrmm_rec_ok; rewrite bn.
  by move=> k j kn jN; rewrite /sub at_out ?lo //; lia.
- set o := (nr + i * ns)%N in I c2 *.
  have hi k j : (j < N)%N -> (k < ns)%N -> X (o + k)%N j = B (o + k)%N j.
    by move: I; rewrite /invm E => -[_ H] jN ka; rewrite (H j jN) ?ifN //; lia.
  apply: LU_stepm; rewrite ?E //.
    by move=> k j kn jN; exact: hi.
  apply: mult_ext; last by apply: ftrmm_rec_ok; rewrite bn.
  by move=> k j kn jN; rewrite /sub fgemmE ifN ?hi //; lia.
- set o := (nr + i * ns)%N in I c2 *.
  have hi k j : (j < M)%N -> (k < ns)%N -> X j (o + k)%N = B j (o + k)%N.
    by move: I; rewrite /invm E => -[_ H] jN ka; rewrite (H j jN) ?ifN //; lia.
  apply: RL_stepm; rewrite ?E //.
    by move=> k j kn jN; exact: hi.
  apply: mult_ext; last by apply: ftrmm_rec_ok; rewrite bn.
  by move=> k j kn jN; rewrite /sub fgemmE ifN ?hi //; lia.
- rewrite c4; set o := ((nb - i.+1) * ns)%N in c3 *.
  have lo k j : (j < M)%N -> (k < ns)%N -> X j (o + k)%N = B j (o + k)%N.
    by move: I; rewrite /invm E => -[_ H] jN ka; rewrite (H j jN) ?ifN //; lia.
  rewrite c3; apply: RU_stepm; rewrite -?c3 ?E //.
    by move=> k j kn jN; exact: lo.
  apply: mult_ext; last by apply: ftrmm_rec_ok; rewrite bn.
  by move=> k j kn jN; rewrite /sub at_out ?lo //; lia.
Qed.

Lemma ftrmm3_fp_iter be B C C0 i : (i <= nb)%N -> invm s u t d be nr M N A B C C0 ->
  invm s u t d be (nr + i * ns) M N A B C (iteri i (ftrmm3_fp_step s u t d ns M N A B be) C0).
Proof.
elim: i => [|i IH] Hi I0; first by rewrite mul0n addn0.
have {IH}I := IH (ltnW Hi) I0; have [c1 c2 c3 c4] := cut_step Hi.
rewrite iteriS; move: (iteri i _ _) I => X I.
rewrite -{}c1 in c2 c3 *; rewrite /ftrmm3_fp_step -/Na -/nb -/nr.
clear I0; case Es: s I c2 c3; case E: eff_lower => I c2 c3; rewrite /Na Es in c2 c3.
- rewrite c4; set o := ((nb - i.+1) * ns)%N in c3 *.
  by rewrite c3; apply: LL_stepm; rewrite -?c3 //; apply: ftrmm3_base_ok.
- by apply: LU_stepm; rewrite ?E //; apply: ftrmm3_base_ok.
- by apply: RL_stepm; rewrite ?E //; apply: ftrmm3_base_ok.
- rewrite c4; set o := ((nb - i.+1) * ns)%N in c3 *.
  by rewrite c3; apply: RU_stepm; rewrite -?c3 ?E //; apply: ftrmm3_base_ok.
Qed.

End Loops.

Lemma cut_le s M N ns : (0 < (if s is SLeft then M else N))%N ->
  (((if s is SLeft then M else N).-1 %% ns).+1 + (if s is SLeft then M else N).-1 %/ ns * ns
    = (if s is SLeft then M else N))%N.
Proof. by move=> H; rewrite addnC addnS -divn_eq prednK. Qed.

Lemma ftrmm_fp_ok s u t d ns M N A B (Na := if s is SLeft then M else N) :
  (0 < ns)%N -> (0 < Na)%N ->
  let nb := (Na.-1 %/ ns)%N in let nr := (Na.-1 %% ns).+1 in let o := (nb * ns)%N in
  let B0 := match s, eff_lower u t with
    | SLeft, true => at_ o 0 (blas_trmm s u t d nr N (sub o o A)) B
    | SLeft, false => blas_trmm s u t d nr N A B
    | SRight, false => at_ 0 o (blas_trmm s u t d M nr (sub o o A)) B
    | SRight, true => blas_trmm s u t d M nr A B
    end in
  mult s u t d 0 M N A B B (iteri nb (ftrmm_fp_step s u t d ns M N A) B0).
Proof.
move=> ns0 Na0 nb nr o B0.
have I0 : invm s u t d 0 nr M N A B B B0.
  have e := @cut_le s M N ns Na0.
  have ok n : (0 < n.+1 <= n.+1)%N by rewrite leqnn.
  rewrite {}/B0 /o /nb /nr /blas_trmm /Na in e *; clear o nb nr.
  case: s Na Na0 e => Na Na0 e; case E: eff_lower.
  - apply: LL_firstm; rewrite // 1?addnC //; exact: ftrmm_rec_ok.
  - by apply: LU_firstm; rewrite ?E //; [by rewrite -[X in (_ <= X)%N]e leq_addr|exact: ftrmm_rec_ok].
  - by apply: RL_firstm; rewrite ?E //; [by rewrite -[X in (_ <= X)%N]e leq_addr|exact: ftrmm_rec_ok].
  - by apply: RU_firstm; rewrite ?E // 1?addnC //; exact: ftrmm_rec_ok.
have := @ftrmm_fp_iter s u t d ns M N A ns0 Na0 B B0 nb (leqnn _) I0.
by rewrite cut_le // => /invm_mult.
Qed.

Lemma ftrmm3_fp_ok s u t d ns be M N A B C (Na := if s is SLeft then M else N) :
  (0 < ns)%N -> (0 < Na)%N ->
  let nb := (Na.-1 %/ ns)%N in let nr := (Na.-1 %% ns).+1 in let o := (nb * ns)%N in
  let C0 := match s, eff_lower u t with
    | SLeft, true => at_ o 0 (ftrmm3_base s u t d nr N (sub o o A) (sub o 0 B) be) C
    | SLeft, false => ftrmm3_base s u t d nr N A B be C
    | SRight, false => at_ 0 o (ftrmm3_base s u t d M nr (sub o o A) (sub 0 o B) be) C
    | SRight, true => ftrmm3_base s u t d M nr A B be C
    end in
  mult s u t d be M N A B C (iteri nb (ftrmm3_fp_step s u t d ns M N A B be) C0).
Proof.
move=> ns0 Na0 nb nr o C0.
have I0 : invm s u t d be nr M N A B C C0.
  have e := @cut_le s M N ns Na0.
  rewrite {}/C0 /o /nb /nr /Na in e *; clear o nb nr.
  case: s Na Na0 e => Na Na0 e; case E: eff_lower.
  - by apply: LL_firstm; rewrite // 1?addnC //; exact: ftrmm3_base_ok.
  - by apply: LU_firstm; rewrite ?E //; [by rewrite -[X in (_ <= X)%N]e leq_addr|exact: ftrmm3_base_ok].
  - by apply: RL_firstm; rewrite ?E //; [by rewrite -[X in (_ <= X)%N]e leq_addr|exact: ftrmm3_base_ok].
  - by apply: RU_firstm; rewrite ?E // 1?addnC //; exact: ftrmm3_base_ok.
have := @ftrmm3_fp_iter s u t d ns M N A ns0 Na0 be B C C0 nb (leqnn _) I0.
by rewrite cut_le // => /invm_mult.
Qed.

Lemma mult_mx s u t d be M N A B C X : mult s u t d be M N A B C X ->
  mx M N X = match s with
    | SLeft => opT u t d M A *m mx M N B
    | SRight => mx M N B *m opT u t d N A end + be *: mx M N C.
Proof.
case=> _; case: s => S; rewrite opTE mxM mxZ mxD; apply: eq_mx => i j iM jN; rewrite S //.
by congr (_ + _); apply: eq_rsum => k _; rewrite mulrC.
Qed.

Definition opprod (s : side) u t d M N A B : 'M[F]_(M, N) :=
  match s with
  | SLeft => opmx t (trimx u d M A) *m mx M N B
  | SRight => mx M N B *m opmx t (trimx u d N A) end.

Lemma scal_step M N alpha X : (if alpha == 1 then X else fscalin M N alpha X) =2 fscalin M N alpha X.
Proof. by move=> i j; case: eqP => // ->; rewrite fscalinE mul1r; case: ifP. Qed.

Lemma scal_mx M N alpha X : mx M N (if alpha == 1 then X else fscalin M N alpha X) = alpha *: mx M N X.
Proof. by rewrite mxZ; apply: eq_mx => i j iM jN; rewrite scal_step fscalinE iM jN. Qed.

Lemma mult_scal s u t d be M N A B C X alpha : mult s u t d be M N A B C X ->
  let Y := if alpha == 1 then X else fscalin M N alpha X in
  frame M N Y C /\ mx M N Y = alpha *: opprod s u t d M N A B + (alpha * be) *: mx M N C.
Proof.
move=> S Y; rewrite {}/Y; split; first by move=> i j ij; rewrite scal_step fscalinE (negbTE ij); case: S => ->.
by rewrite scal_mx (mult_mx S) scalerDr scalerA /opprod; case: (s).
Qed.

Lemma mx0N n (X Y : 'M[F]_(0, n)) : X = Y.
Proof. by apply/matrixP => -[]. Qed.
Lemma mxN0 n (X Y : 'M[F]_(n, 0)) : X = Y.
Proof. by apply/matrixP => i []. Qed.

Lemma mx_empty M N (X Y : 'M[F]_(M, N)) : (M == 0)%N || (N == 0)%N -> X = Y.
Proof. by case/orP => /eqP z; move: X Y; rewrite z => X Y; [exact: mx0N|exact: mxN0]. Qed.

Lemma ftrmm_mx s u t d M N alpha A B :
  let X := ftrmm s u t d M N alpha A B in
  frame M N X B /\ mx M N X = alpha *: opprod s u t d M N A B.
Proof.
move=> X; rewrite {}/X /ftrmm; case: ifPn => [e|]; first by split=> //; exact: mx_empty.
rewrite negb_or -!lt0n => /andP[M0 N0].
have S : mult s u t d 0 M N A B B (ftrmm_rec (if s is SLeft then M else N) s u t d M N A B).
  by apply: ftrmm_rec_ok; case: (s); lia.
by have [? ->] := mult_scal alpha S; rewrite mulr0 scale0r addr0.
Qed.

Lemma ftrmm_fp_mx s u t d ns M N alpha A B : (0 < ns)%N ->
  let X := ftrmm_fp s u t d ns M N alpha A B in
  frame M N X B /\ mx M N X = alpha *: opprod s u t d M N A B.
Proof.
move=> ns0 X; rewrite {}/X /ftrmm_fp; case: ifPn => [e|]; first by split=> //; exact: mx_empty.
rewrite negb_or -!lt0n => /andP[M0 N0].
have Na0 : (0 < (if s is SLeft then M else N))%N by case: (s).
have S := @ftrmm_fp_ok s u t d ns M N A B ns0 Na0.
by have [? ->] := mult_scal alpha S; rewrite mulr0 scale0r addr0.
Qed.

Lemma bet_step (alpha beta : F) : alpha != 0 ->
  alpha * (if alpha == 1 then beta else beta / alpha) = beta.
Proof. by move=> a0; case: eqP => [->|_]; rewrite ?mul1r // mulrC divfK. Qed.

Lemma ftrmm3_mx s u t d M N alpha A B beta C : alpha != 0 -> beta != 0 ->
  let X := ftrmm3 s u t d M N alpha A B beta C in
  frame M N X C /\ mx M N X = alpha *: opprod s u t d M N A B + beta *: mx M N C.
Proof.
move=> a0 b0 X; rewrite {}/X /ftrmm3; case: ifPn => [e|]; first by split=> //; exact: mx_empty.
rewrite negb_or -!lt0n => /andP[M0 N0]; set be := (if alpha == 1 then beta else beta / alpha).
have be0 : be != 0 by rewrite /be; case: ifP => // _; rewrite mulf_eq0 invr_eq0 negb_or b0.
have S : mult s u t d be M N A B C (ftrmm3_rec (if s is SLeft then M else N) s u t d M N A B be C).
  by apply: ftrmm3_rec_ok => //; case: (s); lia.
by have [? ->] := mult_scal alpha S; rewrite bet_step.
Qed.

Lemma ftrmm3_fp_mx s u t d ns M N alpha A B beta C : (0 < ns)%N -> alpha != 0 ->
  let X := ftrmm3_fp s u t d ns M N alpha A B beta C in
  frame M N X C /\ mx M N X = alpha *: opprod s u t d M N A B + beta *: mx M N C.
Proof.
move=> ns0 a0 X; rewrite {}/X /ftrmm3_fp; case: ifPn => [e|]; first by split=> //; exact: mx_empty.
rewrite negb_or -!lt0n => /andP[M0 N0].
have Na0 : (0 < (if s is SLeft then M else N))%N by case: (s).
have S := @ftrmm3_fp_ok s u t d ns (if alpha == 1 then beta else beta / alpha) M N A B C ns0 Na0.
by have [? ->] := mult_scal alpha S; rewrite bet_step.
Qed.

End Trmm.
