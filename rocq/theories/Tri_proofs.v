(** * Proofs about the triangular kernels *)
From mathcomp Require Import all_ssreflect all_algebra zify ring.
From Verif Require Import Grid Perm_model Perm_spec Tri_model Tri_spec.
Set Implicit Arguments.
Unset Strict Implicit.
Unset Printing Implicit Defensive.
Import GRing.Theory.
Local Open Scope ring_scope.

Section Rsum.
Variable F : fieldType.
Implicit Types f g : nat -> F.

Lemma rsumE k f : rsum k f = \sum_(i < k) f i.
Proof. by elim: k => [|k IH] /=; rewrite ?big_ord0 // big_ord_recr /= IH. Qed.

Lemma eq_rsum k f g : (forall i, (i < k)%N -> f i = g i) -> rsum k f = rsum k g.
Proof.
elim: k => [|k IH] //= H; rewrite (IH _) ?H //.
by move=> i ik; apply: H; lia.
Qed.

Lemma rsum_cat a b f : rsum (a + b) f = rsum a f + rsum b (fun i => f (a + i)%N).
Proof.
elim: b => [|b IH] /=; first by rewrite addn0 addr0.
by rewrite addnS /= IH addrA.
Qed.

Lemma rsum0 k f : (forall i, (i < k)%N -> f i = 0) -> rsum k f = 0.
Proof. by elim: k => [|k IH] //= H; rewrite H // IH ?addr0 // => i ik; apply: H; lia. Qed.

Lemma rsum_mull k a f : rsum k (fun i => a * f i) = a * rsum k f.
Proof. by rewrite !rsumE mulr_sumr. Qed.

Lemma rsum_mulr k a f : rsum k (fun i => f i * a) = rsum k f * a.
Proof. by rewrite !rsumE mulr_suml. Qed.

Lemma rsumD k f g : rsum k (fun i => f i + g i) = rsum k f + rsum k g.
Proof. by rewrite !rsumE big_split. Qed.

Lemma rsumN k f : rsum k (fun i => - f i) = - rsum k f.
Proof. by rewrite !rsumE sumrN. Qed.

(** Sum over a range with zeros outside [o, o+n). *)
Lemma rsum_range N o n f : (o + n <= N)%N ->
  (forall i, (i < N)%N -> ~~ (o <= i < o + n)%N -> f i = 0) ->
  rsum N f = rsum n (fun i => f (o + i)%N).
Proof.
move=> le H; have -> : N = (o + n + (N - o - n))%N by lia.
rewrite !rsum_cat [rsum o f]rsum0 ?add0r; last by move=> i io; apply: H; lia.
by rewrite [X in _ + X]rsum0 ?addr0 // => i io; apply: H; lia.
Qed.

End Rsum.

Section Solve.
Variable F : fieldType.
Implicit Types (T A B C X : grid F).

(** Forward elimination: rows below o are solved, the others updated. *)
Definition inv_lo (o M : nat) T (b x : nat -> F) :=
  (forall i, (i < o)%N -> rsum o (fun k => T i k * x k) = b i) /\
  (forall i, (o <= i < M)%N -> x i = b i - rsum o (fun k => T i k * x k)).

Definition inv_up (o M : nat) T (b x : nat -> F) :=
  (forall i, (M - o <= i < M)%N -> rsum o (fun k => T i (M - o + k)%N * x (M - o + k)%N) = b i) /\
  (forall i, (i < M - o)%N -> x i = b i - rsum o (fun k => T i (M - o + k)%N * x (M - o + k)%N)).

Lemma inv_lo0 M T b x : (forall i, (i < M)%N -> x i = b i) -> inv_lo 0 M T b x.
Proof. by move=> H; split=> // i iM /=; rewrite subr0 H. Qed.

Lemma inv_up0 M T b x : (forall i, (i < M)%N -> x i = b i) -> inv_up 0 M T b x.
Proof. by move=> H; split=> [i|i iM] /=; [lia|rewrite subr0 H //; lia]. Qed.

Lemma inv_loM M T b x : inv_lo M M T b x ->
  forall i, (i < M)%N -> rsum M (fun k => T i k * x k) = b i.
Proof. by case. Qed.

Lemma inv_upM M T b x : inv_up M M T b x ->
  forall i, (i < M)%N -> rsum M (fun k => T i k * x k) = b i.
Proof. by case=> H _ i iM; rewrite -H ?subnn //; lia. Qed.

Lemma inv_lo_step o n M T b x x1 x2 :
  (o + n <= M)%N ->
  (forall i k, (i < k < M)%N -> T i k = 0) ->
  inv_lo o M T b x ->
  (forall i, (i < M)%N -> ~~ (o <= i < o + n)%N -> x1 i = x i) ->
  (forall i, (i < n)%N -> rsum n (fun k => T (o + i)%N (o + k)%N * x1 (o + k)%N) = x (o + i)%N) ->
  (forall i, (i < M)%N -> x2 i = if (o + n <= i)%N then x1 i - rsum n (fun k => T i (o + k)%N * x1 (o + k)%N) else x1 i) ->
  inv_lo (o + n) M T b x2.
Proof.
move=> le T0 [S U] E1 S1 E2.
have x2lo i : (i < o)%N -> x2 i = x i by move=> io; rewrite E2 ?E1; [case: ifP => //|..]; lia.
have x2mid i : (i < n)%N -> x2 (o + i)%N = x1 (o + i)%N by move=> ik; rewrite E2; [case: ifP => //|]; lia.
have rlo i : rsum o (fun k => T i k * x2 k) = rsum o (fun k => T i k * x k).
  by apply: eq_rsum => k ko; rewrite x2lo.
have rmid i : rsum n (fun k => T i (o + k)%N * x2 (o + k)%N) = rsum n (fun k => T i (o + k)%N * x1 (o + k)%N).
  by apply: eq_rsum => k ko; rewrite x2mid.
split=> i Hi; rewrite rsum_cat rlo rmid.
- case: (ltnP i o) => io.
    by rewrite S // rsum0 ?addr0 // => k kn; rewrite T0 ?mul0r //; lia.
  have -> : i = (o + (i - o))%N by lia.
  rewrite S1 ?U; [by rewrite addrC subrK|lia..].
- rewrite E2; last lia.
  case: ifP => [_|]; last lia.
  rewrite E1; [|lia..]; rewrite U; last lia.
  by rewrite opprD addrA.
Qed.

Lemma inv_up_step o n M T b x x1 x2 :
  (o + n <= M)%N ->
  (forall i k, (k < i < M)%N -> T i k = 0) ->
  inv_up o M T b x ->
  (forall i, (i < M)%N -> ~~ (M - (o + n) <= i < M - o)%N -> x1 i = x i) ->
  (forall i, (i < n)%N -> rsum n (fun k => T (M - (o + n) + i)%N (M - (o + n) + k)%N * x1 (M - (o + n) + k)%N)
     = x (M - (o + n) + i)%N) ->
  (forall i, (i < M)%N -> x2 i = if (i < M - (o + n))%N then
     x1 i - rsum n (fun k => T i (M - (o + n) + k)%N * x1 (M - (o + n) + k)%N) else x1 i) ->
  inv_up (o + n) M T b x2.
Proof.
move=> le T0 [S U] E1 S1 E2.
set r := (M - (o + n))%N in S1 E1 E2 *.
have x2hi i : (M - o <= i < M)%N -> x2 i = x i by move=> io; rewrite E2 ?E1; [case: ifP => //|..]; lia.
have x2mid i : (i < n)%N -> x2 (r + i)%N = x1 (r + i)%N by move=> ik; rewrite E2; [case: ifP => //|]; lia.
have rhi i : rsum o (fun k => T i (r + (n + k))%N * x2 (r + (n + k))%N) = rsum o (fun k => T i (M - o + k)%N * x (M - o + k)%N).
  apply: eq_rsum => k ko; have -> : (r + (n + k) = M - o + k)%N by lia.
  by rewrite x2hi //; lia.
have rmid i : rsum n (fun k => T i (r + k)%N * x2 (r + k)%N) = rsum n (fun k => T i (r + k)%N * x1 (r + k)%N).
  by apply: eq_rsum => k ko; rewrite x2mid.
split=> i Hi; rewrite [X in rsum X _](addnC o n) rsum_cat rhi rmid.
- case: (ltnP i (M - o)%N) => io.
    have -> : i = (r + (i - r))%N by lia.
    by rewrite S1 ?U; [rewrite subrK|lia..].
  rewrite S; last lia.
  by rewrite rsum0 ?add0r // => k kn; rewrite T0 ?mul0r //; lia.
- rewrite E2; last lia.
  case: ifP => [_|]; last lia.
  rewrite E1; [|lia..]; rewrite U; last lia.
  by rewrite opprD addrA addrAC.
Qed.

(** Entry formulas. *)
Lemma fgemmE ta tb m n k al A B be C i j :
  fgemm ta tb m n k al A B be C i j =
  if ((i < m) && (j < n))%N then al * rsum k (fun t => optr ta A i t * optr tb B t j) + be * C i j else C i j.
Proof. by rewrite /fgemm memoE. Qed.

Lemma fscalinE m n a A i j : fscalin m n a A i j = if ((i < m) && (j < n))%N then a * A i j else A i j.
Proof. by rewrite /fscalin memoE. Qed.

Lemma faddinE m n B C i j : faddin m n B C i j = if ((i < m) && (j < n))%N then C i j + B i j else C i j.
Proof. by rewrite /faddin memoE. Qed.

Lemma faxpyE m n a B C i j : faxpy m n a B C i j = if ((i < m) && (j < n))%N then a * B i j + C i j else C i j.
Proof. by rewrite /faxpy memoE. Qed.

Lemma optr_subop (t : transp) p q A i j : optr t (subop t p q A) i j = optr t A (p + i)%N (q + j)%N.
Proof. by case: t. Qed.

Lemma optr_sub (t : transp) a A i j : optr t (sub a a A) i j = optr t A (a + i)%N (a + j)%N.
Proof. by case: t. Qed.

(** Triangles in the coordinates of op(A). *)
Definition triop u t d A : grid F := optr t (tri u d A).

Lemma triop_sub u t d a A i j : triop u t d (sub a a A) i j = triop u t d A (a + i)%N (a + j)%N.
Proof. by rewrite /triop /tri; case: t; rewrite /= /tr /sub ?eqn_add2l ?ltn_add2l; case: ifP => //= /eqP ->. Qed.

Lemma triop_lo u t d A i j : eff_lower u t -> (j < i)%N -> triop u t d A i j = optr t A i j.
Proof. by rewrite /triop /tri; case: t; case: u => //= _ ij; rewrite /tr ij ifN //; lia. Qed.

Lemma triop_lo0 u t d A i j : eff_lower u t -> (i < j)%N -> triop u t d A i j = 0.
Proof. by rewrite /triop /tri; case: t; case: u => //= _ ij; rewrite /tr ifN ?ifN //; lia. Qed.

Lemma triop_up u t d A i j : ~~ eff_lower u t -> (i < j)%N -> triop u t d A i j = optr t A i j.
Proof. by rewrite /triop /tri; case: t; case: u => //= _ ij; rewrite /tr ij ifN //; lia. Qed.

Lemma triop_up0 u t d A i j : ~~ eff_lower u t -> (j < i)%N -> triop u t d A i j = 0.
Proof. by rewrite /triop /tri; case: t; case: u => //= _ ij; rewrite /tr ifN ?ifN //; lia. Qed.

Lemma triop_diag u t d A i : triop u t d A i i = if d is Unit then 1 else A i i.
Proof. by rewrite /triop /tri; case: t; rewrite /= /tr eqxx. Qed.

(** The entry-level specification of a solver on a window. *)
Definition solves (s : side) u t d (M N : nat) A B X : Prop :=
  frame M N X B /\
  match s with
  | SLeft => forall i j, (i < M)%N -> (j < N)%N -> rsum M (fun k => triop u t d A i k * X k j) = B i j
  | SRight => forall i j, (i < M)%N -> (j < N)%N -> rsum N (fun k => triop u t d A k j * X i k) = B i j
  end.

(** One block: solve the diagonal block at o, update the rest. *)
Definition inv (s : side) u t d (o M N : nat) A B X : Prop :=
  frame M N X B /\
  match s, eff_lower u t with
  | SLeft, true => forall j, (j < N)%N -> inv_lo o M (triop u t d A) (B^~ j) (X^~ j)
  | SLeft, false => forall j, (j < N)%N -> inv_up o M (triop u t d A) (B^~ j) (X^~ j)
  | SRight, false => forall i, (i < M)%N -> inv_lo o N (tr (triop u t d A)) (B i) (X i)
  | SRight, true => forall i, (i < M)%N -> inv_up o N (tr (triop u t d A)) (B i) (X i)
  end.

Lemma inv0 s u t d M N A B : inv s u t d 0 M N A B B.
Proof.
split=> //; case: s; case: eff_lower => j jN; first [exact: inv_lo0|exact: inv_up0].
Qed.

Lemma inv_solves s u t d M N A B X :
  inv s u t d (if s is SLeft then M else N) M N A B X -> solves s u t d M N A B X.
Proof.
move=> [fr H]; split=> //.
case: s H; case: eff_lower => H i j iM jN.
- exact: (inv_loM (H j jN)).
- exact: (inv_upM (H j jN)).
- exact: (inv_upM (H i iM)).
- exact: (inv_loM (H i iM)).
Qed.

Lemma frame_sub M N p q c e X B f :
  (p + c <= M)%N -> (q + e <= N)%N -> frame M N X B -> frame c e (f (sub p q X)) (sub p q X) ->
  frame M N (at_ p q f X) B.
Proof.
move=> le1 le2 H1 H2 i j ij; rewrite /at_; case: ifP => [Hab|_]; last exact: H1.
rewrite H2; last by apply: contra ij; lia.
by rewrite /sub !subnKC; [exact: H1|lia..].
Qed.

(** Left, effectively lower. *)
Lemma LL_step u t d o n M N A B X slv : eff_lower u t -> (o + n <= M)%N ->
  inv SLeft u t d o M N A B X ->
  solves SLeft u t d n N (sub o o A) (sub o 0 X) (slv (sub o 0 X)) ->
  let X1 := at_ o 0 slv X in
  inv SLeft u t d (o + n) M N A B
    (at_ (o + n) 0 (fgemm t NoTrans (M - (o + n)) N n (-1) (subop t n 0 (sub o o A)) (sub o 0 X1) 1) X1).
Proof.
move=> lo le [fr I] [fr1 S1] X1; rewrite /inv lo in I *.
have fX1 : frame M N X1 B by apply: frame_sub fr fr1; lia.
split.
  by apply: (@frame_sub _ _ _ _ (M - (o + n)) N) => // [|i j ij]; [lia|rewrite fgemmE (negbTE ij)].
move=> j jN; have Ij := I j jN.
apply: (@inv_lo_step o n M _ _ _ (X1^~ j)) Ij _ _ _ => //.
- by move=> i k ik; apply: triop_lo0 => //; lia.
- move=> i iM io; rewrite /X1 /at_; case: ifP => // oi; rewrite fr1 /sub ?subnKC //; lia.
- move=> i i_n /=; rewrite -[j]add0n -/(sub o 0 X i j) -(S1 i j) //; apply: eq_rsum => k kn.
  by rewrite triop_sub /X1 at_in.
move=> i iM; rewrite /at_ andbT; case: ifP => // oi; rewrite fgemmE.
rewrite ifT; last lia.
rewrite /sub subn0 !subnKC // mul1r addrC mulN1r; congr (_ - _); apply: eq_rsum => k kn.
rewrite optr_subop optr_sub /optr triop_lo //; last lia.
by congr (optr _ _ _ _ * _); lia.
Qed.

Lemma LL_final u t d o n M N A B X slv : eff_lower u t -> (o + n = M)%N ->
  inv SLeft u t d o M N A B X ->
  solves SLeft u t d n N (sub o o A) (sub o 0 X) (slv (sub o 0 X)) ->
  solves SLeft u t d M N A B (at_ o 0 slv X).
Proof.
move=> lo le I S; have := LL_step lo _ I S; rewrite le leqnn => /(_ isT) /= [fr H].
case: I S => fr0 _ [fr1 _].
have fX1 : frame M N (at_ o 0 slv X) B by apply: frame_sub fr0 fr1; lia.
apply: inv_solves; split=> //.
rewrite lo in H * => j jN; move/(_ j jN): H => [H1 _]; split; last by move=> i; lia.
move=> i iM; rewrite -H1 //; apply: eq_rsum => k kM; congr (_ * _).
by rewrite /= [RHS]/at_ andbT ifN //; lia.
Qed.

(** Right, effectively upper: the same on the transposed problem. *)
Lemma RU_step u t d o n M N A B X slv : ~~ eff_lower u t -> (o + n <= N)%N ->
  inv SRight u t d o M N A B X ->
  solves SRight u t d M n (sub o o A) (sub 0 o X) (slv (sub 0 o X)) ->
  let X1 := at_ 0 o slv X in
  inv SRight u t d (o + n) M N A B
    (at_ 0 (o + n) (fgemm NoTrans t M (N - (o + n)) n (-1) (sub 0 o X1) (subop t 0 n (sub o o A)) 1) X1).
Proof.
move=> up le [fr I] [fr1 S1] X1; rewrite /inv (negbTE up) in I *.
have fX1 : frame M N X1 B by apply: frame_sub fr fr1; lia.
split.
  by apply: (@frame_sub _ _ _ _ M (N - (o + n))) => // [|i j ij]; [lia|rewrite fgemmE (negbTE ij)].
move=> i iM; have Ij := I i iM.
apply: (@inv_lo_step o n N _ _ _ (X1 i)) Ij _ _ _ => //.
- by move=> j k jk; apply: triop_up0 => //; lia.
- move=> j jN jo; rewrite /X1 /at_; case: ifP => // oi; rewrite fr1 /sub ?subnKC //; lia.
- move=> j j_n /=; rewrite -[i]add0n -/(sub 0 o X i j) -(S1 i j) //; apply: eq_rsum => k kn.
  by rewrite triop_sub /X1 at_in.
move=> j jN; rewrite /at_ /=; case: ifP => // oi; rewrite fgemmE.
rewrite ifT; last lia.
rewrite /sub subn0 !subnKC // mul1r addrC mulN1r; congr (_ - _); apply: eq_rsum => k kn.
rewrite optr_subop optr_sub /optr /tr triop_up //; last lia.
by rewrite mulrC; congr (optr _ _ _ _ * _); lia.
Qed.

Lemma RU_final u t d o n M N A B X slv : ~~ eff_lower u t -> (o + n = N)%N ->
  inv SRight u t d o M N A B X ->
  solves SRight u t d M n (sub o o A) (sub 0 o X) (slv (sub 0 o X)) ->
  solves SRight u t d M N A B (at_ 0 o slv X).
Proof.
move=> up le I S; have := RU_step up _ I S; rewrite le leqnn => /(_ isT) /= [fr H].
case: I S => fr0 _ [fr1 _].
have fX1 : frame M N (at_ 0 o slv X) B by apply: frame_sub fr0 fr1; lia.
apply: inv_solves; split=> //.
rewrite (negbTE up) in H * => i iM; move/(_ i iM): H => [H1 _]; split; last by move=> j; lia.
move=> j jM; rewrite -H1 //; apply: eq_rsum => k kM; congr (_ * _).
by rewrite /= [RHS]/at_ /= ifN //; lia.
Qed.

(** Left, effectively upper: from the bottom. *)
Lemma LU_step u t d o n M N A B X slv : ~~ eff_lower u t -> (o + n <= M)%N ->
  inv SLeft u t d o M N A B X ->
  let r := (M - (o + n))%N in
  solves SLeft u t d n N (sub r r A) (sub r 0 X) (slv (sub r 0 X)) ->
  let X1 := at_ r 0 slv X in
  inv SLeft u t d (o + n) M N A B (fgemm t NoTrans r N n (-1) (subop t 0 r A) (sub r 0 X1) 1 X1).
Proof.
move=> up le [fr I] r [fr1 S1] X1; rewrite /inv (negbTE up) in I *.
have rE : (r + o + n = M)%N by rewrite /r; lia.
have fX1 : frame M N X1 B by apply: frame_sub fr fr1; lia.
split.
  move=> i j ij; rewrite fgemmE ifN ?fX1 //; lia.
move=> j jN; have Ij := I j jN.
apply: (@inv_up_step o n M _ _ _ (X1^~ j)) Ij _ _ _; rewrite -/r //.
- by move=> i k ik; apply: triop_up0 => //; lia.
- move=> i iM io; rewrite /X1 /at_; case: ifP => // oi; rewrite fr1 /sub ?subnKC //; lia.
- move=> i i_n /=; rewrite -[j]add0n -/(sub r 0 X i j) -(S1 i j) //; apply: eq_rsum => k kn.
  by rewrite triop_sub /X1 at_in.
move=> i iM; rewrite fgemmE jN andbT; case: ifP => // oi.
rewrite mul1r addrC mulN1r; congr (_ - _); apply: eq_rsum => k kn.
rewrite optr_subop add0n /optr triop_up //; lia.
Qed.

Lemma LU_final u t d o n M N A B X slv : ~~ eff_lower u t -> (o + n = M)%N ->
  inv SLeft u t d o M N A B X ->
  solves SLeft u t d n N A X (slv X) ->
  solves SLeft u t d M N A B (slv X).
Proof.
move=> up le [fr I] [fr1 S1]; apply: inv_solves.
have fX1 : frame M N (slv X) B by move=> i j ij; rewrite fr1 ?fr //; lia.
split=> //; rewrite (negbTE up) in I * => j jN; rewrite -{1}le.
apply: (@inv_up_step o n M _ _ _ ((slv X)^~ j)) (I j jN) _ _ _; rewrite ?le ?subnn //.
- by move=> i k ik; apply: triop_up0 => //; lia.
- by move=> i iM io; rewrite fr1 //; lia.
by move=> i i_n; rewrite -(S1 i j).
Qed.

(** Right, effectively lower. *)
Lemma RL_step u t d o n M N A B X slv : eff_lower u t -> (o + n <= N)%N ->
  inv SRight u t d o M N A B X ->
  let r := (N - (o + n))%N in
  solves SRight u t d M n (sub r r A) (sub 0 r X) (slv (sub 0 r X)) ->
  let X1 := at_ 0 r slv X in
  inv SRight u t d (o + n) M N A B (fgemm NoTrans t M r n (-1) (sub 0 r X1) (subop t r 0 A) 1 X1).
Proof.
move=> lo le [fr I] r [fr1 S1] X1; rewrite /inv lo in I *.
have rE : (r + o + n = N)%N by rewrite /r; lia.
have fX1 : frame M N X1 B by apply: frame_sub fr fr1; lia.
split.
  move=> i j ij; rewrite fgemmE ifN ?fX1 //; lia.
move=> i iM; have Ij := I i iM.
apply: (@inv_up_step o n N _ _ _ (X1 i)) Ij _ _ _; rewrite -/r //.
- by move=> j k jk; apply: triop_lo0 => //; lia.
- move=> j jN jo; rewrite /X1 /at_; case: ifP => // oi; rewrite fr1 /sub ?subnKC //; lia.
- move=> j j_n /=; rewrite -[i]add0n -/(sub 0 r X i j) -(S1 i j) //; apply: eq_rsum => k kn.
  by rewrite triop_sub /X1 at_in.
move=> j jN; rewrite fgemmE iM andTb; case: ifP => // oi.
rewrite mul1r addrC mulN1r; congr (_ - _); apply: eq_rsum => k kn.
by rewrite optr_subop add0n /optr /tr triop_lo // 1?mulrC //; lia.
Qed.

Lemma RL_final u t d o n M N A B X slv : eff_lower u t -> (o + n = N)%N ->
  inv SRight u t d o M N A B X ->
  solves SRight u t d M n A X (slv X) ->
  solves SRight u t d M N A B (slv X).
Proof.
move=> lo le [fr I] [fr1 S1]; apply: inv_solves.
have fX1 : frame M N (slv X) B by move=> i j ij; rewrite fr1 ?fr //; lia.
split=> //; rewrite lo in I * => i iM; rewrite -{1}le.
apply: (@inv_up_step o n N _ _ _ ((slv X) i)) (I i iM) _ _ _; rewrite ?le ?subnn //.
- by move=> j k jk; apply: triop_lo0 => //; lia.
- by move=> j jN jo; rewrite fr1 //; lia.
by move=> j j_n; rewrite -(S1 i j).
Qed.

(** ** Generic recursion *)
Lemma at00 (f : grid F -> grid F) X : at_ 0 0 f X =2 f X.
Proof. by move=> i j; rewrite /at_ /= !subn0. Qed.

Lemma inv_diag_sub d a n N A : (a + n <= N)%N -> inv_diag d N A -> inv_diag d n (sub a a A).
Proof. by move=> le H dn i i_n; apply: H => //; lia. Qed.

Lemma solves1 s u t d M N A B : (if s is SLeft then M else N) = 1%N -> inv_diag d 1 A ->
  solves s u t d M N A B (if d is NonUnit then fscalin M N (A 0 0)^-1 B else B)%N.
Proof.
move=> N1 dA; have d0 : d = NonUnit -> A 0%N 0%N != 0 by move=> /dA; apply.
have D : triop u t d A 0%N 0%N = if d is Unit then 1 else A 0%N 0%N by rewrite triop_diag.
split.
  by case: d {dA d0 D} => // i j ij; rewrite fscalinE (negbTE ij).
case: s N1 => -> i j Hi Hj; rewrite /= add0r.
- have {Hi}-> : i = 0%N by lia.
  rewrite D; case: d d0 {dA D} => d0; first by rewrite mul1r.
  by rewrite fscalinE /= Hj mulVKf ?d0.
- have {Hj}-> : j = 0%N by lia.
  rewrite D; case: d d0 {dA D} => d0; first by rewrite mul1r.
  by rewrite fscalinE /= Hi mulVKf ?d0.
Qed.

Lemma ext_solves s u t d M N A A' B B' X X' :
  A =2 A' -> B =2 B' -> X =2 X' -> solves s u t d M N A B X -> solves s u t d M N A' B' X'.
Proof.
move=> EA EB EX [fr S]; split; first by move=> i j ij; rewrite -EX -EB fr.
have ET i j : triop u t d A i j = triop u t d A' i j.
  by rewrite /triop /tri; case: t {S}; rewrite /= /tr !EA.
case: s S => S i j iM jN; rewrite -EB -S //; apply: eq_rsum => k kM; by rewrite ET EX.
Qed.

Lemma ext_inv s u t d o M N A B X X' :
  X =2 X' -> inv s u t d o M N A B X -> inv s u t d o M N A B X'.
Proof.
move=> EX [fr S]; split; first by move=> i j ij; rewrite -EX fr.
case: s S; case: eff_lower => S k kN; case: (S k kN) => S1 S2; split=> i Hi.
all: first [by rewrite -S1 //; apply: eq_rsum => l lM; rewrite EX
  |by rewrite -EX S2 //; congr (_ - _); apply: eq_rsum => l lM; rewrite EX].
Qed.

Lemma LL_first u t d a M N A B X1 : eff_lower u t -> (a <= M)%N -> solves SLeft u t d a N A B X1 ->
  inv SLeft u t d a M N A B (at_ a 0 (fgemm t NoTrans (M - a) N a (-1) (subop t a 0 A) X1 1) X1).
Proof.
move=> lo le S; have := LL_step (o := 0) (n := a) (slv := fun=> X1) lo le (inv0 _ _ _ _ _ _ _ _) S.
rewrite add0n /=; set X2 := at_ 0 0 _ B; have E : X2 =2 X1 by exact: at00.
move: X2 E => X2 E; apply: ext_inv => i j.
rewrite /at_; case: ifP => _; last exact: E.
rewrite !fgemmE /sub E; case: ifP => // _; congr (_ * _ + _); apply: eq_rsum => k _.
by rewrite /= E.
Qed.

Lemma RU_first u t d a M N A B X1 : ~~ eff_lower u t -> (a <= N)%N -> solves SRight u t d M a A B X1 ->
  inv SRight u t d a M N A B (at_ 0 a (fgemm NoTrans t M (N - a) a (-1) X1 (subop t 0 a A) 1) X1).
Proof.
move=> lo le S; have := RU_step (o := 0) (n := a) (slv := fun=> X1) lo le (inv0 _ _ _ _ _ _ _ _) S.
rewrite add0n /=; set X2 := at_ 0 0 _ B; have E : X2 =2 X1 by exact: at00.
move: X2 E => X2 E; apply: ext_inv => i j.
rewrite /at_; case: ifP => _; last exact: E.
rewrite !fgemmE /sub E; case: ifP => // _; congr (_ * _ + _); apply: eq_rsum => k _.
by rewrite /= E.
Qed.

Lemma LU_first u t d a M N A B slv : ~~ eff_lower u t -> (a <= M)%N ->
  let r := (M - a)%N in
  solves SLeft u t d a N (sub r r A) (sub r 0 B) (slv (sub r 0 B)) ->
  let X1 := at_ r 0 slv B in
  inv SLeft u t d a M N A B (fgemm t NoTrans r N a (-1) (subop t 0 r A) (sub r 0 X1) 1 X1).
Proof. by move=> lo le r S; exact: (LU_step (o := 0) (slv := slv) lo le (inv0 _ _ _ _ _ _ _ _) S). Qed.

Lemma RL_first u t d a M N A B slv : eff_lower u t -> (a <= N)%N ->
  let r := (N - a)%N in
  solves SRight u t d M a (sub r r A) (sub 0 r B) (slv (sub 0 r B)) ->
  let X1 := at_ 0 r slv B in
  inv SRight u t d a M N A B (fgemm NoTrans t M r a (-1) (sub 0 r X1) (subop t r 0 A) 1 X1).
Proof. by move=> lo le r S; exact: (RL_step (o := 0) (slv := slv) lo le (inv0 _ _ _ _ _ _ _ _) S). Qed.

Lemma ftrsm_rec_ok n s u t d M N A B :
  (0 < (if s is SLeft then M else N) <= n)%N -> inv_diag d (if s is SLeft then M else N) A ->
  solves s u t d M N A B (ftrsm_rec n s u t d M N A B).
Proof.
elim: n s M N A B => [|n IH] s M N A B; first by case: s; lia.
move=> Hn dA /=.
case: eqP => N1; first by apply: solves1 => //; rewrite -N1.
case: s Hn dA N1 => Hn dA N1; case E: eff_lower => /=.
- set a := M./2; have Ha : (0 < a < M)%N by rewrite /a; lia.
  apply: (LL_final (o := a) (n := M - a)) => //; first lia.
    apply: LL_first => //; first lia.
    apply: IH; [lia|apply: (inv_diag_sub (a := 0)) dA; lia].
  by apply: IH; [lia|apply: inv_diag_sub dA; lia].
- set a := M./2; have Ha : (0 < a < M)%N by rewrite /a; lia.
  apply: (LU_final (o := a) (n := M - a)) => //; rewrite ?E //; first lia.
    apply: LU_first => //; rewrite ?E //; first lia.
    apply: IH; [lia|apply: inv_diag_sub dA; lia].
  by apply: IH; [lia|apply: (inv_diag_sub (a := 0)) dA; lia].
- set a := N./2; have Ha : (0 < a < N)%N by rewrite /a; lia.
  apply: (RL_final (o := a) (n := N - a)) => //; first lia.
    apply: RL_first => //; first lia.
    apply: IH; [lia|apply: inv_diag_sub dA; lia].
  by apply: IH; [lia|apply: (inv_diag_sub (a := 0)) dA; lia].
- set a := N./2; have Ha : (0 < a < N)%N by rewrite /a; lia.
  apply: (RU_final (o := a) (n := N - a)) => //; rewrite ?E //; first lia.
    apply: RU_first => //; rewrite ?E //; first lia.
    apply: IH; [lia|apply: (inv_diag_sub (a := 0)) dA; lia].
  by apply: IH; [lia|apply: inv_diag_sub dA; lia].
Qed.

(** ** float/double: normalised base case *)
Lemma write_loop n (cell : nat -> nat * nat) (g : grid F) C r c :
  C r c = g r c \/ (exists2 x, (x < n)%N & cell x = (r, c)) ->
  iteri n (fun x C => upd C (cell x).1 (cell x).2 (g (cell x).1 (cell x).2)) C r c = g r c.
Proof.
elim: n => [|n IH] /=; first by case=> // -[].
move=> H; rewrite /upd; case: andP => [[/eqP <- /eqP <-] //|ne].
apply: IH; case: H => [->|[x xn E]]; first by left.
right; exists x => //; rewrite ltn_neqAle -ltnS xn andbT; apply/eqP => xE.
by apply: ne; rewrite -xE E !eqxx.
Qed.

Lemma write_loop2 m (dim : nat -> nat) (cell : nat -> nat -> nat * nat) (g : nat -> grid F) (h : grid F) C r c :
  (forall i x, (x < dim i)%N -> g i (cell i x).1 (cell i x).2 = h (cell i x).1 (cell i x).2) ->
  (exists2 i, (i < m)%N & exists2 x, (x < dim i)%N & cell i x = (r, c)) ->
  iteri m (fun i C => iteri (dim i) (fun x C => upd C (cell i x).1 (cell i x).2 (g i (cell i x).1 (cell i x).2)) C) C r c = h r c.
Proof.
move=> gh.
have E i n D : (n <= dim i)%N ->
    iteri n (fun x C => upd C (cell i x).1 (cell i x).2 (g i (cell i x).1 (cell i x).2)) D =2
    iteri n (fun x C => upd C (cell i x).1 (cell i x).2 (h (cell i x).1 (cell i x).2)) D.
  elim: n => [|n IH] //= le p q; rewrite /upd gh ?IH //; lia.
elim: m => [|m IH] /=; first by case.
move=> [i im [x xd Ex]]; rewrite E // write_loop //.
move: im; rewrite ltnS leq_eqVlt => /orP[/eqP iE|im].
  by right; exists x; rewrite -?iE.
by left; apply: IH; exists i => //; exists x.
Qed.

Lemma ftrsm_normE s u Na junk A r c :
  (r < Na)%N -> (c < Na)%N -> (if u is Lower then c < r else r < c)%N ->
  ftrsm_norm s u NoTrans Na junk A r c = (if s is SLeft then A r r else A c c)^-1 * A r c.
Proof.
move=> rN cN rc; rewrite /ftrsm_norm memoE.
pose g i : grid F := fun r c => (A i i)^-1 * A r c.
pose h : grid F := fun r c => (if s is SLeft then A r r else A c c)^-1 * A r c.
rewrite -/(h r c) -(@write_loop2 Na (norm_dim s u NoTrans Na) (norm_cell s u NoTrans) g h junk r c) //.
- by move=> i x _; rewrite /g /h /norm_cell; case: s {g h}; case: u {rc} => /=; do ?congr (_^-1 * _); do ?congr (A _ _); lia.
- exists (if s is SLeft then r else c); first by case: s {h}.
  exists (match s, u with SLeft, Lower => c | SLeft, Upper => c - r.+1
          | SRight, Upper => r | SRight, Lower => r - c.+1 end)%N.
    by rewrite /norm_dim; case: s {h}; case: u rc => /=; lia.
  by rewrite /norm_cell; case: s {h}; case: u rc => /= rc; congr pair; lia.
Qed.

Definition fp_good (t : transp) (d : diag) (nblas : nat) : Prop :=
  [\/ d = Unit, t = NoTrans | (nblas <= 1)%N].

Lemma ftrsm_base_ok s u t d nblas M N junk A B :
  fp_good t d nblas ->
  (0 < (if s is SLeft then M else N) <= nblas)%N -> inv_diag d (if s is SLeft then M else N) A ->
  solves s u t d M N A B (ftrsm_base s u t d M N junk A B).
Proof.
move=> good Na dA; rewrite /ftrsm_base.
case: d good dA => good dA; first by apply: ftrsm_rec_ok => //; case: s Na {dA}; lia.
set B1 := memo M N _; set A1 := ftrsm_norm _ _ _ _ _ _.
have [fr S] : solves s u t Unit M N A1 B1 (ftrsm_rec (if s is SLeft then M else N) s u t Unit M N A1 B1).
  by apply: ftrsm_rec_ok => //; case: s Na {dA A1 B1}; lia.
have B1E i j : B1 i j = if ((i < M) && (j < N))%N then (if s is SLeft then A i i else A j j)^-1 * B i j else B i j.
  by rewrite /B1 memoE.
have A1E r c : t = NoTrans -> (r < (if s is SLeft then M else N))%N -> (c < (if s is SLeft then M else N))%N ->
    (if u is Lower then c < r else r < c)%N -> A1 r c = (if s is SLeft then A r r else A c c)^-1 * A r c.
  by rewrite /A1 => ->; exact: ftrsm_normE.
clearbody A1 B1.
have nz i : (i < (if s is SLeft then M else N))%N -> A i i != 0 by move=> ?; exact: dA.
split; first by move=> i j ij; rewrite fr // B1E (negbTE ij).
have TE i j : (i < (if s is SLeft then M else N))%N -> (j < (if s is SLeft then M else N))%N ->
   triop u t NonUnit A i j = (if s is SLeft then A i i else A j j) * triop u t Unit A1 i j.
  move=> iM jM; case: (eqVneq i j) => [<-|ne].
    by rewrite !triop_diag; clear; case: s; rewrite mulr1.
  case: good => [//|tE|n1]; last by clear -Na iM jM n1 ne; case: s Na iM jM; lia.
  rewrite tE /triop /= /tri (negbTE ne); case: ifP => lt; last by rewrite mulr0.
  rewrite A1E //.
  by clear -nz iM jM; case: s nz iM jM => nz iM jM; rewrite mulVKf // nz.
clear good Na dA A1E fr.
case: s S TE B1E nz => S TE B1E nz i j iM jN.
- have := S i j iM jN; rewrite B1E iM jN /= => SE; apply: (mulfI (x := (A i i)^-1)).
    by rewrite invr_eq0 nz.
  rewrite -SE -rsum_mull; apply: eq_rsum => k kM.
  by rewrite TE // !mulrA mulVf ?mul1r // nz.
- have := S i j iM jN; rewrite B1E iM jN /= => SE; apply: (mulfI (x := (A j j)^-1)).
    by rewrite invr_eq0 nz.
  rewrite -SE -rsum_mull; apply: eq_rsum => k kM.
  by rewrite TE // !mulrA mulVf ?mul1r // nz.
Qed.

Lemma ftrsm_delayed_ok n s u t d nblas nb M N junk A B :
  fp_good t d nblas -> (0 < nblas)%N ->
  (0 < (if s is SLeft then M else N) <= n)%N -> nb = ((if s is SLeft then M else N) %/ nblas)%N ->
  inv_diag d (if s is SLeft then M else N) A ->
  solves s u t d M N A B (ftrsm_delayed n s u t d nblas nb M N junk A B).
Proof.
move=> good n0.
elim: n s nb M N A B => [|n IH] s nb M N A B; first by case: s; lia.
move=> Hn nbE dA /=.
case: leqP => HN; first by apply: ftrsm_base_ok good _ _ => //; move: Hn HN; case: (s); lia.
set up := uphalf nb; set a := (up * nblas)%N; set Na := if s is SLeft then M else N in Hn nbE dA HN.
have nb1 : (0 < nb)%N by rewrite nbE divn_gt0 // ltnW.
have up0 : (0 < up <= nb)%N by rewrite /up uphalf_half; lia.
have Ha0 : (0 < a)%N by rewrite muln_gt0 n0 andbT; lia.
have Hdm := divn_eq Na nblas; have Hml := ltn_mod Na nblas; rewrite -nbE in Hdm; rewrite n0 in Hml.
have Ha : (a < Na)%N.
  case: (ltnP up nb) => H; last first.
    have nbs : nb = 1%N by rewrite /up uphalf_half in H up0; lia.
    have upE : up = 1%N by lia.
    by rewrite /a upE mul1n.
  have : (up * nblas < nb * nblas)%N by rewrite ltn_pmul2r.
  by rewrite /a; lia.
have rest1 : up = (a %/ nblas)%N by rewrite /a mulnK.
have rest2 : (nb - up)%N = ((Na - a) %/ nblas)%N.
  have le : (up * nblas <= nb * nblas)%N by rewrite leq_mul2r; lia.
  have -> : (Na - a = (nb - up) * nblas + Na %% nblas)%N by rewrite mulnBl /a; lia.
  by rewrite divnMDl // [X in (_ + X)%N]divn_small // addn0.
rewrite {}/Na in Hn nbE dA HN Ha Hdm Hml rest2.
case: s Hn nbE dA HN Ha Hdm Hml rest2 => Hn nbE dA HN Ha Hdm Hml rest2; case E: eff_lower => /=.
- apply: (LL_final (o := a) (n := M - a)) => //; first lia.
    apply: LL_first => //; first lia.
    apply: IH => //; [lia|apply: (inv_diag_sub (a := 0)) dA; lia].
  by apply: IH => //; [lia|apply: inv_diag_sub dA; lia].
- apply: (LU_final (o := a) (n := M - a)) => //; rewrite ?E //; first lia.
    apply: LU_first => //; rewrite ?E //; first lia.
    apply: IH => //; [lia|apply: inv_diag_sub dA; lia].
  by apply: IH => //; [lia|apply: (inv_diag_sub (a := 0)) dA; lia].
- apply: (RL_final (o := a) (n := N - a)) => //; first lia.
    apply: RL_first => //; first lia.
    apply: IH => //; [lia|apply: inv_diag_sub dA; lia].
  by apply: IH => //; [lia|apply: (inv_diag_sub (a := 0)) dA; lia].
- apply: (RU_final (o := a) (n := N - a)) => //; rewrite ?E //; first lia.
    apply: RU_first => //; rewrite ?E //; first lia.
    apply: IH => //; [lia|apply: (inv_diag_sub (a := 0)) dA; lia].
  by apply: IH => //; [lia|apply: inv_diag_sub dA; lia].
Qed.

Lemma ftrsm_fp_iter s u t d nblas ns M N junk A B i :
  fp_good t d nblas -> (0 < nblas)%N -> (0 < ns)%N ->
  (i * ns <= (if s is SLeft then M else N))%N -> inv_diag d (if s is SLeft then M else N) A ->
  inv s u t d (i * ns) M N A B (iteri i (ftrsm_fp_step s u t d nblas ns M N junk A) B).
Proof.
move=> good b0 s0; elim: i => [|i IH] Hi dA; first by rewrite mul0n; exact: inv0.
rewrite mulSn in Hi; have /IH := dA; move=> /(_ (leq_trans (leq_addl _ _) Hi)) I.
rewrite iteriS; move: (iteri i _ _) I => X I.
have Ei : (i.+1 * ns = i * ns + ns)%N by rewrite mulSn addnC.
rewrite Ei.
case: s Hi dA I {IH} => Hi dA I; rewrite /ftrsm_fp_step; case E: eff_lower; rewrite Ei.
- apply: (LL_step E _ I); first lia.
  by apply: ftrsm_delayed_ok => //; [lia|apply: inv_diag_sub dA; lia].
- apply: (LU_step (slv := ftrsm_delayed M.+1 SLeft u t d nblas (ns %/ nblas) ns N junk (sub (M - (i * ns + ns)) (M - (i * ns + ns)) A)) _ _ I); rewrite ?E //; first lia.
  by apply: ftrsm_delayed_ok => //; [lia|apply: inv_diag_sub dA; lia].
- apply: (RL_step (slv := ftrsm_delayed N.+1 SRight u t d nblas (ns %/ nblas) M ns junk (sub (N - (i * ns + ns)) (N - (i * ns + ns)) A)) _ _ I); rewrite ?E //; first lia.
  by apply: ftrsm_delayed_ok => //; [lia|apply: inv_diag_sub dA; lia].
- apply: (RU_step _ _ I); rewrite ?E //; first lia.
  by apply: ftrsm_delayed_ok => //; [lia|apply: inv_diag_sub dA; lia].
Qed.

Lemma ftrsm_fp_loop_ok s u t d nblas ns M N junk A B :
  fp_good t d nblas -> (0 < nblas)%N -> (0 < ns)%N ->
  (0 < (if s is SLeft then M else N))%N -> inv_diag d (if s is SLeft then M else N) A ->
  solves s u t d M N A B (ftrsm_fp_loop s u t d nblas ns M N junk A B).
Proof.
move=> good b0 s0; rewrite /ftrsm_fp_loop.
set Na := if s is SLeft then M else N => Na0 dA.
have Hd := divn_eq Na.-1 ns; have Hm := ltn_pmod Na.-1 s0.
set nb := (Na.-1 %/ ns)%N in Hd *; set nr := (Na.-1 %% ns).+1.
have NE : (nb * ns + nr = Na)%N by rewrite /nr addnS -Hd prednK.
have nr0 : (0 < nr)%N by [].
have I : inv s u t d (nb * ns) M N A B (iteri nb (ftrsm_fp_step s u t d nblas ns M N junk A) B).
  by apply: ftrsm_fp_iter => //; rewrite -/Na; lia.
move: (iteri nb _ _) I => X I.
move: nb nr nr0 NE I {Hd Hm} => nb nr nr0 NE I; rewrite {}/Na in Na0 dA NE *.
case: s Na0 dA NE I => Na0 dA NE I; case E: eff_lower.
- have -> : (M - nr = nb * ns)%N by lia.
  apply: (LL_final E NE I).
  by apply: ftrsm_delayed_ok => //; [lia|apply: inv_diag_sub dA; lia].
- apply: (LU_final _ NE I); rewrite ?E //.
  by apply: ftrsm_delayed_ok => //; [lia|apply: (inv_diag_sub (a := 0)) dA; lia].
- apply: (RL_final _ NE I); rewrite ?E //.
  by apply: ftrsm_delayed_ok => //; [lia|apply: (inv_diag_sub (a := 0)) dA; lia].
- have -> : (N - nr = nb * ns)%N by lia.
  apply: (RU_final _ NE I); rewrite ?E //.
  by apply: ftrsm_delayed_ok => //; [lia|apply: inv_diag_sub dA; lia].
Qed.

(** ** Matrix statements *)
Definition opT u t d n A : 'M[F]_n := opmx t (trimx u d n A).

Lemma opTE u t d n A : opT u t d n A = mx n n (triop u t d A).
Proof. by case: t => //; apply/matrixP => i j; rewrite !mxE. Qed.

Lemma mxD m n A B : mx m n A + mx m n B = mx m n (fun i j => A i j + B i j).
Proof. by apply/matrixP => i j; rewrite !mxE. Qed.
Lemma mxZ m n a A : a *: mx m n A = mx m n (fun i j => a * A i j).
Proof. by apply/matrixP => i j; rewrite !mxE. Qed.
Lemma mxM m k n A B : mx m k A *m mx k n B = mx m n (fun i j => rsum k (fun t => A i t * B t j)).
Proof. by apply/matrixP => i j; rewrite !mxE rsumE; apply: eq_bigr => t _; rewrite !mxE. Qed.
Lemma eq_mx m n A B : (forall i j, (i < m)%N -> (j < n)%N -> A i j = B i j) -> mx m n A = mx m n B.
Proof. by move=> H; apply/matrixP => i j; rewrite !mxE H. Qed.
Lemma mx_eq m n A B : mx m n A = mx m n B -> forall i j, (i < m)%N -> (j < n)%N -> A i j = B i j.
Proof. by move/matrixP => H i j im jn; have := H (Ordinal im) (Ordinal jn); rewrite !mxE. Qed.

Lemma solves_mx s u t d M N A B X : solves s u t d M N A B X ->
  match s with
  | SLeft => opT u t d M A *m mx M N X = mx M N B
  | SRight => mx M N X *m opT u t d N A = mx M N B
  end.
Proof.
case=> _; case: s => S; rewrite opTE mxM; apply: eq_mx => i j iM jN; rewrite -S //.
by apply: eq_rsum => k _; rewrite mulrC.
Qed.

Lemma opT_unit u t d n A : inv_diag d n A -> opT u t d n A \in unitmx.
Proof.
move=> dA; rewrite unitmxE.
suff -> : \det (opT u t d n A) = \prod_(i < n) (if d is Unit then 1 else A i i).
  rewrite unitfE; apply/prodf_neq0 => i _; case: d dA => dA; first exact: oner_neq0.
  exact: dA.
have dt : \det (opT u t d n A) = \det (trimx u d n A) by rewrite /opT /opmx; case: t; rewrite ?det_tr.
rewrite dt; case: u dt => _.
- rewrite -det_tr det_trig; last by apply/is_trig_mxP => i j ij; rewrite !mxE /tri ifN ?ifN //; lia.
  by apply: eq_bigr => i _; rewrite !mxE /tri eqxx.
- rewrite det_trig; last by apply/is_trig_mxP => i j ij; rewrite !mxE /tri ifN ?ifN //; lia.
  by apply: eq_bigr => i _; rewrite !mxE /tri eqxx.
Qed.

Lemma solves_uniq s u t d M N A B X Y : inv_diag d (if s is SLeft then M else N) A ->
  solves s u t d M N A B X -> solves s u t d M N A B Y -> X =2 Y.
Proof.
move=> dA SX SY i j; case E : ((i < M) && (j < N))%N; last first.
  by case: SX SY => frX _ [frY _]; rewrite frX ?frY ?E.
move/andP: E => [iM jN]; apply: (@mx_eq M N X Y _ i j iM jN).
have := solves_mx SX; have := solves_mx SY.
by case: s dA {SX SY} => dA <-; have U := opT_unit u t dA; [move/(can_inj (mulKmx U))|move/(can_inj (mulmxK U))].
Qed.

(** ftrsm on generic elements. *)
Lemma ftrsm_mx s u t d M N alpha A B : inv_diag d (if s is SLeft then M else N) A ->
  let X := ftrsm s u t d M N alpha A B in
  frame M N X B /\
  match s with
  | SLeft => opmx t (trimx u d M A) *m mx M N X = alpha *: mx M N B
  | SRight => mx M N X *m opmx t (trimx u d N A) = alpha *: mx M N B
  end.
Proof.
move=> dA X; rewrite {}/X /ftrsm.
case: (posnP M) => [M0|M0]; first by subst M; split=> //; case: s dA => _; apply/matrixP => -[].
case: (posnP N) => [N0|N0]; first by subst N; rewrite orbT; split=> //; case: s dA => _; apply/matrixP => i [].
set B1 := ftrsm_rec _ _ _ _ _ _ _ _ _.
have S : solves s u t d M N A B B1 by apply: ftrsm_rec_ok => //; case: (s); lia.
have E : (if alpha == 1 then B1 else fscalin M N alpha B1) =2 fscalin M N alpha B1.
  by move=> i j; case: eqP => // ->; rewrite fscalinE mul1r; case: ifP.
split; first by move=> i j ij; rewrite E fscalinE (negbTE ij); case: S => ->.
have -> : mx M N (if alpha == 1 then B1 else fscalin M N alpha B1) = alpha *: mx M N B1.
  by rewrite mxZ; apply: eq_mx => i j iM jN; rewrite E fscalinE iM jN.
by move/solves_mx: S; case: (s) => <-; [rewrite -scalemxAr|rewrite -scalemxAl].
Qed.

Lemma ftrsm_fp_ftrsm s u t d nblas ns M N alpha junk A B :
  fp_good t d nblas -> (0 < nblas)%N -> (0 < ns)%N -> inv_diag d (if s is SLeft then M else N) A ->
  ftrsm_fp s u t d nblas ns M N alpha junk A B =2 ftrsm s u t d M N alpha A B.
Proof.
move=> good b0 s0 dA i j; rewrite /ftrsm_fp /ftrsm; case: ifP => //.
move=> /norP[M0 N0].
have Na0 : (0 < (if s is SLeft then M else N))%N by case: (s); lia.
have S1 := @ftrsm_fp_loop_ok s u t d nblas ns M N junk A B good b0 s0 Na0 dA.
have S2 : solves s u t d M N A B (ftrsm_rec (if s is SLeft then M else N) s u t d M N A B).
  by apply: ftrsm_rec_ok => //; rewrite Na0 leqnn.
have E := solves_uniq dA S1 S2.
by case: eqP => _; rewrite ?fscalinE E.
Qed.

End Solve.
