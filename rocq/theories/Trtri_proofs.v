(** * Proofs about ftrsv, fger, ftrtri and ftrtrm *)
From mathcomp Require Import all_ssreflect all_algebra zify ring.
From Verif Require Import Grid Perm_model Perm_spec Tri_model Tri_spec Tri_proofs Trmm_proofs.
Set Implicit Arguments.
Unset Strict Implicit.
Unset Printing Implicit Defensive.
Import GRing.Theory.
Local Open Scope ring_scope.

Section Trtri.
Variable F : fieldType.
Implicit Types A B X : grid F.

(** ** ftrsv *)
Lemma tri_row_lo T N (x : nat -> F) k : (forall i j, (i < j)%N -> T i j = 0) -> (k < N)%N ->
  rsum N (fun l => T k l * x l) = rsum k (fun l => T k l * x l) + T k k * x k.
Proof.
move=> T0 kN; have -> : N = (k + (1 + (N - k - 1)))%N by lia.
rewrite !rsum_cat /= add0r addn0; congr (_ + _).
by rewrite [X in _ + X]rsum0 ?addr0 // => l _; rewrite T0 ?mul0r //; lia.
Qed.

Lemma tri_row_up T N (x : nat -> F) k : (forall i j, (j < i)%N -> T i j = 0) -> (k < N)%N ->
  rsum N (fun l => T k l * x l) = T k k * x k + rsum (N - k - 1) (fun l => T k (k + 1 + l)%N * x (k + 1 + l)%N).
Proof.
move=> T0 kN; have {1}-> : N = (k + (1 + (N - k - 1)))%N by lia.
rewrite !rsum_cat /= add0r addn0 rsum0; last by move=> l lk; rewrite T0 ?mul0r //; lia.
by rewrite add0r; congr (_ + _); apply: eq_rsum => l _; rewrite addnA.
Qed.

Lemma diagE u t d A i (z : F) : inv_diag d i.+1 A ->
  triop u t d A i i * (if d is NonUnit then z / A i i else z) = z.
Proof.
move=> dA; rewrite triop_diag; case: d dA => [_|/(_ erefl i (ltnSn i)) a0]; first by rewrite mul1r.
by rewrite mulrC divfK.
Qed.

Lemma ftrsv_ok u t d N A (b : nat -> F) : inv_diag d N A ->
  let x := ftrsv u t d N A b in
  (forall i, (i < N)%N -> rsum N (fun k => triop u t d A i k * x k) = b i) /\
  (forall i, (N <= i)%N -> x i = b i).
Proof.
move=> dA x.
have dA' i : (i < N)%N -> inv_diag d i.+1 A by move=> iN /dA H k ki; apply: H; lia.
case lo: (eff_lower u t).
- pose f i (X : nat -> F) := memo1 N
    (let x := X i - rsum i (fun k => optr t A i k * X k) in
     upd1 X i (if d is NonUnit then x / A i i else x)).
  have xE : x = iteri N f b by rewrite /x /ftrsv /f; clear -lo; move: lo; case: u; case: t.
  have H m : (m <= N)%N ->
    (forall i, (i < m)%N -> rsum i (fun l => triop u t d A i l * iteri m f b l) + triop u t d A i i * iteri m f b i = b i) /\
    (forall i, (m <= i)%N -> iteri m f b i = b i).
    elim: m => [|m IH] mN; first by split.
    have [H1 H2] := IH (ltnW mN); rewrite iteriS; move: (iteri m f b) H1 H2 => X H1 H2.
    have fE i : f m X i = if i == m then (let x := X m - rsum m (fun k => optr t A m k * X k) in
       if d is NonUnit then x / A m m else x) else X i by rewrite /f memo1E.
    split=> i Hi; last by rewrite fE ifN ?H2 //; lia.
    have R : rsum i (fun l => triop u t d A i l * f m X l) = rsum i (fun l => triop u t d A i l * X l).
      by apply: eq_rsum => l li; rewrite fE ifN //; lia.
    rewrite R fE; case: eqP => [->|ne]; last by apply: H1; lia.
    rewrite /= diagE; last exact: dA'.
    rewrite H2 // addrC -addrA [X in _ + X](_ : _ = 0) ?addr0 //.
    apply/eqP; rewrite addrC subr_eq0; apply/eqP/eq_rsum => l lm; rewrite triop_lo //.
  have [H1 H2] := H N (leqnn _); rewrite -xE in H1 H2; split=> // i iN.
  by rewrite tri_row_lo ?H1 // => p q pq; rewrite triop_lo0.
- pose f i (X : nat -> F) := memo1 N
    (let r := (N - 1 - i)%N in
     let x := if i == 0%N then X r else
       X r - rsum i (fun k => (if t is Trans then A (r + 1 + k)%N r else A r (r + 1 + k)%N) * X (r + 1 + k)%N) in
     upd1 X r (if d is NonUnit then x / A r r else x)).
  have xE : x = iteri N f b by rewrite /x /ftrsv /f; clear -lo; move: lo; case: u; case: t.
  have H m : (m <= N)%N ->
    (forall i, (N - m <= i < N)%N -> triop u t d A i i * iteri m f b i +
       rsum (N - i - 1) (fun l => triop u t d A i (i + 1 + l)%N * iteri m f b (i + 1 + l)%N) = b i) /\
    (forall i, ~~ (N - m <= i < N)%N -> iteri m f b i = b i).
    elim: m => [|m IH] mN; first by split=> // i; lia.
    have [H1 H2] := IH (ltnW mN); rewrite iteriS; move: (iteri m f b) H1 H2 => X H1 H2.
    have rE : (N - 1 - m = N - m.+1)%N by lia.
    have fE i : f m X i = if i == (N - m.+1)%N then
      (let x := X (N - m.+1)%N - rsum m (fun k => optr t A (N - m.+1)%N (N - m.+1 + 1 + k)%N * X (N - m.+1 + 1 + k)%N) in
       if d is NonUnit then x / A (N - m.+1)%N (N - m.+1)%N else x) else X i.
      rewrite /f memo1E rE /upd1; case: ifP => // _; case: eqP => [->|_] /=; first by rewrite subr0.
      by rewrite /optr; case: (t).
    split=> i Hi; last by rewrite fE ifN ?H2 //; lia.
    have R : rsum (N - i - 1) (fun l => triop u t d A i (i + 1 + l)%N * f m X (i + 1 + l)%N) = rsum (N - i - 1) (fun l => triop u t d A i (i + 1 + l)%N * X (i + 1 + l)%N).
      by apply: eq_rsum => l li; rewrite fE ifN //; lia.
    rewrite R fE; case: eqP => [->|ne]; last by apply: H1; lia.
    rewrite /= diagE; last by apply: dA'; lia.
    rewrite H2; last lia.
    have -> : (N - (N - m.+1) - 1 = m)%N by lia.
    rewrite -addrA [X in _ + X](_ : _ = 0) ?addr0 //.
    by apply/eqP; rewrite addrC subr_eq0; apply/eqP/eq_rsum => l lm; rewrite triop_up ?lo //; lia.
  have [H1 H2] := H N (leqnn _); rewrite -xE in H1 H2; split=> i iN; last by apply: H2; lia.
  by rewrite tri_row_up ?H1 // => [|p q pq]; [lia|rewrite triop_up0 ?lo].
Qed.

(** ** fger *)
Lemma fger_ok M N alpha (x y : nat -> F) A i j :
  fger M N alpha x y A i j = if ((i < M) && (j < N))%N then A i j + alpha * x i * y j else A i j.
Proof.
rewrite /fger; case: eqP => [->|_]; first by rewrite !mul0r addr0 if_same.
have tE (z : F) : (if alpha == 1 then z else if alpha == -1 then - z else alpha * z) = alpha * z.
  by case: eqP => [->|_]; rewrite ?mul1r //; case: eqP => [->|_]; rewrite ?mulN1r.
case: ifP => _.
- have row m X r a p q : iteri m (fun j A => upd A r j (A r j + a * y j)) X p q =
      if ((p == r) && (q < m))%N then X p q + a * y q else X p q.
    elim: m p q => [|m IH] p q /=; first by rewrite ltn0 andbF.
    rewrite /upd !IH eqxx ltnn /=; case: eqP => [->|] //=.
    by case: eqP => [->|ne]; rewrite ?ltnSn //; congr (if _ then _ else _); lia.
  have all m p q : iteri m (fun i A => let tmp := if alpha == 1 then x i else if alpha == -1 then - x i else alpha * x i in
        memo M N (iteri N (fun j A => upd A i j (A i j + tmp * y j)) A)) A p q =
      if ((p < m) && (q < N))%N then A p q + alpha * x p * y q else A p q.
    elim: m p q => [|m IH] p q //; rewrite iteriS; cbv beta zeta; rewrite memoE row tE IH.
    case: eqP => [->|ne] /=; first by rewrite ltnn ltnSn.
    by congr (if _ then _ else _); lia.
  exact: all.
- have col m X c a p q : iteri m (fun i A => upd A i c (A i c + x i * a)) X p q =
      if ((q == c) && (p < m))%N then X p q + x p * a else X p q.
    elim: m p q => [|m IH] p q /=; first by rewrite ltn0 andbF.
    rewrite /upd !IH eqxx ltnn /= andbC; case: eqP => [->|] //=.
    by case: eqP => [->|ne]; rewrite ?ltnSn //; congr (if _ then _ else _); lia.
  have all m p q : iteri m (fun j A => let tmp := if alpha == 1 then y j else if alpha == -1 then - y j else alpha * y j in
        memo M N (iteri M (fun i A => upd A i j (A i j + x i * tmp)) A)) A p q =
      if ((p < M) && (q < m))%N then A p q + alpha * x p * y q else A p q.
    elim: m p q => [|m IH] p q //; first by rewrite andbF.
    rewrite iteriS; cbv beta zeta; rewrite memoE col tE IH mulrCA mulrA.
    case: eqP => [->|ne] /=; first by rewrite ltnn ltnSn andbF andbT.
    by congr (if _ then _ else _); lia.
  exact: all.
Qed.

(** ** ftrtri *)
Lemma trimx_up d n1 n2 A : trimx Upper d (n1 + n2) A =
  block_mx (trimx Upper d n1 A) (mx n1 n2 (sub 0 n1 A)) 0 (trimx Upper d n2 (sub n1 n1 A)).
Proof.
apply/matrixP => i j; rewrite !mxE; case: splitP => i' ->; rewrite !mxE; case: splitP => j' ->; rewrite !mxE //.
- by rewrite /tri ifN ?ifT //; have := ltn_ord i'; lia.
- by rewrite /tri ifN ?ifN //; have := ltn_ord j'; lia.
- by rewrite /tri /sub eqn_add2l ltn_add2l; case: eqP => //= ->.
Qed.

Lemma trimx_lo d n1 n2 A : trimx Lower d (n1 + n2) A =
  block_mx (trimx Lower d n1 A) 0 (mx n2 n1 (sub n1 0 A)) (trimx Lower d n2 (sub n1 n1 A)).
Proof.
apply/matrixP => i j; rewrite !mxE; case: splitP => i' ->; rewrite !mxE; case: splitP => j' ->; rewrite !mxE //.
- by rewrite /tri ifN ?ifN //; have := ltn_ord i'; lia.
- by rewrite /tri ifN ?ifT //; have := ltn_ord j'; lia.
- by rewrite /tri /sub eqn_add2l ltn_add2l; case: eqP => //= ->.
Qed.

Lemma eq_trimx u d n A X : (forall i j, (i < n)%N -> (j < n)%N ->
    ((if u is Lower then j < i else i < j) || (if d is NonUnit then i == j else false))%N -> A i j = X i j) ->
  trimx u d n A = trimx u d n X.
Proof.
move=> H; apply: eq_mx => i j iN jN; rewrite /tri; case: eqP => [_|/eqP ne].
  by case: d H => //= H; rewrite H // eqxx orbT.
by case: ifP => // lt; rewrite H // lt.
Qed.

Definition inverts u d n A X := tri_frame u d n X A /\ trimx u d n A *m trimx u d n X = 1%:M.

Lemma ftrmm_fr s u t d M N alpha A B : frame M N (ftrmm s u t d M N alpha A B) B.
Proof. by have [] := ftrmm_mx s u t d M N alpha A B. Qed.

Lemma inv_up_block d n1 n2 A X :
  tri_frame Upper d (n1 + n2) X A ->
  trimx Upper d n1 A *m trimx Upper d n1 X = 1%:M ->
  trimx Upper d n2 (sub n1 n1 A) *m trimx Upper d n2 (sub n1 n1 X) = 1%:M ->
  mx n1 n2 (sub 0 n1 X) = - (trimx Upper d n1 X *m mx n1 n2 (sub 0 n1 A) *m trimx Upper d n2 (sub n1 n1 X)) ->
  inverts Upper d (n1 + n2) A X.
Proof.
move=> fr H1 H2 H3; split=> //; rewrite !trimx_up mulmx_block H1 H2 H3 !mul0mx !mulmx0 !addr0 !add0r.
by rewrite mulmxN !mulmxA H1 mul1mx addrC subrr -scalar_mx_block.
Qed.

Lemma inv_lo_block d n1 n2 A X :
  tri_frame Lower d (n1 + n2) X A ->
  trimx Lower d n1 A *m trimx Lower d n1 X = 1%:M ->
  trimx Lower d n2 (sub n1 n1 A) *m trimx Lower d n2 (sub n1 n1 X) = 1%:M ->
  mx n2 n1 (sub n1 0 X) = - (trimx Lower d n2 (sub n1 n1 X) *m mx n2 n1 (sub n1 0 A) *m trimx Lower d n1 X) ->
  inverts Lower d (n1 + n2) A X.
Proof.
move=> fr H1 H2 H3; split=> //; rewrite !trimx_lo mulmx_block H1 H2 H3 !mul0mx !mulmx0 !addr0 !add0r.
by rewrite mulmxN !mulmxA H2 mul1mx subrr -scalar_mx_block.
Qed.

Lemma inverts1 u d A : inv_diag d 1 A -> inverts u d 1 A (if d is NonUnit then upd A 0 0 (A 0%N 0%N)^-1 else A).
Proof.
move=> dA; split.
  move=> i j; case: d dA => // _ H; rewrite /upd ifN //; lia.
apply/matrixP => i j; rewrite !mxE big_ord1 !ord1 !mxE /tri /=.
by case: d dA => [|/(_ erefl 0%N isT) a0]; rewrite ?mulr1 // /upd /= divff.
Qed.

Definition tcell (u : uplo) (d : diag) (n i j : nat) : bool :=
  ((i < n) && (j < n) && ((if u is Lower then j < i else i < j) || (if d is NonUnit then i == j else false)))%N.

Lemma inverts_ext u d n A A' X X' : A =2 A' -> X =2 X' -> inverts u d n A X -> inverts u d n A' X'.
Proof.
move=> EA EX [fr H]; split; first by move=> i j /fr; rewrite EA EX.
by rewrite -H; congr (_ *m _); apply: eq_trimx.
Qed.

(** Both diagonal blocks are inverted, the rest is untouched. *)
Definition pre u d n1 n2 A X :=
  [/\ forall i j, ~~ (tcell u d n1 i j || [&& (n1 <= i)%N, (n1 <= j)%N & tcell u d n2 (i - n1) (j - n1)]) -> X i j = A i j,
      trimx u d n1 A *m trimx u d n1 X = 1%:M &
      trimx u d n2 (sub n1 n1 A) *m trimx u d n2 (sub n1 n1 X) = 1%:M].

Lemma pre_rec u d n1 n2 A A1 f : inverts u d n1 A A1 ->
  inverts u d n2 (sub n1 n1 A1) (f (sub n1 n1 A1)) -> pre u d n1 n2 A (at_ n1 n1 f A1).
Proof.
move=> [fr1 H1] [fr2 H2].
have E1 i j : (n1 <= i)%N || (n1 <= j)%N -> A1 i j = A i j by move=> H; rewrite fr1 //; lia.
split.
- move=> i j H; rewrite /at_; case: ifP => [/andP[Hi Hj]|_]; last by apply: fr1; move: H; rewrite negb_or => /andP[].
  rewrite fr2; first by rewrite /sub !subnKC ?E1 ?Hi.
  by move: H; rewrite negb_or Hi Hj => /andP[].
- rewrite -H1; congr (_ *m _); apply: eq_trimx => i j iN jN _; rewrite at_out ?iN //.
- rewrite -H2; congr (_ *m _); apply: eq_trimx => i j iN jN _.
  + by rewrite /sub E1 ?leq_addr.
  + by rewrite /sub at_in.
Qed.

Lemma pre_tri_frame u d n1 n2 A X i j : pre u d n1 n2 A X -> ~~ tcell u d (n1 + n2) i j -> X i j = A i j.
Proof. by case=> fr _ _ H; apply: fr; apply: contra H; rewrite /tcell; case: u; case: d => /=; lia. Qed.

Lemma block_up_gen d n1 n2 A X Y : pre Upper d n1 n2 A X ->
  (forall i j, ~~ ((i < n1) && (n1 <= j < n1 + n2))%N -> Y i j = X i j) ->
  mx n1 n2 (sub 0 n1 Y) =
    - (trimx Upper d n1 X *m mx n1 n2 (sub 0 n1 X) *m trimx Upper d n2 (sub n1 n1 X)) ->
  inverts Upper d (n1 + n2) A Y.
Proof.
move=> P fr E; case: (P) => frP H1 H2.
have T1 : trimx Upper d n1 Y = trimx Upper d n1 X.
  by apply: eq_trimx => i j iN jN _; rewrite fr //; lia.
have T2 : trimx Upper d n2 (sub n1 n1 Y) = trimx Upper d n2 (sub n1 n1 X).
  by apply: eq_trimx => i j iN jN _; rewrite /sub fr //; lia.
apply: inv_up_block; rewrite ?T1 ?T2 //.
- move=> i j ij; rewrite -(pre_tri_frame P) // fr //; apply: contra ij => ?; lia.
- rewrite E; congr (- (_ *m _ *m _)); apply: eq_mx => i j iN jN; rewrite /sub frP //.
  by rewrite /tcell; lia.
Qed.

Lemma block_up d n1 n2 A X f : pre Upper d n1 n2 A X ->
  frame n1 n2 (f (sub 0 n1 X)) (sub 0 n1 X) ->
  mx n1 n2 (f (sub 0 n1 X)) =
    - (trimx Upper d n1 X *m mx n1 n2 (sub 0 n1 X) *m trimx Upper d n2 (sub n1 n1 X)) ->
  inverts Upper d (n1 + n2) A (at_ 0 n1 f X).
Proof.
move=> P fr E; apply: (block_up_gen P).
- move=> i j ij; rewrite /at_ /=; case: ifP => // nj.
  by rewrite fr /sub ?subn0 ?subnKC //; apply: contra ij => ?; lia.
- by rewrite -E; apply: eq_mx => i j _ _; rewrite /sub at_in.
Qed.

Lemma block_lo d n1 n2 A X f : pre Lower d n1 n2 A X ->
  frame n2 n1 (f (sub n1 0 X)) (sub n1 0 X) ->
  mx n2 n1 (f (sub n1 0 X)) =
    - (trimx Lower d n2 (sub n1 n1 X) *m mx n2 n1 (sub n1 0 X) *m trimx Lower d n1 X) ->
  inverts Lower d (n1 + n2) A (at_ n1 0 f X).
Proof.
move=> P fr E; case: (P) => frP H1 H2.
have T1 : trimx Lower d n1 (at_ n1 0 f X) = trimx Lower d n1 X.
  by apply: eq_trimx => i j iN jN _; rewrite at_out // iN.
have T2 : trimx Lower d n2 (sub n1 n1 (at_ n1 0 f X)) = trimx Lower d n2 (sub n1 n1 X).
  apply: eq_trimx => i j iN jN _; rewrite /sub /at_ leq_addr /= fr ?subn0 ?addKn //.
  by rewrite negb_and orbC -leqNgt leq_addr.
apply: inv_lo_block; rewrite ?T1 ?T2 //.
- move=> i j ij; rewrite -(pre_tri_frame P) // /at_ /=; case: ifP => // nj.
  by rewrite fr /sub ?subn0 ?subnKC //; [lia|apply: contra ij => ?; lia].
- have -> : mx n2 n1 (sub n1 0 (at_ n1 0 f X)) = mx n2 n1 (f (sub n1 0 X)).
    by apply: eq_mx => i j _ _; rewrite /sub at_in.
  rewrite E; congr (- (_ *m _ *m _)); apply: eq_mx => i j iN jN; rewrite /sub frP //.
  by rewrite /tcell; lia.
Qed.

Lemma at_at p q f g X : at_ p q g (at_ p q f X) =2 at_ p q (fun Y => g (sub p q (at_ p q f X))) X.
Proof. by move=> i j; rewrite /at_; case: ifP => // ->. Qed.

Lemma mx_sub_at p q m n f X : mx m n (sub p q (at_ p q f X)) = mx m n (f (sub p q X)).
Proof. by apply: eq_mx => i j _ _; rewrite /sub at_in. Qed.

Lemma frame_trans m n X Y Z : frame m n X Y -> frame m n Y Z -> frame m n X Z.
Proof. by move=> H1 H2 i j ij; rewrite H1 ?H2. Qed.

Lemma sub_at_frame p q m n f X : frame m n (f (sub p q X)) (sub p q X) ->
  frame m n (sub p q (at_ p q f X)) (sub p q X).
Proof. by move=> H i j ij; rewrite /sub at_in H. Qed.

Lemma ftrtri_rec_up d n1 n2 A X : pre Upper d n1 n2 A X ->
  let A3 := at_ 0 n1 (ftrmm SLeft Upper NoTrans d n1 n2 1 X) X in
  inverts Upper d (n1 + n2) A (at_ 0 n1 (ftrmm SRight Upper NoTrans d n1 n2 (-1) (sub n1 n1 A3)) A3).
Proof.
move=> P A3; apply: inverts_ext (fun _ _ => erefl) (fun i j => esym (at_at _ _ _ _ _ i j)) _.
have [fr1 E1] := ftrmm_mx SLeft Upper NoTrans d n1 n2 1 X (sub 0 n1 X).
have [fr2 E2] := ftrmm_mx SRight Upper NoTrans d n1 n2 (-1) (sub n1 n1 A3) (sub 0 n1 A3).
apply: (block_up P).
  by apply: frame_trans fr2 _; apply: sub_at_frame.
rewrite E2 /opprod /= mx_sub_at E1 /= scale1r scaleN1r; congr (- (_ *m _)).
apply: eq_trimx => i j iN jN _; rewrite /A3 /sub /at_ leq_addr /= fr1 /sub ?subn0 ?addKn //.
by rewrite negb_and -leqNgt leq_addr.
Qed.

Lemma ftrtri_rec_lo d n1 n2 A X : pre Lower d n1 n2 A X ->
  let A3 := at_ n1 0 (ftrmm SLeft Lower NoTrans d n2 n1 1 (sub n1 n1 X)) X in
  inverts Lower d (n1 + n2) A (at_ n1 0 (ftrmm SRight Lower NoTrans d n2 n1 (-1) A3) A3).
Proof.
move=> P A3; apply: inverts_ext (fun _ _ => erefl) (fun i j => esym (at_at _ _ _ _ _ i j)) _.
have [fr1 E1] := ftrmm_mx SLeft Lower NoTrans d n2 n1 1 (sub n1 n1 X) (sub n1 0 X).
have [fr2 E2] := ftrmm_mx SRight Lower NoTrans d n2 n1 (-1) A3 (sub n1 0 A3).
apply: (block_lo P).
  by apply: frame_trans fr2 _; apply: sub_at_frame.
rewrite E2 /opprod /= mx_sub_at E1 /= scale1r scaleN1r; congr (- (_ *m _)).
by apply: eq_trimx => i j iN jN _; rewrite /A3 at_out // iN.
Qed.

Lemma inverts0 u d A : inverts u d 0 A A.
Proof. by split=> //; exact: mx0N. Qed.

Lemma ftrtri_base_lo d N A : inv_diag d N A -> (0 < N)%N ->
  inverts Lower d N A (ftrtri_base Lower d N A).
Proof.
move=> dA N0; rewrite /ftrtri_base.
pose invd i (A : grid F) := if d is NonUnit then upd A i i (A i i)^-1 else A.
set f := fun k A => _.
have H m : (m <= N.-1)%N -> inverts Lower d m.+1 A (iteri m f (invd 0%N A)).
  elim: m => [|m IH] Hm; first by apply: inverts1 => /dA H k k1; apply: H; lia.
  rewrite iteriS; have {IH} := IH (ltnW Hm); move: (iteri m f _) => X [fr I].
  rewrite {}/f /=; set A1 := (if d is NonUnit then upd X m.+1 m.+1 (X m.+1 m.+1)^-1 else X).
  have A1E i j : A1 i j = if (i == m.+1) && (j == m.+1) then (if d is NonUnit then (X i j)^-1 else X i j) else X i j.
    by rewrite /A1; case: (d); rewrite /upd; case: ifP => // /andP[/eqP-> /eqP->].
  clearbody A1; clear invd.
  have P : pre Lower d m.+1 1 A A1.
    have XA i j : (m < i)%N || (m < j)%N -> X i j = A i j by move=> ij; rewrite fr //; lia.
    split.
    - move=> i j H; rewrite A1E; case: ifP => [|_].
        by move=> /andP[/eqP ei /eqP ej]; move: H; subst i j; rewrite /tcell ltnn subnn /= ltnSn /=; case: (d) => //= _; rewrite XA ?ltnSn.
      by apply: fr; apply: contra H; rewrite /tcell => ->.
    - rewrite -I; congr (_ *m _); apply: eq_trimx => i j iN jN _; rewrite A1E ifN //; lia.
    - have d1 : inv_diag d 1 (sub m.+1 m.+1 A) by move=> dN i i1; rewrite /sub; apply: dA => //; lia.
      have [_] := @inverts1 Lower d _ d1.
      move <-; congr (_ *m _); apply: eq_trimx => i j i1 j1.
      have {i1}-> : i = 0%N by lia.
      have {j1}-> : j = 0%N by lia.
      by case: (d) A1E => //= A1E _; rewrite /sub /upd A1E addn0 !eqxx /= XA // ltnSn.
  rewrite -addn1; apply: block_lo P _ _; first exact: ftrmm_fr.
  have [_ ->] := ftrmm_mx SRight Lower NoTrans d 1 m.+1 (if d is NonUnit then - A1 m.+1 m.+1 else -1) A1 (sub m.+1 0 A1).
  rewrite /opprod /= -mulmxA [X in - (X *m _)](_ : _ = (if d is NonUnit then A1 m.+1 m.+1 else 1)%:M).
    by rewrite mul_scalar_mx -scaleNr; congr (_ *: _); case: (d).
  by apply/matrixP => i j; rewrite !ord1 !mxE /tri /= mulr1n; case: (d) => //; rewrite /sub addn0.
by have := H N.-1 (leqnn _); rewrite prednK.
Qed.

Lemma ftrtri_base_up d N A : inv_diag d N A -> (0 < N)%N ->
  inverts Upper d N A (ftrtri_base Upper d N A).
Proof.
move=> dA N0; rewrite /ftrtri_base.
pose invd i (A : grid F) := if d is NonUnit then upd A i i (A i i)^-1 else A.
set f := fun k A => _.
have H m X : (m <= N.-1)%N -> inverts Upper d (N - m) (sub m m A) (sub m m X) ->
    (forall i j, (i < m)%N || (j < m)%N -> X i j = A i j) -> inverts Upper d N A (iterd m f X).
  elim: m X => [|m IH] X Hm I XA.
    by rewrite subn0 in I; apply: inverts_ext I => i j.
  have {}IH := IH (f m X) (ltnW Hm); apply: IH; last first.
    move=> i j ij; rewrite /f at_out; last lia.
    rewrite -XA; last lia.
    by case: (d) => //; rewrite /upd ifN //; lia.
  rewrite {}/f /=; set A1 := (if d is NonUnit then upd X m m (X m m)^-1 else X).
  have A1E i j : A1 i j = if (i == m) && (j == m) then (if d is NonUnit then (X i j)^-1 else X i j) else X i j.
    by rewrite /A1; case: (d); rewrite /upd; case: ifP => // /andP[/eqP-> /eqP->].
  clearbody A1; clear invd.
  case: I => fr I.
  have P : pre Upper d 1 (N - m.+1) (sub m m A) (sub m m A1).
    split.
    - move=> i j H; rewrite /sub A1E; case: ifP => [|_].
        move=> /andP[/eqP ei /eqP ej]; have [{}ei {}ej] : i = 0%N /\ j = 0%N by lia.
        by move: H; subst i j; rewrite /tcell /=; case: (d) => // _; rewrite XA //; lia.
      case: (boolP ((i < 1) || (j < 1))%N) => ij; first by apply: XA; lia.
      have := fr i.-1 j.-1; rewrite /sub.
      have -> : (m.+1 + i.-1 = m + i)%N by lia.
      have -> : (m.+1 + j.-1 = m + j)%N by lia.
      apply; move: H; rewrite negb_or -!subn1 => /andP[_]; rewrite /tcell.
      by apply: contra => ->; lia.
    - have d1 : inv_diag d 1 (sub m m A) by move=> dN i i1; rewrite /sub; apply: dA => //; lia.
      have [_] := @inverts1 Upper d _ d1.
      move <-; congr (_ *m _); apply: eq_trimx => i j i1 j1.
      have {i1}-> : i = 0%N by lia.
      have {j1}-> : j = 0%N by lia.
      by case: (d) A1E => //= A1E _; rewrite /sub /upd A1E addn0 !eqxx /= XA // ltnSn.
    - have sm (Y : grid F) : sub 1 1 (sub m m Y) =2 sub m.+1 m.+1 Y.
        by move=> i j; rewrite /sub; congr (Y _ _); lia.
      rewrite -I; congr (_ *m _); apply: eq_trimx => i j iN jN _; rewrite sm //.
      by rewrite /sub A1E ifN //; lia.
  have e2 : (N - m = 1 + (N - m - 1))%N by lia.
  rewrite [X in inverts _ _ X]e2.
  have [fr1 E1] := ftrmm_mx SRight Upper NoTrans d 1 (N - m - 1) (if d is NonUnit then - A1 m m else -1) (sub m.+1 m.+1 A1) (sub m m.+1 A1).
  have e : (N - m - 1 = N - m.+1)%N by lia.
  rewrite -e in P; apply: (block_up_gen P).
    move=> i j ij; rewrite /sub /at_; case: ifP => // /andP[H1 H2].
    by rewrite fr1; [rewrite /sub; congr (A1 _ _)|]; lia.
  have -> Y : mx 1 (N - m - 1) (sub 0 1 (sub m m (at_ m m.+1 Y A1))) = mx 1 (N - m - 1) (Y (sub m m.+1 A1)).
    apply: eq_mx => i j iN jN; rewrite -(at_in m m.+1 Y A1) /sub; congr (at_ _ _ _ _ _ _); lia.
  have -> : mx 1 (N - m - 1) (sub 0 1 (sub m m A1)) = mx 1 (N - m - 1) (sub m m.+1 A1).
    by apply: eq_mx => i j iN jN; rewrite /sub; congr (A1 _ _); lia.
  rewrite E1.
  rewrite /opprod /= -mulmxA [X in - (X *m _)](_ : _ = (if d is NonUnit then A1 m m else 1)%:M).
    have -> : trimx Upper d (N - m - 1) (sub 1 1 (sub m m A1)) = trimx Upper d (N - m - 1) (sub m.+1 m.+1 A1).
      by apply: eq_trimx => i j _ _ _; rewrite /sub; congr (A1 _ _); lia.
    by rewrite mul_scalar_mx -scaleNr; congr (_ *: _); case: (d).
  by apply/matrixP => i j; rewrite !ord1 !mxE /tri /= mulr1n; case: (d) => //; rewrite /sub addn0.
apply: H => //; first last.
- by move=> i j ij; case: (d) => //; rewrite /upd ifN //; lia.
- have -> : (N - N.-1 = 1)%N by lia.
  have d1 : inv_diag d 1 (sub N.-1 N.-1 A) by move=> dN i i1; rewrite /sub; apply: dA => //; lia.
  apply: inverts_ext (fun _ _ => erefl) _ (inverts1 Upper d1) => i j.
  case: (d) => //; rewrite /sub /upd addn0.
  by congr (if _ then _ else _); lia.
Qed.

Lemma ftrtri_ok n u d th N A : inv_diag d N A -> (0 < th)%N -> (N <= n)%N ->
  inverts u d N A (ftrtri n u d th N A).
Proof.
move=> dA t0; elim: n N A dA => [|n IH] N A dA Hn.
  by have -> : N = 0%N by [lia]; exact: inverts0.
rewrite /=; case: eqP => [->|Nn]; first exact: inverts0.
case: ifP => Nt; first by case: (u); [apply: ftrtri_base_up|apply: ftrtri_base_lo] => //; lia.
set N1 := N./2; have N1N : (N1 + (N - N1) = N)%N by rewrite /N1; lia.
set A1 := ftrtri n u d th N1 A.
have I1 : inverts u d N1 A A1 by apply: IH; [move=> /dA H k k1; apply: H|]; lia.
have P : pre u d N1 (N - N1) A (at_ N1 N1 (ftrtri n u d th (N - N1)) A1).
  apply: pre_rec => //; apply: IH; last by rewrite /N1; lia.
  move=> dN i iN; case: I1 => fr _; rewrite /sub fr; first by apply: dA => //; lia.
  by rewrite ltnNge leq_addr.
rewrite -[X in inverts _ _ X](N1N); clearbody A1; clear -P; case: u P => P.
- exact: ftrtri_rec_up.
- exact: ftrtri_rec_lo.
Qed.

(** ** ftrtrm *)
Section Blocks.
Variables n1 n2 : nat.
Definition blk (p q : bool) X : 'M[F]_(if p then n2 else n1, if q then n2 else n1) :=
  mx _ _ (sub (if p then n1 else 0%N) (if q then n1 else 0%N) X).

Definition at2 (p q : bool) (f : grid F -> grid F) X :=
  if p || q then at_ (if p then n1 else 0%N) (if q then n1 else 0%N) f X else f X.

Lemma at2E p q f X : at2 p q f X =2 at_ (if p then n1 else 0%N) (if q then n1 else 0%N) f X.
Proof. by case: p; case: q => // i j; rewrite at00. Qed.

Lemma mx_block X : mx (n1 + n2) (n1 + n2) X =
  block_mx (blk false false X) (blk false true X) (blk true false X) (blk true true X).
Proof.
apply/matrixP => i j; rewrite !mxE; case: splitP => i' ->; rewrite !mxE; case: splitP => j' ->; by rewrite !mxE.
Qed.

Lemma blk_at p q f X p' q' :
  let m := if p then n2 else n1 in let n := if q then n2 else n1 in
  let X0 := sub (if p then n1 else 0%N) (if q then n1 else 0%N) X in
  frame m n (f X0) X0 ->
  blk p' q' (at2 p q f X) =
  if (p == p') && (q == q') then mx _ _ (f (sub (if p' then n1 else 0%N) (if q' then n1 else 0%N) X)) else blk p' q' X.
Proof.
move=> m n X0 fr; case E : ((p == p') && (q == q')).
  by move/andP: E => [/eqP ep /eqP eq]; subst p' q'; apply: eq_mx => i j _ _; rewrite /sub at2E at_in.
apply: eq_mx => i j iN jN; rewrite {1}/sub at2E /at_; case: ifP => // /andP[H1 H2].
rewrite fr; first by rewrite /X0 /sub !subnKC.
by rewrite /m /n {fr X0 m n}; case: p p' q q' E iN jN H1 H2 => [] [] [] [] //=; lia.
Qed.

Lemma trimx_blk u d p X Y : blk p p X = blk p p Y ->
  trimx u d _ (sub (if p then n1 else 0%N) (if p then n1 else 0%N) X) =
  trimx u d (if p then n2 else n1) (sub (if p then n1 else 0%N) (if p then n1 else 0%N) Y).
Proof. by move=> /mx_eq H; apply: eq_trimx => i j iN jN _; apply: H. Qed.

Lemma mx_sub00 m n X : mx m n (sub 0 0 X) = mx m n X.
Proof. by []. Qed.

Lemma frame_at p q f X :
  let m := if p then n2 else n1 in let n := if q then n2 else n1 in
  let X0 := sub (if p then n1 else 0%N) (if q then n1 else 0%N) X in
  frame m n (f X0) X0 ->
  frame (n1 + n2) (n1 + n2) (at2 p q f X) X.
Proof. by move=> m n X0 fr i j ij; rewrite at2E; move: i j ij; apply: frame_sub fr => //; rewrite /m /n; case: (p); case: (q); lia. Qed.

End Blocks.

Lemma fgemm_mx m n k A B C : mx m n (fgemm NoTrans NoTrans m n k 1 A B 1 C) = mx m k A *m mx k n B + mx m n C.
Proof. by rewrite mxM mxD; apply: eq_mx => i j iN jN; rewrite fgemmE iN jN /= !mul1r. Qed.

Lemma fgemm_fr ta tb m n k al A B be C : frame m n (fgemm ta tb m n k al A B be C) C.
Proof. by move=> i j ij; rewrite fgemmE (negbTE ij). Qed.

Lemma ftrtrm_step n1 n2 s d (f1 f2 : grid F -> grid F) A :
  let prod N A := match s with
    | SLeft => trimx Upper d N A *m trimx Lower (odiag d) N A
    | SRight => trimx Lower (odiag d) N A *m trimx Upper d N A end in
  (forall A, frame n1 n1 (f1 A) A /\ mx n1 n1 (f1 A) = prod n1 A) ->
  (forall A, frame n2 n2 (f2 A) A /\ mx n2 n2 (f2 A) = prod n2 A) ->
  let X := match s with
      | SLeft =>
        let A1 := f1 A in
        let A2 := fgemm NoTrans NoTrans n1 n1 n2 1 (sub 0 n1 A1) (sub n1 0 A1) 1 A1 in
        let A3 := at_ 0 n1 (ftrmm SRight Lower NoTrans (odiag d) n1 n2 1 (sub n1 n1 A2)) A2 in
        let A4 := at_ n1 0 (ftrmm SLeft Upper NoTrans d n2 n1 1 (sub n1 n1 A3)) A3 in
        at_ n1 n1 f2 A4
      | SRight =>
        let A1 := at_ n1 n1 f2 A in
        let A2 := at_ n1 n1 (fgemm NoTrans NoTrans n2 n2 n1 1 (sub n1 0 A1) (sub 0 n1 A1) 1) A1 in
        let A3 := at_ 0 n1 (ftrmm SLeft Lower NoTrans (odiag d) n1 n2 1 A2) A2 in
        let A4 := at_ n1 0 (ftrmm SRight Upper NoTrans d n2 n1 1 A3) A3 in
        f1 A4
      end in
  frame (n1 + n2) (n1 + n2) X A /\ mx (n1 + n2) (n1 + n2) X = prod (n1 + n2)%N A.
Proof.
move=> prod H1 H2.
have fg m n k B C D : frame m n (fgemm NoTrans NoTrans m n k 1 B C 1 D) D by exact: fgemm_fr.
have ft s' u' d' m n al B C : frame m n (ftrmm s' u' NoTrans d' m n al B C) C by exact: ftrmm_fr.
have fr1 B : frame n1 n1 (f1 B) B by case: (H1 B).
have fr2 B : frame n2 n2 (f2 B) B by case: (H2 B).
rewrite {}/prod in H1 H2 *; case: s H1 H2 => H1 H2; cbv zeta.
- set A1 := f1 A.
  set A2 := fgemm _ _ _ _ _ _ _ _ _ A1.
  set A3 := at_ 0 n1 _ A2.
  set A4 := at_ n1 0 _ A3.
  have b1 p q := @blk_at n1 n2 false false f1 A p q (fr1 _).
  have b2 p q := @blk_at n1 n2 false false _ A1 p q (fg n1 n1 n2 (sub 0 n1 A1) (sub n1 0 A1) _).
  have b3 p q := @blk_at n1 n2 false true _ A2 p q (ft SRight Lower (odiag d) n1 n2 1 (sub n1 n1 A2) _).
  have b4 p q := @blk_at n1 n2 true false _ A3 p q (ft SLeft Upper d n2 n1 1 (sub n1 n1 A3) _).
  have b5 p q := @blk_at n1 n2 true true f2 A4 p q (fr2 _).
  rewrite /= -/A1 -/A2 -/A3 -/A4 in b1 b2 b3 b4 b5.
  split.
    apply: frame_trans (@frame_at n1 n2 true true f2 A4 (fr2 _)) _.
    apply: frame_trans (@frame_at n1 n2 true false _ A3 (ft _ _ _ _ _ _ _ _)) _.
    apply: frame_trans (@frame_at n1 n2 false true _ A2 (ft _ _ _ _ _ _ _ _)) _.
    apply: frame_trans (@frame_at n1 n2 false false _ A1 (fg _ _ _ _ _ _)) _.
    exact: (@frame_at n1 n2 false false f1 A (fr1 _)).
  have t22 u' d' B : blk n1 n2 true true B = blk n1 n2 true true A -> trimx u' d' n2 (sub n1 n1 B) = trimx u' d' n2 (sub n1 n1 A).
    exact: (@trimx_blk n1 n2 u' d' true).
  have A2_22 : blk n1 n2 true true A2 = blk n1 n2 true true A by rewrite b2 b1.
  have A3_22 : blk n1 n2 true true A3 = blk n1 n2 true true A by rewrite b3 b2 b1.
  have A4_22 : blk n1 n2 true true A4 = blk n1 n2 true true A by rewrite b4 b3 b2 b1.
  have e11 : mx n1 n1 (fgemm NoTrans NoTrans n1 n1 n2 1 (sub 0 n1 A1) (sub n1 0 A1) 1 (sub 0 0 A1)) =
     blk n1 n2 false true A *m blk n1 n2 true false A + trimx Upper d n1 A *m trimx Lower (odiag d) n1 A.
    rewrite fgemm_mx; congr (_ *m _ + _); [exact: (b1 false true)|exact: (b1 true false)|].
    by rewrite -(H1 (sub 0 0 A)).2; exact: (b1 false false).
  have e12 : mx n1 n2 (ftrmm SRight Lower NoTrans (odiag d) n1 n2 1 (sub n1 n1 A2) (sub 0 n1 A2)) =
     blk n1 n2 false true A *m trimx Lower (odiag d) n2 (sub n1 n1 A).
    rewrite (ftrmm_mx _ _ _ _ _ _ _ _ _).2 scale1r /opprod /= t22 //; congr (_ *m _).
    by rewrite -[LHS]/(blk n1 n2 false true A2) b2 b1.
  have e21 : mx n2 n1 (ftrmm SLeft Upper NoTrans d n2 n1 1 (sub n1 n1 A3) (sub n1 0 A3)) =
     trimx Upper d n2 (sub n1 n1 A) *m blk n1 n2 true false A.
    rewrite (ftrmm_mx _ _ _ _ _ _ _ _ _).2 scale1r /opprod /= t22 //; congr (_ *m _).
    by rewrite -[LHS]/(blk n1 n2 true false A3) b3 b2 b1.
  have e22 : mx n2 n2 (f2 (sub n1 n1 A4)) = trimx Upper d n2 (sub n1 n1 A) *m trimx Lower (odiag d) n2 (sub n1 n1 A).
    by rewrite (H2 _).2 !t22.
  rewrite mx_block !b5 /= !b4 /= !b3 /= b2 /= e11 e12 e21 e22.
  rewrite trimx_up trimx_lo mulmx_block !mul0mx !mulmx0 !add0r.
  by congr block_mx; rewrite addrC.
- set A1 := at_ n1 n1 f2 A.
  set A2 := at_ n1 n1 (fgemm _ _ _ _ _ _ _ _ _) A1.
  set A3 := at_ 0 n1 _ A2.
  set A4 := at_ n1 0 _ A3.
  have b1 p q := @blk_at n1 n2 true true f2 A p q (fr2 _).
  have b2 p q := @blk_at n1 n2 true true _ A1 p q (fg n2 n2 n1 (sub n1 0 A1) (sub 0 n1 A1) _).
  have b3 p q := @blk_at n1 n2 false true _ A2 p q (ft SLeft Lower (odiag d) n1 n2 1 A2 _).
  have b4 p q := @blk_at n1 n2 true false _ A3 p q (ft SRight Upper d n2 n1 1 A3 _).
  have b5 p q := @blk_at n1 n2 false false f1 A4 p q (fr1 _).
  rewrite /= -/A1 -/A2 -/A3 -/A4 in b1 b2 b3 b4 b5.
  split.
    apply: frame_trans (@frame_at n1 n2 false false f1 A4 (fr1 _)) _.
    apply: frame_trans (@frame_at n1 n2 true false _ A3 (ft _ _ _ _ _ _ _ _)) _.
    apply: frame_trans (@frame_at n1 n2 false true _ A2 (ft _ _ _ _ _ _ _ _)) _.
    apply: frame_trans (@frame_at n1 n2 true true _ A1 (fg _ _ _ _ _ _)) _.
    exact: (@frame_at n1 n2 true true f2 A (fr2 _)).
  have t11 u' d' B : blk n1 n2 false false B = blk n1 n2 false false A -> trimx u' d' n1 B = trimx u' d' n1 A.
    exact: (@trimx_blk n1 n2 u' d' false).
  have A2_11 : blk n1 n2 false false A2 = blk n1 n2 false false A by rewrite b2 b1.
  have A3_11 : blk n1 n2 false false A3 = blk n1 n2 false false A by rewrite b3 b2 b1.
  have A4_11 : blk n1 n2 false false A4 = blk n1 n2 false false A by rewrite b4 b3 b2 b1.
  have e22 : mx n2 n2 (fgemm NoTrans NoTrans n2 n2 n1 1 (sub n1 0 A1) (sub 0 n1 A1) 1 (sub n1 n1 A1)) =
     blk n1 n2 true false A *m blk n1 n2 false true A + trimx Lower (odiag d) n2 (sub n1 n1 A) *m trimx Upper d n2 (sub n1 n1 A).
    rewrite fgemm_mx; congr (_ *m _ + _); [exact: (b1 true false)|exact: (b1 false true)|].
    by rewrite -(H2 (sub n1 n1 A)).2; exact: (b1 true true).
  have e12 : mx n1 n2 (ftrmm SLeft Lower NoTrans (odiag d) n1 n2 1 A2 (sub 0 n1 A2)) =
     trimx Lower (odiag d) n1 A *m blk n1 n2 false true A.
    rewrite (ftrmm_mx _ _ _ _ _ _ _ _ _).2 scale1r /opprod /= t11 //; congr (_ *m _).
    by rewrite -[LHS]/(blk n1 n2 false true A2) b2 b1.
  have e21 : mx n2 n1 (ftrmm SRight Upper NoTrans d n2 n1 1 A3 (sub n1 0 A3)) =
     blk n1 n2 true false A *m trimx Upper d n1 A.
    rewrite (ftrmm_mx _ _ _ _ _ _ _ _ _).2 scale1r /opprod /= t11 //; congr (_ *m _).
    by rewrite -[LHS]/(blk n1 n2 true false A3) b3 b2 b1.
  have e11 : mx n1 n1 (f1 (sub 0 0 A4)) = trimx Lower (odiag d) n1 A *m trimx Upper d n1 A.
    by rewrite (H1 _).2 -!/(sub 0 0 _) (t11 _ _ (sub 0 0 A4) A4_11) (t11 _ _ (sub 0 0 A4) A4_11).
  rewrite mx_block !b5 /= !b4 /= !b3 /= b2 /= e11 e12 e21 e22.
  by rewrite trimx_up trimx_lo mulmx_block !mul0mx !mulmx0 !addr0.
Qed.

Lemma ftrtrm_ok n s d N A : (N <= n)%N ->
  let X := ftrtrm n s d N A in
  frame N N X A /\
  mx N N X = match s with
    | SLeft => trimx Upper d N A *m trimx Lower (odiag d) N A
    | SRight => trimx Lower (odiag d) N A *m trimx Upper d N A end.
Proof.
elim: n N A => [|n IH] N A Hn /=.
  by have -> : N = 0%N by [lia]; split=> //; exact: mx0N.
case: ifP => N1.
  split=> //; case: N N1 Hn => [|[|//]] _ _; first exact: mx0N.
  by apply/matrixP => i j; case: (s); rewrite !mxE big_ord1 !ord1 !mxE /tri; case: (d); rewrite /= ?mul1r ?mulr1.
set n1 := N./2; have e : (n1 + (N - n1) = N)%N by rewrite /n1; lia.
have H1 B : frame n1 n1 (ftrtrm n s d n1 B) B /\ mx n1 n1 (ftrtrm n s d n1 B) = match s with
    | SLeft => trimx Upper d n1 B *m trimx Lower (odiag d) n1 B
    | SRight => trimx Lower (odiag d) n1 B *m trimx Upper d n1 B end by apply: IH; rewrite /n1; lia.
have H2 B : frame (N - n1) (N - n1) (ftrtrm n s d (N - n1) B) B /\ mx (N - n1) (N - n1) (ftrtrm n s d (N - n1) B) = match s with
    | SLeft => trimx Upper d (N - n1) B *m trimx Lower (odiag d) (N - n1) B
    | SRight => trimx Lower (odiag d) (N - n1) B *m trimx Upper d (N - n1) B end by apply: IH; rewrite /n1; lia.
by have := ftrtrm_step A H1 H2; rewrite e.
Qed.

Lemma ftrsv_mx u t d N A (b : nat -> F) : inv_diag d N A ->
  let x := ftrsv u t d N A b in
  opmx t (trimx u d N A) *m mx N 1 (fun i _ => x i) = mx N 1 (fun i _ => b i) /\
  (forall i, (N <= i)%N -> x i = b i).
Proof.
move=> dA x; have [H1 H2] := ftrsv_ok u t b dA; split=> //.
rewrite -/(opT u t d N A) opTE mxM; apply: eq_mx => i j iN _; exact: H1.
Qed.

Lemma fger_mx M N alpha (x y : nat -> F) A :
  let X := fger M N alpha x y A in
  frame M N X A /\
  mx M N X = mx M N A + alpha *: (mx M 1 (fun i _ => x i) *m mx 1 N (fun _ j => y j)).
Proof.
split=> [i j ij|]; first by rewrite fger_ok (negbTE ij).
rewrite mxM mxZ mxD; apply: eq_mx => i j iN jN; rewrite fger_ok iN jN /= add0r mulrA //.
Qed.

End Trtri.
