(** * Proofs about transposition: the square in-place variant and the dispatcher *)
From Coq Require Import Arith List Bool Lia Psatz.
From Verif Require Import Transp_model Transp_spec Transp_proofs.
Import ListNotations.

Section Proofs.
Context {T : Type}.
Notation mem := (@mem T).

Lemma in_step vs lo q j : 0 < vs -> lo <= j < lo + q * vs ->
  exists r, lo + r * vs + vs <= lo + q * vs /\ lo + r * vs <= j < lo + r * vs + vs.
Proof.
  intros Hv Hj. exists ((j - lo) / vs). pose proof (Nat.div_mod (j - lo) vs ltac:(lia)).
  pose proof (Nat.mod_upper_bound (j - lo) vs ltac:(lia)).
  assert ((j - lo) / vs < q) by (apply Nat.div_lt_upper_bound; lia).
  assert (vs * ((j - lo) / vs) + vs <= q * vs) by nia. lia.
Qed.

Lemma addr1 t bs jv jb iv ib k s : jb <= jv -> ib <= iv ->
  t + (jv - jb) * bs + (iv - ib) + bs * k + s = t + ((jv + k) - jb) * bs + ((iv + s) - ib).
Proof.
  intros. replace (jv + k - jb) with (jv - jb + k) by lia. replace (iv + s - ib) with (iv - ib + s) by lia. lia.
Qed.
Lemma addr2 t bs jv jb x k : jb <= jv ->
  t + (jv - jb) * bs + x + k * bs = t + ((jv + k) - jb) * bs + x.
Proof. intros. replace (jv + k - jb) with (jv - jb + k) by lia. lia. Qed.
Lemma rowcol lda i j i' j' x y : j < lda -> j' < lda -> x + i * lda + j = y -> y = x + i' * lda + j' -> i = i' /\ j = j'.
Proof. intros. assert (i = i') by nia. subst. lia. Qed.
Lemma sqlt bs i j t : i < bs -> j < bs -> block t (bs * bs) (t + i * bs + j).
Proof. unfold block. nia. Qed.
Lemma addr3 a lda jb ib i j : jb <= j -> ib <= i -> a + jb * lda + ib + (j - jb) * lda + (i - ib) = a + j * lda + i.
Proof. intros. replace j with (jb + (j - jb)) at 2 by lia. lia. Qed.

(** ** Square, in place *)

Lemma inb_iff m bs ib jb q p i j di dj : i < m -> j < m ->
  (di = q <-> ib <= i < ib + bs) -> (dj = q <-> ib <= j < ib + bs) ->
  (di = q + p <-> jb <= i < jb + bs) -> (dj = q + p <-> jb <= j < jb + bs) ->
  ((ib <= i < Nat.min m (ib + bs) /\ jb <= j < Nat.min m (jb + bs)) \/
   (jb <= i < Nat.min m (jb + bs) /\ ib <= j < Nat.min m (ib + bs)) <->
   Nat.min di dj = q /\ Nat.max di dj = q + p).
Proof.
  intros Hi Hj A1 A2 A3 A4.
  assert (R : forall x lo, x < m -> (lo <= x < Nat.min m (lo + bs) <-> lo <= x < lo + bs)) by (clear; intros; lia).
  rewrite !R by assumption. rewrite <- A1, <- A2, <- A3, <- A4. clear. split.
  - intros [[-> ->]|[-> ->]]; lia.
  - intros [H1 H2]. destruct (Nat.eq_dec di q); lia.
Qed.

Section Square.
Variables (bs vs c t1 t2 m a lda : nat).
Hypothesis Hvs : 0 < vs.
Hypothesis Hc : 0 < c.
Hypothesis Hbs : bs = c * vs.
Hypothesis Lda : m <= lda.
Hypothesis F1 : forall x, cell m m a lda x -> ~ block t1 (bs * bs) x.
Hypothesis F2 : forall x, cell m m a lda x -> ~ block t2 (bs * bs) x.
Hypothesis F12 : forall x, block t1 (bs * bs) x -> ~ block t2 (bs * bs) x.

Lemma bs_pos : 0 < bs. Proof. nia. Qed.

Section Body.
Variables (ib jb ibend jbend : nat) (Mb : mem).
Hypothesis Eib : ibend = Nat.min m (ib + bs).
Hypothesis Ejb : jbend = Nat.min m (jb + bs).
Hypothesis Lib : ib < m.
Hypothesis Ljb : jb < m.
Hypothesis T1 : forall i j, ib <= i < ibend -> jb <= j < jbend ->
  Mb (t1 + (i - ib) * bs + (j - jb)) = Mb (a + i * lda + j).
Hypothesis T2 : forall i j, ib <= i < ibend -> jb <= j < jbend ->
  Mb (t2 + (j - jb) * bs + (i - ib)) = Mb (a + j * lda + i).

Definition InB (i j : nat) : Prop :=
  (ib <= i < ibend /\ jb <= j < jbend) \/ (jb <= i < jbend /\ ib <= j < ibend).

Definition pinv (S : dom) (M : mem) : Prop :=
  (forall i j, InB i j -> S i j -> M (a + i * lda + j) = Mb (a + j * lda + i)) /\
  (forall x, (forall i j, InB i j -> x <> a + i * lda + j) -> M x = Mb x).

Lemma InB_lt i j : InB i j -> i < m /\ j < m.
Proof. unfold InB. lia. Qed.

Lemma pinv_weaken (S S' : dom) M : (forall i j, S' i j -> S i j) -> pinv S M -> pinv S' M.
Proof. intros H [I1 I2]. split; [|exact I2]. intros. apply I1; auto. Qed.

Lemma tmp1_in i j : ib <= i < ibend -> jb <= j < jbend -> block t1 (bs * bs) (t1 + (i - ib) * bs + (j - jb)).
Proof. intros. apply sqlt; lia. Qed.
Lemma tmp2_in i j : ib <= i < ibend -> jb <= j < jbend -> block t2 (bs * bs) (t2 + (j - jb) * bs + (i - ib)).
Proof. intros. apply sqlt; lia. Qed.

Lemma pinv_t1 S M i j : pinv S M -> ib <= i < ibend -> jb <= j < jbend ->
  M (t1 + (i - ib) * bs + (j - jb)) = Mb (a + i * lda + j).
Proof.
  intros [_ I] Hi Hj. rewrite I; [apply T1; assumption|].
  intros i' j' HB E. apply InB_lt in HB. apply (F1 (a + i' * lda + j')); [exists i', j'; lia|].
  rewrite <- E. apply tmp1_in; assumption.
Qed.
Lemma pinv_t2 S M i j : pinv S M -> ib <= i < ibend -> jb <= j < jbend ->
  M (t2 + (j - jb) * bs + (i - ib)) = Mb (a + j * lda + i).
Proof.
  intros [_ I] Hi Hj. rewrite I; [apply T2; assumption|].
  intros i' j' HB E. apply InB_lt in HB. apply (F2 (a + i' * lda + j')); [exists i', j'; lia|].
  rewrite <- E. apply tmp2_in; assumption.
Qed.

Lemma pinv_put S M i j x v : pinv S M -> InB i j -> x = a + i * lda + j ->
  v = Mb (a + j * lda + i) -> pinv (fun i' j' => S i' j' \/ (i' = i /\ j' = j)) (put x v M).
Proof.
  intros [I1 I2] HB -> ->. assert (L := InB_lt _ _ HB). split.
  - intros i' j' HB' HS. assert (L' := InB_lt _ _ HB').
    destruct (Nat.eq_dec (a + i' * lda + j') (a + i * lda + j)) as [E|NE].
    + destruct (rowcol lda i' j' i j a _ ltac:(lia) ltac:(lia) E eq_refl) as [-> ->]. apply put_same.
    + rewrite put_other by exact NE. destruct HS as [HS|[-> ->]]; [apply I1; auto|congruence].
  - intros x Hx. rewrite put_other; [apply I2; exact Hx|]. apply Hx. exact HB.
Qed.

Lemma pinv_bts i0 j0 src S M : pinv S M ->
  (forall k r, k < vs -> r < vs -> InB (i0 + r) (j0 + k) /\ M (src + bs * k + r) = Mb (a + (j0 + k) * lda + (i0 + r))) ->
  pinv (fun i j => S i j \/ (i0 <= i < i0 + vs /\ j0 <= j < j0 + vs)) (bts vs src bs (a + i0 * lda + j0) lda M).
Proof.
  intros HI H. unfold bts.
  eapply pinv_weaken; [|apply (loop_cover pinv pinv_weaken vs _ (fun r i j => i = i0 + r /\ j0 <= j < j0 + vs)); [|exact HI]].
  - cbn. intros i j [?|[H1 H2]]; [left; assumption|]. right. exists (i - i0). lia.
  - intros r S1 M1 Hr HI1.
    eapply pinv_weaken; [|apply (loop_cover pinv pinv_weaken vs _ (fun k i j => i = i0 + r /\ j = j0 + k)); [|exact HI1]].
    + cbn. intros i j [?|[H1 H2]]; [left; assumption|]. right. exists (j - j0). lia.
    + intros k S2 M2 Hk HI2. destruct (H k r Hk Hr) as [HB E].
      apply (pinv_put S2 M2 (i0 + r) (j0 + k)); auto; nia.
Qed.

Lemma pinv_fassign1 N y incy x incx S M (fi fj : nat -> nat) : pinv S M ->
  (forall k, k < N -> InB (fi k) (fj k) /\ x + k * incx = a + fi k * lda + fj k /\
     forall S' M', pinv S' M' -> M' (y + k * incy) = Mb (a + fj k * lda + fi k)) ->
  pinv (fun i j => S i j \/ exists k, k < N /\ (i = fi k /\ j = fj k)) (fassign1 N y incy x incx M).
Proof.
  intros HI H. unfold fassign1.
  apply (loop_cover pinv pinv_weaken N _ (fun k i j => i = fi k /\ j = fj k)); [|exact HI].
  intros k S' M' Hk HI'. destruct (H k Hk) as (F1' & E1 & E2).
  apply (pinv_put S' M'); auto. apply (E2 _ _ HI').
Qed.

(** The body of the two outer loops, after the copies to TMP1 and TMP2. *)
Definition sq_row (iv : nat) (M : mem) : mem :=
  let '(jv, M) := for_le (S m) jb jbend vs (fun jv M =>
    let M := bts vs (t2 + (jv - jb) * bs + (iv - ib)) bs (a + iv * lda + jv) lda M in
    bts vs (t1 + (iv - ib) * bs + (jv - jb)) bs (a + jv * lda + iv) lda M) M in
  for_lt (S m) jv jbend 1 (fun j M =>
    let M := fassign1 vs (t2 + (j - jb) * bs + (iv - ib)) 1 (a + iv * lda + j) lda M in
    fassign1 vs (t1 + (iv - ib) * bs + (j - jb)) bs (a + j * lda + iv) 1 M) M.
Definition sq_body (M : mem) : mem :=
  let '(iv, M) := for_le (S m) ib ibend vs sq_row M in
  for_lt (S m) iv ibend 1 (fun i M =>
    fassign1 (jbend - iv) (t2 + (iv - jb) * bs + (i - ib)) bs (a + i * lda + iv) 1 M) M.

Lemma sq_row_ok iv S M : pinv S M -> ib <= iv -> iv + vs <= ibend ->
  pinv (fun i j => S i j \/ (iv <= i < iv + vs /\ jb <= j < jbend) \/ (jb <= i < jbend /\ iv <= j < iv + vs)) (sq_row iv M).
Proof.
  intros HI Hi1 Hi2. unfold sq_row.
  match goal with |- context [for_le _ _ _ _ ?g M] => set (f := g) end.
  destruct (for_le_fst (Datatypes.S m) jb jbend vs f M) as (q & E & B); [lia..|].
  assert (I1 := for_le_cover pinv pinv_weaken (Datatypes.S m) jb jbend vs f
    (fun jv i j => (iv <= i < iv + vs /\ jv <= j < jv + vs) \/ (jv <= i < jv + vs /\ iv <= j < iv + vs)) S M
    ltac:(lia) ltac:(lia)).
  cbn beta in I1. specialize (I1) as I2. clear I1.
  destruct (for_le (Datatypes.S m) jb jbend vs f M) as [jv M1] eqn:EM. cbn [fst snd] in *. subst jv.
  assert (I1 : pinv (fun i j => S i j \/ (iv <= i < iv + vs /\ jb <= j < jb + q * vs) \/
                 (jb <= i < jb + q * vs /\ iv <= j < iv + vs)) M1).
  { eapply pinv_weaken; [|apply I2; [|exact HI]].
    - intros i j [?|[[H1 H2]|[H1 H2]]]; [left; assumption| |]; right.
      + destruct (in_step vs jb q j Hvs H2) as (r & R1 & R2). exists r. split; [lia|left; auto].
      + destruct (in_step vs jb q i Hvs H1) as (r & R1 & R2). exists r. split; [lia|right; auto].
    - intros r S1 M2 Hr HP. set (jv := jb + r * vs) in *. unfold f. cbv zeta.
      eapply pinv_weaken; [|apply pinv_bts; [apply pinv_bts; [exact HP|]|]].
      + cbn beta. intros i j [?|[?|?]]; auto.
      + intros k s Hk Hs. split; [left; lia|].
        rewrite addr1 by lia.
        eapply pinv_t2; [exact HP|lia|lia].
      + intros k s Hk Hs. split; [right; lia|].
        rewrite addr1 by lia.
        eapply pinv_t1; [|lia|lia]. apply (pinv_bts _ _ _ S1); [exact HP|].
        clear k s Hk Hs. intros k s Hk Hs. split; [left; lia|].
        rewrite addr1 by lia.
        eapply pinv_t2; [exact HP|lia|lia]. }
  eapply pinv_weaken; [|apply (for_lt_cover pinv pinv_weaken (Datatypes.S m) (jb + q * vs) jbend 1 _
    (fun j0 i j => (iv <= i < iv + vs /\ j = j0) \/ (i = j0 /\ iv <= j < iv + vs))); [lia|lia| |exact I1]].
  - cbn beta. intros i j [?|[[H1 H2]|[H1 H2]]]; [auto| |].
    + destruct (le_lt_dec (jb + q * vs) j); [|left; right; left; lia].
      right. exists (j - (jb + q * vs)). lia.
    + destruct (le_lt_dec (jb + q * vs) i); [|left; right; right; lia].
      right. exists (i - (jb + q * vs)). lia.
  - intros r S1 M2 Hr HP. set (j0 := jb + q * vs + r * 1) in *. cbv zeta.
    eapply pinv_weaken; [|apply (pinv_fassign1 vs _ bs _ 1 (fun i j => S1 i j \/ exists k, k < vs /\ (i = iv + k /\ j = j0)) _ (fun _ => j0) (fun k => iv + k));
      [apply (pinv_fassign1 _ _ _ _ _ S1 M2 (fun k => iv + k) (fun _ => j0)); [exact HP|]|]].
    + cbn beta. intros i j [?|[[H1 ->]|[-> H1]]]; [auto| |].
      * left. right. exists (i - iv). lia.
      * right. exists (j - iv). lia.
    + intros k Hk. split; [left; lia|]. split; [nia|]. intros S' M' HP'.
      replace (t2 + (j0 - jb) * bs + (iv - ib) + k * 1) with (t2 + (j0 - jb) * bs + ((iv + k) - ib)) by lia.
      eapply pinv_t2; [exact HP'|lia|lia].
    + intros k Hk. split; [right; lia|]. split; [nia|]. intros S' M' HP'.
      rewrite addr2 by lia.
      eapply pinv_t1; [exact HP'|lia|lia].
Qed.

(** [Hlast]: only the last block is truncated, and then it is diagonal. *)
Hypothesis Hlast : ibend < ib + bs -> jb = ib.

Lemma sq_body_ok : pinv InB (sq_body Mb).
Proof.
  unfold sq_body.
  assert (I0 : pinv (fun _ _ => False) Mb) by (split; [tauto|reflexivity]).
  destruct (for_le_fst (S m) ib ibend vs sq_row Mb) as (q & E & B); [lia..|].
  assert (I2 := for_le_cover pinv pinv_weaken (Datatypes.S m) ib ibend vs sq_row
    (fun iv i j => (iv <= i < iv + vs /\ jb <= j < jbend) \/ (jb <= i < jbend /\ iv <= j < iv + vs)) (fun _ _ => False) Mb
    ltac:(lia) ltac:(lia)).
  destruct (for_le (S m) ib ibend vs sq_row Mb) as [iv M1] eqn:EM. cbn [fst snd] in *. subst iv.
  assert (I1 : pinv (fun i j => (ib <= i < ib + q * vs /\ jb <= j < jbend) \/
                 (jb <= i < jbend /\ ib <= j < ib + q * vs)) M1).
  { eapply pinv_weaken; [|apply I2; [|exact I0]].
    - intros i j [[H1 H2]|[H1 H2]]; right.
      + destruct (in_step vs ib q i Hvs H1) as (r & R1 & R2). exists r. split; [lia|left; auto].
      + destruct (in_step vs ib q j Hvs H2) as (r & R1 & R2). exists r. split; [lia|right; auto].
    - intros r S1 M2 Hr HP. apply sq_row_ok; [exact HP|lia|lia]. }
  set (iv := ib + q * vs) in *.
  destruct (Nat.eq_dec iv ibend) as [Eq|Ne].
  - cbn [for_lt]. rewrite Eq, Nat.ltb_irrefl. eapply pinv_weaken; [|exact I1].
    intros i j. unfold InB. rewrite Eq. auto.
  - assert (jb = ib).
    { apply Hlast. destruct (Nat.eq_dec ibend (ib + bs)) as [X|X]; [|lia]. exfalso.
      assert (bs < q * vs + vs) by lia. assert (q * vs < bs) by lia. assert (c < q + 1) by nia. nia. }
    assert (jbend = ibend) by congruence.
    eapply pinv_weaken; [|apply (for_lt_cover pinv pinv_weaken (Datatypes.S m) iv ibend 1 _
      (fun i0 i j => i = i0 /\ iv <= j < jbend)); [lia|lia| |exact I1]].
    + cbn beta. intros i j HB. assert (ib <= i < ibend /\ ib <= j < ibend) by (unfold InB in HB; lia).
      destruct (le_lt_dec iv i); [|left; left; lia].
      destruct (le_lt_dec iv j); [|left; right; lia].
      right. exists (i - iv). lia.
    + intros r S1 M2 Hr HP. set (i0 := iv + r * 1) in *.
      eapply pinv_weaken; [|apply (pinv_fassign1 _ _ _ _ _ S1 M2 (fun _ => i0) (fun k => iv + k)); [exact HP|]].
      * cbn beta. intros i j [?|[-> H1]]; [auto|]. right. exists (j - iv). lia.
      * intros k Hk. split; [left; lia|]. split; [lia|]. intros S' M' HP'.
        rewrite addr2 by lia.
        eapply pinv_t2; [exact HP'|lia|lia].
Qed.
End Body.

Lemma InB_lt0 ib jb i j : InB ib jb (Nat.min m (ib + bs)) (Nat.min m (jb + bs)) i j -> i < m /\ j < m.
Proof. unfold InB. lia. Qed.

Lemma for_lt_inv (Q : nat -> mem -> Prop) fuel : forall lo n s f M q0, 0 < s -> n < fuel + (lo + q0 * s) ->
  (forall q M, lo + q * s < n -> Q q M -> Q (S q) (f (lo + q * s) M)) ->
  Q q0 M -> exists q, n <= lo + q * s /\ Q q (for_lt fuel (lo + q0 * s) n s f M).
Proof.
  induction fuel; intros lo n s f M q0 Hs Hf H HQ; cbn [for_lt].
  - exists q0. split; [lia|exact HQ].
  - destruct (Nat.ltb_spec (lo + q0 * s) n).
    + replace (lo + q0 * s + s) with (lo + S q0 * s) by lia. apply IHfuel; [exact Hs|lia|exact H|].
      apply H; assumption.
    + exists q0. split; [lia|exact HQ].
Qed.

(** Treated pairs of blocks after q full block rows and p blocks of the next. *)
Definition treated (q p i j : nat) : Prop :=
  let u := Nat.min (i / bs) (j / bs) in let v := Nat.max (i / bs) (j / bs) in
  u < q \/ (u = q /\ v < q + p).

Definition sinv (M0 : mem) (q p : nat) (M : mem) : Prop :=
  (forall i j, i < m -> j < m ->
     (treated q p i j -> M (a + i * lda + j) = M0 (a + j * lda + i)) /\
     (~ treated q p i j -> M (a + i * lda + j) = M0 (a + i * lda + j))) /\
  (forall x, ~ cell m m a lda x -> ~ block t1 (bs * bs) x -> ~ block t2 (bs * bs) x -> M x = M0 x).

Lemma div_iff i q : i / bs = q <-> q * bs <= i < q * bs + bs.
Proof.
  pose proof bs_pos. pose proof (Nat.div_mod i bs ltac:(lia)). pose proof (Nat.mod_upper_bound i bs ltac:(lia)).
  split; [intros <-; lia|]. intro. symmetry. apply Nat.div_unique with (i - q * bs); lia.
Qed.

Lemma block_step M0 q p M : q * bs < m -> q * bs + p * bs < m -> sinv M0 q p M ->
  let ib := q * bs in let jb := q * bs + p * bs in
  let l := Nat.min bs (m - ib) in let k := Nat.min bs (m - jb) in
  let M1 := fassign2 l k (a + ib * lda + jb) lda t1 bs M in
  let M2 := fassign2 k l (a + jb * lda + ib) lda t2 bs M1 in
  sinv M0 q (S p) (sq_body ib jb (Nat.min m (ib + bs)) (Nat.min m (jb + bs)) M2).
Proof.
  intros Hq Hp [HM HF]. cbv zeta. pose proof bs_pos.
  set (ib := q * bs) in *. set (jb := ib + p * bs) in *.
  set (l := Nat.min bs (m - ib)). set (k := Nat.min bs (m - jb)).
  assert (C1 : forall x, cell l k (a + ib * lda + jb) lda x -> cell m m a lda x).
  { intros x (i & j & Hi & Hj & ->). exists (ib + i), (jb + j). unfold l, k in *. lia. }
  assert (C2 : forall x, cell k l (a + jb * lda + ib) lda x -> cell m m a lda x).
  { intros x (i & j & Hi & Hj & ->). exists (jb + i), (ib + j). unfold l, k in *. lia. }
  assert (B1 : forall x, cell l k t1 bs x -> block t1 (bs * bs) x).
  { intros x (i & j & Hi & Hj & ->). unfold l, k in *. apply sqlt; lia. }
  assert (B2 : forall x, cell k l t2 bs x -> block t2 (bs * bs) x).
  { intros x (i & j & Hi & Hj & ->). unfold l, k in *. apply sqlt; lia. }
  destruct (fassign2_ok l k (a + ib * lda + jb) lda t1 bs M) as [X1 X2];
    [unfold k; lia|unfold k; lia|intros x Hx Hy; apply (F1 x); auto|].
  set (M1 := fassign2 l k _ lda t1 bs M) in *.
  destruct (fassign2_ok k l (a + jb * lda + ib) lda t2 bs M1) as [Y1 Y2];
    [unfold l; lia|unfold l; lia|intros x Hx Hy; apply (F2 x); auto|].
  set (M2 := fassign2 k l _ lda t2 bs M1) in *.
  assert (W : forall i j, i < m -> j < m -> M2 (a + i * lda + j) = M (a + i * lda + j)).
  { intros i j Hi Hj. assert (C : cell m m a lda (a + i * lda + j)) by (exists i, j; auto).
    rewrite Y2 by (intro; apply (F2 _ C); auto). apply X2. intro; apply (F1 _ C); auto. }
  assert (V : forall x, ~ block t1 (bs * bs) x -> ~ block t2 (bs * bs) x -> M2 x = M x).
  { intros x N1 N2. rewrite Y2 by auto. apply X2. auto. }
  destruct (sq_body_ok ib jb (Nat.min m (ib + bs)) (Nat.min m (jb + bs)) M2) as [Z1 Z2]; try reflexivity; auto.
  { intros i j Hi Hj. rewrite W by lia.
    assert (E : M2 (t1 + (i - ib) * bs + (j - jb)) = M1 (t1 + (i - ib) * bs + (j - jb))).
    { apply Y2. intro Q. apply B2 in Q. apply (F12 (t1 + (i - ib) * bs + (j - jb))); [|exact Q].
      apply B1. exists (i - ib), (j - jb). unfold l, k. lia. }
    rewrite E, X1 by (unfold l, k; lia). f_equal. apply addr3; lia. }
  { intros i j Hi Hj. rewrite W by lia. rewrite Y1 by (unfold l, k; lia).
    rewrite addr3 by lia.
    apply X2. intro Q. apply B1 in Q. apply (F1 (a + j * lda + i)); [exists j, i; lia|exact Q]. }
  { intro Q. assert (m < ib + bs) by lia. unfold jb. assert (p = 0) by nia. lia. }
  set (M3 := sq_body _ _ _ _ M2) in *.
  assert (InBE : forall i j, i < m -> j < m ->
    (InB ib jb (Nat.min m (ib + bs)) (Nat.min m (jb + bs)) i j <-> Nat.min (i / bs) (j / bs) = q /\ Nat.max (i / bs) (j / bs) = q + p)).
  { intros i j Hi Hj. unfold InB. apply inb_iff; auto; try apply div_iff.
    - replace jb with ((q + p) * bs) by (unfold jb, ib; lia). apply div_iff.
    - replace jb with ((q + p) * bs) by (unfold jb, ib; lia). apply div_iff. }
  split.
  - intros i j Hi Hj. specialize (InBE i j Hi Hj) as IE. destruct (HM i j Hi Hj) as [HM1 HM2].
    destruct (Nat.eq_dec (Nat.min (i / bs) (j / bs)) q) as [U|U];
    [destruct (Nat.eq_dec (Nat.max (i / bs) (j / bs)) (q + p)) as [W'|W']|].
    + (* in the block *)
      assert (HB : InB ib jb (Nat.min m (ib + bs)) (Nat.min m (jb + bs)) i j) by (apply IE; auto).
      split.
      * intros _. rewrite Z1 by auto. rewrite W by auto.
        destruct (HM j i Hj Hi) as [_ HM4]. apply HM4. unfold treated. lia.
      * intro N. exfalso. apply N. unfold treated. lia.
    + assert (E : M3 (a + i * lda + j) = M (a + i * lda + j)).
      { rewrite Z2; [apply W; auto|]. intros i' j' HB E. assert (L := InB_lt0 _ _ _ _ HB).
        destruct (rowcol lda i j i' j' a _ ltac:(lia) ltac:(lia) E eq_refl) as [<- <-]. apply IE in HB. lia. }
      rewrite E. split; intro Q; [apply HM1|apply HM2]; unfold treated in *; lia.
    + assert (E : M3 (a + i * lda + j) = M (a + i * lda + j)).
      { rewrite Z2; [apply W; auto|]. intros i' j' HB E. assert (L := InB_lt0 _ _ _ _ HB).
        destruct (rowcol lda i j i' j' a _ ltac:(lia) ltac:(lia) E eq_refl) as [<- <-]. apply IE in HB. lia. }
      rewrite E. split; intro Q; [apply HM1|apply HM2]; unfold treated in *; lia.
  - intros x Nx N1 N2. rewrite Z2; [rewrite V by auto; apply HF; auto|].
    intros i j HB ->. apply Nx. assert (L := InB_lt0 _ _ _ _ HB). exists i, j. lia.
Qed.

Lemma square_inplace_ok (M0 : mem) :
  transposed m m a lda a lda (fun x => block t1 (bs * bs) x \/ block t2 (bs * bs) x)
    M0 (square_inplace bs vs t1 t2 m a lda M0).
Proof.
  pose proof bs_pos. unfold square_inplace.
  match goal with |- transposed _ _ _ _ _ _ _ _ (for_lt _ _ _ _ ?g M0) => set (f := g) end.
  assert (I0 : sinv M0 0 0 M0).
  { split; [|reflexivity]. intros i j Hi Hj. split; [unfold treated; lia|reflexivity]. }
  destruct (for_lt_inv (fun q M => sinv M0 q 0 M) (S m) 0 m bs f M0 0) as (q & Hq & [HM HF]); [lia|lia| |exact I0|].
  - intros q M Hq HI. cbn [Nat.add] in *. unfold f.
    match goal with |- sinv _ _ _ (for_lt _ _ _ _ ?g M) => set (h := g) end.
    destruct (for_lt_inv (fun p M => sinv M0 q p M) (S m) (q * bs) m bs h M 0) as (p & Hp & [HM HF]); [lia|lia| |exact HI|].
    + intros p M' Hp HI'. unfold h. cbv zeta. exact (block_step M0 q p M' Hq Hp HI').
    + rewrite Nat.mul_0_l, Nat.add_0_r in HM, HF. split; [|exact HF].
      intros i j Hi Hj. destruct (HM i j Hi Hj) as [H1 H2].
      assert (Di := Nat.mul_div_le i bs ltac:(lia)). assert (Dj := Nat.mul_div_le j bs ltac:(lia)).
      assert (i / bs < q + p) by nia. assert (j / bs < q + p) by nia.
      split; intro Q; [apply H1|apply H2]; unfold treated in *; lia.
  - rewrite Nat.mul_0_l in HM, HF. cbn [Nat.add] in *. split.
    + intros i j Hi Hj. apply (HM j i Hj Hi).
      assert (Di := Nat.mul_div_le i bs ltac:(lia)). assert (i / bs < q) by nia. unfold treated. lia.
    + intros x Nx Nt. apply HF; tauto.
Qed.
End Square.

(** ** The dispatcher *)

Lemma not_inplace_ok bs vs c m n a lda b ldb (M0 : mem) : 0 < vs -> bs = c * vs -> 0 < c -> m <= ldb ->
  (forall x, cell m n a lda x -> ~ cell n m b ldb x) ->
  transposed m n a lda b ldb (fun _ => False) M0 (not_inplace bs vs m n a lda b ldb M0).
Proof.
  intros Hv Hb Hc L D. destruct (not_inplace_inv m n a lda b ldb M0 L D bs vs c Hv Hb Hc) as [I1 I2].
  split; [intros; apply I1; auto|]. intros. apply I2; auto.
Qed.

Lemma nonsquare_inplace_ok bs vs c t m n a (M0 : mem) : 0 < vs -> bs = c * vs -> 0 < c ->
  (forall x, block a (m * n) x -> ~ block t (m * n) x) ->
  transposed m n a n a m (block t (m * n)) M0 (nonsquare_inplace bs vs t m n a M0).
Proof.
  intros Hv Hb Hc D. unfold nonsquare_inplace.
  assert (C : forall p q z x, p * q = m * n -> cell p q z q x -> block z (m * n) x).
  { intros p q z x E (i & j & Hi & Hj & ->). unfold block. nia. }
  destruct (fassign2_ok m n a n t n M0) as [X1 X2]; [lia|lia| |].
  { intros x H1 H2. apply (D x); [apply (C m n a)|apply (C m n t)]; auto. }
  set (M1 := fassign2 m n a n t n M0) in *.
  destruct (not_inplace_ok bs vs c m n t n a m M1) as [Y1 Y2]; auto.
  { intros x H1 H2. apply (D x); [apply (C n m a); [lia|auto]|apply (C m n t); auto]. }
  split.
  - intros i j Hi Hj. rewrite Y1 by auto. apply X1; auto.
  - intros x Nx Nt. rewrite Y2 by auto. apply X2. intro. apply Nt. apply (C m n t); auto.
Qed.

Lemma ftranspose_ok bs vs c t1 t2 m n a lda b ldb (M : mem) :
  0 < vs -> 0 < c -> bs = c * vs -> n <= lda -> m <= ldb ->
  (a <> b -> forall x, cell m n a lda x -> ~ cell n m b ldb x) ->
  (a = b -> if m =? n then lda = ldb else lda = n /\ ldb = m) ->
  let size := Nat.max (m * n) (bs * bs) in
  (forall x, cell n m b ldb x -> ~ block t1 size x /\ ~ block t2 size x) ->
  (forall x, block t1 size x -> ~ block t2 size x) ->
  exists M', ftranspose bs vs t1 t2 m n a lda b ldb M = Some M' /\
    transposed m n a lda b ldb (fun x => a = b /\ (block t1 size x \/ block t2 size x)) M M'.
Proof.
  intros Hv Hc Hb La Lb D Eq size FT F12. unfold ftranspose.
  rewrite (proj2 (Nat.leb_le n lda) La), (proj2 (Nat.leb_le m ldb) Lb). cbn [andb negb].
  destruct (Nat.eqb_spec a b) as [->|NE]; cbn [negb].
  - destruct (Nat.eqb_spec m n) as [->|NE].
    + rewrite (Eq eq_refl), Nat.eqb_refl. eexists; split; [reflexivity|].
      assert (S1 : forall t x, block t (bs * bs) x -> block t size x) by (unfold block, size; lia).
      destruct (square_inplace_ok bs vs c t1 t2 n b ldb Hv Hc Hb Lb) with (M0 := M) as [X1 X2].
      { intros x Hx Hy. apply (proj1 (FT x Hx)); auto. }
      { intros x Hx Hy. apply (proj2 (FT x Hx)); auto. }
      { intros x Hx Hy. apply (F12 x); auto. }
      split; [exact X1|]. intros x Nx Nt. apply X2; [exact Nx|]. intros [Q|Q]; apply Nt; auto.
    + destruct (Eq eq_refl) as [-> ->]. rewrite !Nat.eqb_refl. cbn [andb]. eexists; split; [reflexivity|].
      destruct (nonsquare_inplace_ok bs vs c t1 m n b M Hv Hb Hc) as [X1 X2].
      { intros x Hx Hy. assert (0 < m) by (unfold block in Hx; nia).
        apply (proj1 (FT x ltac:(exists ((x - b) / m), ((x - b) mod m);
          pose proof (Nat.div_mod (x - b) m ltac:(lia)); pose proof (Nat.mod_upper_bound (x - b) m ltac:(lia));
          unfold block in Hx; split; [apply Nat.div_lt_upper_bound; lia|]; lia))).
        unfold block, size in *. lia. }
      split; [exact X1|]. intros x Nx Nt. apply X2; [exact Nx|]. intro Q. apply Nt. split; [reflexivity|].
      left. unfold block, size in *. lia.
  - eexists; split; [reflexivity|].
    destruct (not_inplace_ok bs vs c m n a lda b ldb M Hv Hb Hc Lb (D NE)) as [X1 X2].
    split; [exact X1|]. intros. apply X2; auto.
Qed.
End Proofs.
