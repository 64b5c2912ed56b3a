(** * Proofs about transposition *)
From Coq Require Import Arith List Bool Lia Psatz.
From Verif Require Import Transp_model Transp_spec.
Import ListNotations.

Section Proofs.
Context {T : Type}.
Notation mem := (@mem T).
Definition dom := nat -> nat -> Prop.

(** ** Loops which enlarge a set of treated cells *)
Section Cover.
Variable P : dom -> mem -> Prop.
Hypothesis weaken : forall (S S' : dom) M, (forall i j, S' i j -> S i j) -> P S M -> P S' M.

Lemma loop_cover n f (R : nat -> dom) : forall S M,
  (forall k S M, k < n -> P S M -> P (fun i j => S i j \/ R k i j) (f k M)) ->
  P S M -> P (fun i j => S i j \/ exists k, k < n /\ R k i j) (loop n f M).
Proof.
  induction n; intros S M H HP; cbn.
  - eapply weaken; [|exact HP]. intros i j [?|(k & Hk & _)]; [assumption|lia].
  - eapply weaken; [|apply H; [lia|apply IHn; [|exact HP]]].
    + intros i j [?|(k & Hk & HR)]; [left; left; assumption|].
      destruct (Nat.eq_dec k n); [subst; right; exact HR|left; right; exists k; split; [lia|exact HR]].
    + intros k S' M' Hk. apply H. lia.
Qed.

Lemma for_lt_cover fuel : forall lo n s f (R : nat -> dom) S M, 0 < s -> n < fuel + lo ->
  (forall q S M, lo + q * s < n -> P S M -> P (fun i j => S i j \/ R (lo + q * s) i j) (f (lo + q * s) M)) ->
  P S M -> P (fun i j => S i j \/ exists q, lo + q * s < n /\ R (lo + q * s) i j) (for_lt fuel lo n s f M).
Proof.
  induction fuel; intros lo n s f R S M Hs Hf H HP; cbn [for_lt for_le].
  - eapply weaken; [|exact HP]. intros i j [?|(q & Hq & _)]; [assumption|lia].
  - destruct (Nat.ltb_spec lo n).
    + eapply weaken; [|apply (IHfuel (lo + s) n s f R (fun i j => S i j \/ R lo i j)); [exact Hs|lia| |]].
      * intros i j [?|(q & Hq & HR)]; [left; left; assumption|].
        destruct q; [left; right; replace lo with (lo + 0 * s) by lia; exact HR|].
        right. exists q. replace (lo + s + q * s) with (lo + Datatypes.S q * s) by lia. split; assumption.
      * intros q S' M' Hq HP'. replace (lo + s + q * s) with (lo + Datatypes.S q * s) in * by lia.
        apply H; assumption.
      * specialize (H 0 S M). replace (lo + 0 * s) with lo in H by lia. apply H; assumption.
    + eapply weaken; [|exact HP]. intros i j [?|(q & Hq & _)]; [assumption|lia].
Qed.

Lemma for_le_cover fuel : forall lo n s f (R : nat -> dom) S M, 0 < s -> n < fuel + lo ->
  (forall q S M, lo + q * s + s <= n -> P S M -> P (fun i j => S i j \/ R (lo + q * s) i j) (f (lo + q * s) M)) ->
  P S M -> P (fun i j => S i j \/ exists q, lo + q * s + s <= n /\ R (lo + q * s) i j) (snd (for_le fuel lo n s f M)).
Proof.
  induction fuel; intros lo n s f R S M Hs Hf H HP; cbn [for_lt for_le].
  - eapply weaken; [|exact HP]. intros i j [?|(q & Hq & _)]; [assumption|lia].
  - destruct (Nat.leb_spec (lo + s) n).
    + eapply weaken; [|apply (IHfuel (lo + s) n s f R (fun i j => S i j \/ R lo i j)); [exact Hs|lia| |]].
      * intros i j [?|(q & Hq & HR)]; [left; left; assumption|].
        destruct q; [left; right; replace lo with (lo + 0 * s) by lia; exact HR|].
        right. exists q. replace (lo + s + q * s) with (lo + Datatypes.S q * s) by lia. split; assumption.
      * intros q S' M' Hq HP'. replace (lo + s + q * s) with (lo + Datatypes.S q * s) in * by lia.
        apply H; assumption.
      * specialize (H 0 S M). replace (lo + 0 * s) with lo in H by lia. apply H; [lia|assumption].
    + eapply weaken; [|exact HP]. intros i j [?|(q & Hq & _)]; [assumption|lia].
Qed.
End Cover.

Lemma for_le_fst fuel : forall lo n s f (M : mem), 0 < s -> n < fuel + lo -> lo <= n ->
  exists q, fst (for_le fuel lo n s f M) = lo + q * s /\ lo + q * s <= n < lo + q * s + s.
Proof.
  induction fuel; intros lo n s f M Hs Hf Hn; cbn [for_le]; [lia|].
  destruct (Nat.leb_spec (lo + s) n).
  - destruct (IHfuel (lo + s) n s f (f lo M)) as (q & E & B); [lia..|].
    exists (S q). rewrite E. lia.
  - exists 0. cbn. lia.
Qed.

(** ** Plain copies *)

Lemma put_same x v (M : mem) : put x v M x = v.
Proof. unfold put. rewrite Nat.eqb_refl. reflexivity. Qed.
Lemma put_other x v (M : mem) y : y <> x -> put x v M y = M y.
Proof. unfold put. intro. destruct (Nat.eqb_spec y x); congruence. Qed.

Lemma fassign1_ok N y incy x incx (M : mem) : 0 < incx ->
  (forall k l, k < N -> l < N -> y + k * incy <> x + l * incx) ->
  (forall k, k < N -> fassign1 N y incy x incx M (x + k * incx) = M (y + k * incy)) /\
  (forall z, (forall k, k < N -> z <> x + k * incx) -> fassign1 N y incy x incx M z = M z).
Proof.
  intros Hx. unfold fassign1. induction N; intros D; cbn [loop].
  - split; [lia|reflexivity].
  - destruct IHN as [I1 I2]; [intros; apply D; lia|]. split.
    + intros k Hk. destruct (Nat.eq_dec k N) as [->|NE].
      * rewrite put_same. apply I2. intros l Hl. apply D; lia.
      * rewrite put_other by nia. apply I1. lia.
    + intros z Hz. rewrite put_other by (apply Hz; lia). apply I2. intros. apply Hz. lia.
Qed.

Lemma rows_ok m n a lda b ldb (M : mem) : n <= lda -> n <= ldb ->
  (forall x, cell m n a lda x -> ~ cell m n b ldb x) ->
  forall r, r <= m ->
  let M' := loop r (fun i => fassign1 n (a + i * lda) 1 (b + i * ldb) 1) M in
  (forall i j, i < r -> j < n -> M' (b + i * ldb + j) = M (a + i * lda + j)) /\
  (forall z, ~ cell r n b ldb z -> M' z = M z).
Proof.
  intros La Lb D. cbv zeta. induction r; intro Hr; cbn [loop].
  - split; [lia|reflexivity].
  - destruct IHr as [I1 I2]; [lia|]. set (M1 := loop r _ M) in *.
    destruct (fassign1_ok n (a + r * lda) 1 (b + r * ldb) 1 M1) as [J1 J2]; [lia| |].
    { intros k l Hk Hl E. apply (D (a + r * lda + k)); [exists r, k; lia|exists r, l; lia]. }
    split.
    + intros i j Hi Hj. destruct (Nat.eq_dec i r) as [->|NE].
      * specialize (J1 j Hj). rewrite !Nat.mul_1_r in J1. rewrite J1. apply I2.
        intros (i' & j' & Hi' & Hj' & E). apply (D (a + r * lda + j)); [exists r, j; lia|exists i', j'; lia].
      * rewrite J2; [apply I1; lia|]. intros k Hk. nia.
    + intros z Hz. rewrite J2.
      * apply I2. intros (i' & j' & ? & ? & ?). apply Hz. exists i', j'. lia.
      * intros k Hk E. apply Hz. exists r, k. lia.
Qed.

Lemma fassign2_ok m n a lda b ldb (M : mem) : n <= lda -> n <= ldb ->
  (forall x, cell m n a lda x -> ~ cell m n b ldb x) ->
  (forall i j, i < m -> j < n -> fassign2 m n a lda b ldb M (b + i * ldb + j) = M (a + i * lda + j)) /\
  (forall z, ~ cell m n b ldb z -> fassign2 m n a lda b ldb M z = M z).
Proof.
  intros La Lb D. unfold fassign2. destruct ((n =? lda) && (n =? ldb)) eqn:E;
    [|apply rows_ok with (m := m); auto].
  apply andb_prop in E as [E1 E2]. apply Nat.eqb_eq in E1, E2. subst lda ldb.
  assert (C : forall c k, k < m * n -> cell m n c n (c + k)).
  { intros c k Hk. assert (n <> 0) by (intro; subst; lia).
    exists (k / n), (k mod n). split; [apply Nat.div_lt_upper_bound; lia|].
    split; [apply Nat.mod_upper_bound; lia|]. rewrite (Nat.div_mod k n) at 1 by lia. lia. }
  destruct (fassign1_ok (m * n) a 1 b 1 M) as [I1 I2]; [lia| |].
  { intros k l Hk Hl E. apply (D (a + k)); [apply C; lia|].
    replace (a + k) with (b + l) by lia. apply C; lia. }
  split.
  - intros i j Hi Hj. specialize (I1 (i * n + j) ltac:(nia)).
    replace (b + (i * n + j) * 1) with (b + i * n + j) in I1 by lia. rewrite I1. f_equal. lia.
  - intros z Hz. apply I2. intros k Hk E. apply Hz. subst z.
    replace (b + k * 1) with (b + k) by lia. apply C; lia.
Qed.

(** ** Distinct buffers *)

Section NotInplace.
Variables (m n a lda b ldb : nat) (M0 : mem).
Hypothesis Ldb : m <= ldb.
Hypothesis Disj : forall x, cell m n a lda x -> ~ cell n m b ldb x.

Definition inv (S : dom) (M : mem) : Prop :=
  (forall i j, i < m -> j < n -> S i j -> M (b + j * ldb + i) = M0 (a + i * lda + j)) /\
  (forall x, ~ cell n m b ldb x -> M x = M0 x).

Lemma inv_weaken (S S' : dom) M : (forall i j, S' i j -> S i j) -> inv S M -> inv S' M.
Proof. intros H [I1 I2]. split; [|exact I2]. intros. apply I1; auto. Qed.

Lemma inv_src S M i j : inv S M -> i < m -> j < n -> M (a + i * lda + j) = M0 (a + i * lda + j).
Proof. intros [_ I] Hi Hj. apply I. apply Disj. exists i, j. auto. Qed.

Lemma inv_put S M i j x v : inv S M -> i < m -> j < n -> x = b + j * ldb + i ->
  v = M0 (a + i * lda + j) -> inv (fun i' j' => S i' j' \/ (i' = i /\ j' = j)) (put x v M).
Proof.
  intros [I1 I2] Hi Hj -> ->. split.
  - intros i' j' Hi' Hj' HS. destruct (Nat.eq_dec (b + j' * ldb + i') (b + j * ldb + i)) as [E|NE].
    + assert (j' = j) by nia. assert (i' = i) by nia. subst. apply put_same.
    + rewrite put_other by exact NE. destruct HS as [HS|[-> ->]]; [apply I1; auto|congruence].
  - intros x Hx. rewrite put_other; [apply I2; exact Hx|]. intros ->. apply Hx. exists j, i. auto.
Qed.

Lemma inv_fassign1 N y incy x incx S M (fi fj : nat -> nat) : inv S M ->
  (forall k, k < N -> fi k < m /\ fj k < n /\ y + k * incy = a + fi k * lda + fj k /\
     x + k * incx = b + fj k * ldb + fi k) ->
  inv (fun i j => S i j \/ exists k, k < N /\ (i = fi k /\ j = fj k)) (fassign1 N y incy x incx M).
Proof.
  intros HI H. unfold fassign1.
  apply (loop_cover inv inv_weaken N _ (fun k i j => i = fi k /\ j = fj k)); [|exact HI].
  intros k S' M' Hk HI'. destruct (H k Hk) as (F1 & F2 & E1 & E2).
  apply (inv_put S' M'); auto. rewrite E1. eapply inv_src; eauto.
Qed.

Lemma inv_bts vs iv jv S M : inv S M -> iv + vs <= m -> jv + vs <= n ->
  inv (fun i j => S i j \/ (iv <= i < iv + vs /\ jv <= j < jv + vs))
    (bts vs (a + iv * lda + jv) lda (b + jv * ldb + iv) ldb M).
Proof.
  intros HI Hi Hj. unfold bts.
  eapply inv_weaken; [|apply (loop_cover inv inv_weaken vs _ (fun c i j => j = jv + c /\ iv <= i < iv + vs)); [|exact HI]].
  - cbn. intros i j [?|[H1 H2]]; [left; assumption|]. right. exists (j - jv). lia.
  - intros c S1 M1 Hc HI1.
    eapply inv_weaken; [|apply (loop_cover inv inv_weaken vs _ (fun k i j => i = iv + k /\ j = jv + c)); [|exact HI1]].
    + cbn. intros i j [?|[H1 H2]]; [left; assumption|]. right. exists (i - iv). lia.
    + intros k S2 M2 Hk HI2. apply inv_put; auto; try lia; try nia.
      replace (a + iv * lda + jv + lda * k + c) with (a + (iv + k) * lda + (jv + c)) by nia.
      eapply inv_src; eauto; lia.
Qed.

Lemma block_index bs vs c N i : 0 < vs -> bs = c * vs -> 0 < c -> i < N / vs * vs ->
  exists q r, q * bs < N /\ q * bs + r * vs <= i < q * bs + r * vs + vs /\
    q * bs + r * vs + vs <= Nat.min N (q * bs + bs).
Proof.
  intros Hv -> Hc Hi.
  assert (B : N / vs * vs <= N) by (rewrite Nat.mul_comm; apply Nat.mul_div_le; lia).
  exists (i / vs / c), ((i / vs) mod c).
  assert (D1 := Nat.div_mod i vs ltac:(lia)). assert (D2 := Nat.mod_upper_bound i vs ltac:(lia)).
  assert (D3 := Nat.div_mod (i / vs) c ltac:(lia)). assert (D4 := Nat.mod_upper_bound (i / vs) c ltac:(lia)).
  set (u := i / vs) in *. set (q := u / c) in *. set (r := u mod c) in *. set (w := N / vs) in *.
  assert (E : q * (c * vs) + r * vs = vs * u) by (rewrite D3; ring).
  assert (u < w) by nia. rewrite E.
  assert (vs * u + vs <= w * vs) by nia.
  assert (r * vs + vs <= c * vs) by nia. lia.
Qed.

Definition inblk (vs lo hi i : nat) : Prop :=
  exists q, lo + q * vs + vs <= hi /\ lo + q * vs <= i < lo + q * vs + vs.

Lemma not_inplace_inv bs vs c : 0 < vs -> bs = c * vs -> 0 < c ->
  inv (fun i j => i < m /\ j < n) (not_inplace bs vs m n a lda b ldb M0).
Proof.
  intros Hv Hbs Hc. unfold not_inplace. cbv zeta. assert (0 < bs) by nia.
  assert (B1 : m / vs * vs <= m) by (rewrite Nat.mul_comm; apply Nat.mul_div_le; lia).
  assert (B2 : n / vs * vs <= n) by (rewrite Nat.mul_comm; apply Nat.mul_div_le; lia).
  assert (I0 : inv (fun _ _ => False) M0) by (split; [tauto|reflexivity]).
  match goal with |- inv _ (for_lt _ _ _ _ _ (for_lt _ _ _ _ _ ?X)) => set (M1 := X) end.
  assert (I1 : inv (fun i j => i < m / vs * vs /\ j < n / vs * vs) M1).
  { eapply inv_weaken; [|apply (for_lt_cover inv inv_weaken (S m) 0 m bs _
      (fun ib i j => exists q, q * bs < n /\ inblk vs ib (Nat.min m (ib + bs)) i /\
          inblk vs (q * bs) (Nat.min n (q * bs + bs)) j)); [lia|lia| |exact I0]].
    - intros i j [Hi Hj]. right.
      destruct (block_index bs vs c m i) as (q & r & Q1 & Q2 & Q3); auto.
      destruct (block_index bs vs c n j) as (q' & r' & Q1' & Q2' & Q3'); auto.
      exists q. split; [lia|]. exists q'. split; [lia|]. split; [exists r|exists r']; lia.
    - intros q S1 M1' Hq HI. cbn [Nat.add] in *.
      eapply inv_weaken; [|apply (for_lt_cover inv inv_weaken (S n) 0 n bs _
        (fun jb i j => inblk vs (q * bs) (Nat.min m (q * bs + bs)) i /\
          inblk vs jb (Nat.min n (jb + bs)) j)); [lia|lia| |exact HI]].
      + cbn beta. intros i j [?|(q' & H1 & H2 & H3)]; [left; assumption|right; exists q'; auto].
      + intros q' S2 M2 Hq' HI2. cbn [Nat.add] in *.
        eapply inv_weaken; [|apply (for_le_cover inv inv_weaken (S m) (q * bs) (Nat.min m (q * bs + bs)) vs _
          (fun iv i j => iv <= i < iv + vs /\ inblk vs (q' * bs) (Nat.min n (q' * bs + bs)) j)); [lia|lia| |exact HI2]].
        * cbn beta. intros i j [?|[(r & H1 & H2) H3]]; [left; assumption|right; exists r; auto].
        * intros r S3 M3 Hr HI3. set (iv := q * bs + r * vs) in *.
          eapply inv_weaken; [|apply (for_le_cover inv inv_weaken (S n) (q' * bs) (Nat.min n (q' * bs + bs)) vs _
            (fun jv i j => iv <= i < iv + vs /\ jv <= j < jv + vs)); [lia|lia| |exact HI3]].
          -- cbn beta. intros i j [?|[H1 (r' & H2 & H3)]]; [left; assumption|right; exists r'; auto].
          -- intros r' S4 M4 Hr' HI4. apply inv_bts; auto; lia. }
  match goal with |- inv _ (for_lt _ _ _ _ _ ?X) => set (M2 := X) end.
  assert (I2 : inv (fun i j => i < m / vs * vs /\ j < n) M2).
  { eapply inv_weaken; [|apply (for_lt_cover inv inv_weaken (S n) (n / vs * vs) n 1 _
      (fun j0 i j => j = j0 /\ i < m / vs * vs)); [lia|lia| |exact I1]].
    - cbn beta. intros i j [Hi Hj]. destruct (le_lt_dec (n / vs * vs) j); [|left; auto].
      right. exists (j - n / vs * vs). lia.
    - intros q S1 M1' Hq HI. set (j0 := n / vs * vs + q * 1) in *.
      eapply inv_weaken; [|apply (inv_fassign1 _ _ _ _ _ _ _ (fun k => k) (fun _ => j0) HI); intros; lia].
      cbn beta. intros i j [?|[-> H2]]; [left; assumption|right; exists i; auto]. }
  eapply inv_weaken; [|apply (for_lt_cover inv inv_weaken (S m) (m / vs * vs) m 1 _
    (fun i0 i j => i = i0 /\ j < n)); [lia|lia| |exact I2]].
  - cbn beta. intros i j [Hi Hj]. destruct (le_lt_dec (m / vs * vs) i); [|left; auto].
    right. exists (i - m / vs * vs). lia.
  - intros q S1 M1' Hq HI. set (i0 := m / vs * vs + q * 1) in *.
    eapply inv_weaken; [|apply (inv_fassign1 _ _ _ _ _ _ _ (fun _ => i0) (fun k => k) HI); intros; lia].
    cbn beta. intros i j [?|[-> H2]]; [left; assumption|right; exists j; auto].
Qed.
End NotInplace.

End Proofs.
