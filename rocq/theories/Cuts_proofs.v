(** * Proofs about iteration splitting *)
From Coq Require Import Arith List Lia Bool.
From Verif Require Import Cuts_model Cuts_spec.
Import ListNotations.

(** Boundary of block [k] when blocks have size [l], the first [c] of them [l+1]. *)
Definition bnd (l c k : nat) := k * l + Nat.min k c.

Lemma bnd_S l c k : bnd l c (S k) = bnd l c k + (if k <? c then S l else l).
Proof. unfold bnd. destruct (Nat.ltb_spec k c); lia. Qed.

Lemma bnd_mono l c k k' : k <= k' -> bnd l c k <= bnd l c k'.
Proof. intro H. unfold bnd. assert (k * l <= k' * l) by (apply Nat.mul_le_mono_r; auto). lia. Qed.

Definition blk (l c k : nat) := (bnd l c k, bnd l c (S k)).

Lemma visits1_blk l c i k0 d :
  visits1 i (map (blk l c) (seq k0 d)) =
  if andb (bnd l c k0 <=? i) (i <? bnd l c (k0 + d)) then 1 else 0.
Proof.
  revert k0; induction d as [|d IH]; intro k0; cbn [map seq visits1 blk].
  - rewrite Nat.add_0_r. destruct (Nat.leb_spec (bnd l c k0) i), (Nat.ltb_spec i (bnd l c k0)); cbn; lia.
  - unfold blk at 1. rewrite IH. replace (S k0 + d) with (k0 + S d) by lia.
    pose proof (bnd_mono l c k0 (S k0) ltac:(lia)).
    pose proof (bnd_mono l c (S k0) (k0 + S d) ltac:(lia)).
    destruct (Nat.leb_spec (bnd l c k0) i), (Nat.ltb_spec i (bnd l c (S k0))),
      (Nat.leb_spec (bnd l c (S k0)) i), (Nat.ltb_spec i (bnd l c (k0 + S d))); cbn; lia.
Qed.

(** ** 1-D *)
Lemma fs1_loop_ok s fuel c :
  f1_first s = (if f1_change s =? 0 then f1_last s else S (f1_last s)) ->
  c <= f1_num s -> f1_num s - c <= fuel ->
  fs1_loop fuel s (bnd (f1_last s) (f1_change s) c, bnd (f1_last s) (f1_change s) (S c), c)
  = Some (map (blk (f1_last s) (f1_change s)) (seq c (f1_num s - c))).
Proof.
  intros Hf. revert c; induction fuel as [|fuel IH]; intros c Hc Hfu; cbn [fs1_loop].
  - destruct (Nat.eqb_spec c (f1_num s)); [|lia].
    replace (f1_num s - c) with 0 by lia. reflexivity.
  - destruct (Nat.eqb_spec c (f1_num s)) as [->|Hne].
    + now rewrite Nat.sub_diag.
    + unfold fs1_next.
      replace (bnd (f1_last s) (f1_change s) (S c) +
               (if S c <? f1_change s then f1_first s else f1_last s))
        with (bnd (f1_last s) (f1_change s) (S (S c))).
      * rewrite IH by lia.
        replace (f1_num s - c) with (S (f1_num s - S c)) by lia. reflexivity.
      * rewrite (bnd_S _ _ (S c)). f_equal.
        destruct (Nat.ltb_spec (S c) (f1_change s)); auto.
        rewrite Hf. destruct (Nat.eqb_spec (f1_change s) 0); lia.
Qed.

Lemma fs1_build_ok pa n t :
  (pa = PGrain -> t <> 0) ->
  exists s, fs1_build pa n t = Some s /\
    f1_first s = (if f1_change s =? 0 then f1_last s else S (f1_last s)) /\
    f1_num s <= n /\ bnd (f1_last s) (f1_change s) (f1_num s) = n.
Proof.
  intro Ht. unfold fs1_build.
  assert (exists num, num <> 0 /\
    match pa with
    | PThreads => Some (Nat.max t 1)
    | PGrain => match div_ub n t with Some q => Some (Nat.max q 1) | None => None end
    | PFixed => Some (Nat.max (n / MINBLOCKCUTS) 1)
    end = Some num) as (num & Hn & ->).
  { destruct pa.
    - eexists; split; [|reflexivity]. lia.
    - specialize (Ht eq_refl). unfold div_ub. destruct t; [congruence|].
      eexists; split; [|reflexivity]. lia.
    - eexists; split; [|reflexivity]. lia. }
  unfold div_ub at 1. destruct num as [|num]; [congruence|].
  set (N := S num) in *.
  destruct (Nat.ltb_spec (n / N) 1) as [H|H].
  - eexists; split; [reflexivity|]. cbn [f1_first f1_last f1_change f1_num].
    unfold bnd. replace (n - n * 1) with 0 by lia. cbn. lia.
  - eexists; split; [reflexivity|]. cbn [f1_first f1_last f1_change f1_num].
    pose proof (Nat.div_mod n N ltac:(lia)). pose proof (Nat.mod_upper_bound n N ltac:(lia)).
    set (q := n / N) in *. set (r := n mod N) in *. clearbody q r.
    assert (n - N * q = r) as -> by lia.
    assert (N * 1 <= N * q) by (apply Nat.mul_le_mono_l; lia).
    unfold bnd. rewrite Nat.min_r by lia. repeat split; lia.
Qed.

Lemma for1d_ok pa n t fuel :
  (pa = PGrain -> t <> 0) -> n <= fuel ->
  exists l, for1d pa n t fuel = Some l /\ covers_once1 n l.
Proof.
  intros Ht Hfu. destruct (fs1_build_ok pa n t Ht) as (s & Hb & Hf & Hn & Hbnd).
  unfold for1d. rewrite Hb. unfold fs1_init.
  assert (f1_num s = 0 -> n = 0) as H0.
  { intro E. rewrite E in Hbnd. unfold bnd in Hbnd. lia. }
  replace (f1_first s) with (bnd (f1_last s) (f1_change s) 1).
  2:{ rewrite Hf. unfold bnd. destruct (Nat.eqb_spec (f1_change s) 0); lia. }
  change 0 with (bnd (f1_last s) (f1_change s) 0) at 1.
  rewrite fs1_loop_ok by (auto; lia).
  eexists; split; [reflexivity|]. intro i. rewrite visits1_blk, Nat.sub_0_r, Nat.add_0_l, Hbnd.
  change (bnd (f1_last s) (f1_change s) 0) with 0. cbn [Nat.leb andb]. reflexivity.
Qed.

(** ** 2-D *)
Definition blk2 (lr cr lc cc nc k : nat) : rect :=
  let i := k / nc in let j := k mod nc in
  (bnd lr cr i, bnd lr cr (S i), bnd lc cc j, bnd lc cc (S j)).

Definition fs2_wf (s : fs2) :=
  f2_rbs s = (if f2_crbs s =? 0 then f2_lrbs s else S (f2_lrbs s)) /\
  f2_cbs s = (if f2_ccbs s =? 0 then f2_lcbs s else S (f2_lcbs s)).

Definition fs2_at (s : fs2) (c : nat) : it2 :=
  mkit2 (bnd (f2_lrbs s) (f2_crbs s) (c / f2_nc s))
        (bnd (f2_lrbs s) (f2_crbs s) (S (c / f2_nc s)))
        (bnd (f2_lcbs s) (f2_ccbs s) (c mod f2_nc s))
        (bnd (f2_lcbs s) (f2_ccbs s) (S (c mod f2_nc s))) c.

Lemma inc_eq l c f k :
  f = (if c =? 0 then l else S l) ->
  bnd l c (S k) = bnd l c k + (if k <? c then f else l).
Proof.
  intros ->. rewrite bnd_S. f_equal. destruct (Nat.ltb_spec k c); auto.
  destruct (Nat.eqb_spec c 0); lia.
Qed.

Lemma bnd_1 l c f : f = (if c =? 0 then l else S l) -> bnd l c 1 = f.
Proof. intros ->. unfold bnd. destruct (Nat.eqb_spec c 0); lia. Qed.

Lemma fs2_next_at s c :
  fs2_wf s -> f2_nc s <> 0 -> fs2_next s (fs2_at s c) = fs2_at s (S c).
Proof.
  intros (Hr & Hc) Hn. unfold fs2_next, fs2_at. cbn [cur2 i2b i2e j2b j2e].
  set (nc := f2_nc s) in *.
  pose proof (Nat.div_mod c nc Hn). pose proof (Nat.mod_upper_bound c nc Hn).
  set (q := c / nc) in *. set (r := c mod nc) in *.
  destruct (Nat.eq_dec (S r) nc) as [E|E].
  - assert (S c = nc * S q + 0) as E' by lia.
    assert (S c / nc = S q) as ->. { symmetry. apply Nat.div_unique with 0; lia. }
    assert (S c mod nc = 0) as ->. { symmetry. apply Nat.mod_unique with (S q); lia. }
    cbn [Nat.eqb negb]. rewrite <- (inc_eq _ _ _ (S q) Hr).
    rewrite (bnd_1 _ _ _ Hc). reflexivity.
  - assert (S c = nc * q + S r) as E' by lia.
    assert (S c / nc = q) as ->. { symmetry. apply Nat.div_unique with (S r); lia. }
    assert (S c mod nc = S r) as ->. { symmetry. apply Nat.mod_unique with q; lia. }
    cbn [Nat.eqb negb]. now rewrite <- (inc_eq _ _ _ (S r) Hc).
Qed.

Lemma fs2_loop_ok s fuel c :
  fs2_wf s -> c <= f2_nr s * f2_nc s -> f2_nr s * f2_nc s - c <= fuel ->
  fs2_loop fuel s (fs2_at s c) =
  Some (map (blk2 (f2_lrbs s) (f2_crbs s) (f2_lcbs s) (f2_ccbs s) (f2_nc s))
            (seq c (f2_nr s * f2_nc s - c))).
Proof.
  intros W. revert c; induction fuel as [|fuel IH]; intros c Hc Hfu; cbn [fs2_loop];
    change (cur2 (fs2_at s c)) with c.
  - destruct (Nat.eqb_spec c (f2_nr s * f2_nc s)); [|lia].
    replace (f2_nr s * f2_nc s - c) with 0 by lia. reflexivity.
  - destruct (Nat.eqb_spec c (f2_nr s * f2_nc s)) as [E|Hne].
    + rewrite <- E, Nat.sub_diag. reflexivity.
    + assert (f2_nc s <> 0) by (intro E; rewrite E in *; lia).
      rewrite fs2_next_at, IH by (auto; lia).
      replace (f2_nr s * f2_nc s - c) with (S (f2_nr s * f2_nc s - S c)) by lia. reflexivity.
Qed.

Lemma visits2_app i j l l' : visits2 i j (l ++ l') = visits2 i j l + visits2 i j l'.
Proof. induction l as [|[[[a b] c] d] l IH]; cbn; [auto|]. rewrite IH. lia. Qed.

Lemma visits2_row ib ie i j l :
  visits2 i j (map (fun p => (ib, ie, fst p, snd p)) l) =
  (if andb (ib <=? i) (i <? ie) then 1 else 0) * visits1 j l.
Proof.
  induction l as [|[a b] l IH]; cbn [map visits2 visits1 fst snd]; [lia|].
  rewrite IH. destruct (andb (ib <=? i) (i <? ie)), (andb (a <=? j) (j <? b)); cbn; lia.
Qed.

Lemma visits2_blk2 lr cr lc cc nr nc i j :
  nc <> 0 ->
  visits2 i j (map (blk2 lr cr lc cc nc) (seq 0 (nr * nc))) =
  visits1 i (map (blk lr cr) (seq 0 nr)) * visits1 j (map (blk lc cc) (seq 0 nc)).
Proof.
  intro Hn. induction nr as [|nr IH]; [reflexivity|].
  replace (S nr * nc) with (nr * nc + nc) by lia. rewrite seq_app, map_app, visits2_app, IH.
  replace (S nr) with (nr + 1) by lia. rewrite seq_app, map_app.
  assert (forall l l', visits1 i (l ++ l') = visits1 i l + visits1 i l') as Happ.
  { induction l as [|[a b] l IHl]; intros; cbn; [auto|]. rewrite IHl. lia. }
  rewrite Happ, Nat.mul_add_distr_r. f_equal.
  cbn [seq map visits1 Nat.add]. unfold blk at 1. rewrite Nat.add_0_r.
  rewrite <- visits2_row, map_map. f_equal.
  assert (forall d, d <= nc ->
    map (blk2 lr cr lc cc nc) (seq (nr * nc) d) =
    map (fun x => (bnd lr cr nr, bnd lr cr (S nr), fst (blk lc cc x), snd (blk lc cc x))) (seq 0 d)) as H; [|auto].
  induction d as [|d IHd]; intro Hd; [reflexivity|].
  replace (S d) with (d + 1) by lia. rewrite !seq_app, !map_app, IHd by lia. f_equal.
  cbn [seq map Nat.add fst snd blk]. unfold blk2.
  assert ((nr * nc + d) / nc = nr) as ->. { symmetry. apply Nat.div_unique with d; lia. }
  assert ((nr * nc + d) mod nc = d) as ->. { symmetry. apply Nat.mod_unique with nr; lia. }
  reflexivity.
Qed.

(** Positive block sizes. *)
Lemma nth_forall_pos (l : list nat) k : forallb (fun x => 1 <=? x) l = true -> k < length l -> 1 <= nth k l 0.
Proof.
  intros H Hk. rewrite forallb_forall in H. apply Nat.leb_le, H, nth_In, Hk.
Qed.

Lemma cut_outer_pos i maxt t r c : 1 <= maxt -> cut_outer i maxt t = (r, c) -> 1 <= r /\ 1 <= c.
Proof.
  intro Hm. revert r c; induction i as [|i IH]; intros r c; cbn [cut_outer].
  - intros [= <- <-]; auto.
  - destruct (cut_inner t (S i) maxt (S i * maxt) t) as [j np] eqn:E.
    assert (maxt <= j) as Hj.
    { clear -E. revert E. generalize (S i * maxt) as a, (S i) as b, t at 1 as f. intros a b f.
      revert a. assert (forall f a j0, cut_inner f b j0 a t = (j, np) -> j0 <= j) as H.
      { induction f0 as [|f0 IH]; intros a j0; cbn [cut_inner].
        - intros [= -> ->]; auto.
        - destruct (a <? t); [intro H; apply IH in H; lia | intros [= -> ->]; auto]. }
      intros a E; eapply H; eauto. }
    destruct (np =? t); [intros [= <- <-]; lia | apply IH].
Qed.

Lemma thread_grid_pos t : t <> 0 -> exists r c, thread_grid t = Some (r, c) /\ 1 <= r /\ 1 <= c.
Proof.
  intro Ht. unfold thread_grid. destruct (Nat.ltb_spec t 65) as [H|H].
  - destruct t as [|t]; [congruence|]. do 2 eexists; split; [reflexivity|].
    split; apply nth_forall_pos; try reflexivity; cbn [length maxtr_tab maxtc_tab]; lia.
  - destruct (cut_outer (Nat.sqrt t) (Nat.sqrt t) t) as [r c] eqn:E.
    exists r, c; split; [reflexivity|].
    pose proof (Nat.sqrt_le_mono 1 t ltac:(lia)) as Hs. rewrite Nat.sqrt_1 in Hs.
    exact (cut_outer_pos _ _ _ _ _ Hs E).
Qed.

(** Exactness condition on one dimension: the leftover fits one per block. *)
Definition dim_exact (m rb : nat) := m mod rb <= m / rb.

Lemma thr_exact m t : t <> 0 -> dim_exact m (Nat.max (m / t) 1).
Proof.
  intro Ht. unfold dim_exact. destruct (Nat.eq_dec (m / t) 0) as [->|Hq].
  - cbn [Nat.max]. rewrite Nat.mod_1_r. lia.
  - rewrite Nat.max_l by lia. set (q := m / t) in *.
    pose proof (Nat.div_mod m t Ht) as E. pose proof (Nat.mod_upper_bound m t Ht).
    fold q in E. set (s := m mod t) in *.
    assert (t <= m / q). { apply Nat.div_le_lower_bound; lia. }
    assert (m mod q = s mod q) as ->.
    { rewrite E, Nat.add_comm, Nat.mod_add by auto. reflexivity. }
    pose proof (Nat.mod_le s q Hq). lia.
Qed.

Lemma full_exact m : dim_exact m (Nat.max m 1).
Proof.
  unfold dim_exact. destruct m; [cbn; lia|]. rewrite Nat.max_l by lia.
  rewrite Nat.mod_same, Nat.div_same by lia. lia.
Qed.

Lemma block_sizes_pos c pa m n t :
  t <> 0 -> exists rb cb, block_sizes c pa m n t = Some (rb, cb) /\ rb <> 0 /\ cb <> 0 /\
   rb <= Nat.max m 1 /\ cb <= Nat.max n 1 /\
   (pa = PThreads -> dim_exact m rb /\ dim_exact n cb).
Proof.
  intro Ht. destruct t as [|t]; [congruence|]. set (T := S t).
  assert (forall x, x / T <= x) as Hdiv by (intro; apply Nat.div_le_upper_bound; unfold T; nia).
  destruct c; destruct pa; cbn [block_sizes];
    try (do 2 eexists; split; [reflexivity|]; repeat split; try lia; intros; try congruence;
         auto using full_exact, thr_exact; fail).
  - exists (Nat.max (m / T) 1), (Nat.max n 1). specialize (Hdiv m).
    repeat split; try lia; auto using full_exact, thr_exact.
  - exists (Nat.max m 1), (Nat.max (n / T) 1). specialize (Hdiv n).
    repeat split; try lia; auto using full_exact, thr_exact.
  - destruct (thread_grid_pos T ltac:(unfold T; lia)) as (r & c & -> & Hr & Hc).
    unfold div_ub. destruct r as [|r]; [lia|]. destruct c as [|c]; [lia|].
    exists (Nat.max (m / S r) 1), (Nat.max (n / S c) 1). split; [reflexivity|].
    assert (m / S r <= m) by (apply Nat.div_le_upper_bound; nia).
    assert (n / S c <= n) by (apply Nat.div_le_upper_bound; nia).
    repeat split; try lia; auto using thr_exact.
Qed.

(** What the 2-D iterator produces, in every case. *)
Definition reach (m rb : nat) := bnd rb (m - rb * (m / rb)) (m / rb).

Lemma reach_le m rb : rb <> 0 -> reach m rb <= m.
Proof.
  intro H. unfold reach, bnd. pose proof (Nat.div_mod m rb H).
  set (q := m / rb) in *. set (r := m mod rb) in *. clearbody q r. lia.
Qed.

Lemma reach_eq m rb : rb <> 0 -> (reach m rb = m <-> dim_exact m rb).
Proof.
  intro H. unfold reach, bnd, dim_exact. pose proof (Nat.div_mod m rb H).
  set (q := m / rb) in *. set (r := m mod rb) in *. clearbody q r. lia.
Qed.

Lemma for2d_visits c pa m n t fuel rb cb :
  block_sizes c pa m n t = Some (rb, cb) -> rb <> 0 -> cb <> 0 ->
  rb <= Nat.max m 1 -> cb <= Nat.max n 1 -> m * n <= fuel ->
  exists l, for2d c pa m n t fuel = Some l /\
    forall i j, visits2 i j l = if andb (i <? reach m rb) (j <? reach n cb) then 1 else 0.
Proof.
  intros Hbs Hrb Hcb Hrm Hcn Hfu. unfold for2d, fs2_build. rewrite Hbs.
  unfold div_ub. destruct rb as [|rb']; [congruence|]. destruct cb as [|cb']; [congruence|].
  set (rb := S rb') in *. set (cb := S cb') in *.
  set (s := mkfs2 _ _ _ _ _ _ _ _).
  assert (fs2_wf s) as W by (split; reflexivity).
  assert (m / rb <= m) by (apply Nat.div_le_upper_bound; unfold rb; nia).
  assert (n / cb <= n) by (apply Nat.div_le_upper_bound; unfold cb; nia).
  destruct (Nat.eq_dec (m / rb * (n / cb)) 0) as [E0|E0].
  - exists []. split.
    + destruct fuel; cbn [fs2_loop fs2_init cur2 f2_nr f2_nc s]; rewrite E0; reflexivity.
    + intros i j. cbn. 
      assert (m = 0 \/ n = 0) as Hz.
      { apply Nat.eq_mul_0 in E0. destruct E0 as [E0|E0];
          [left|right]; apply Nat.div_small_iff in E0; try (unfold rb, cb; lia).
        }
      destruct Hz as [-> | ->].
      * pose proof (reach_le 0 rb Hrb). replace (reach 0 rb) with 0 by lia. reflexivity.
      * pose proof (reach_le 0 cb Hcb). replace (reach 0 cb) with 0 by lia. now rewrite andb_false_r.
  - assert (fs2_init s = fs2_at s 0) as ->.
    { unfold fs2_init, fs2_at. rewrite Nat.div_0_l, Nat.mod_0_l by (cbn [f2_nc s]; lia).
      destruct W as (Wr & Wc). f_equal.
      - symmetry; apply bnd_1, Wr.
      - symmetry; apply bnd_1, Wc. }
    rewrite fs2_loop_ok; [|auto|lia|].
    2:{ cbn [f2_nr f2_nc s]. assert (m / rb * (n / cb) <= m * n) by (apply Nat.mul_le_mono; auto). lia. }
    eexists; split; [reflexivity|]. intros i j. rewrite Nat.sub_0_r.
    cbn [f2_nr f2_nc f2_lrbs f2_crbs f2_lcbs f2_ccbs s].
    rewrite visits2_blk2 by lia. rewrite !visits1_blk, !Nat.add_0_l.
    fold (reach m rb). fold (reach n cb). unfold bnd at 1 2. cbn [Nat.mul Nat.min Nat.add Nat.leb andb].
    destruct (i <? reach m rb), (j <? reach n cb); reflexivity.
Qed.

Lemma for2d_threads_ok c m n t fuel :
  t <> 0 -> m * n <= fuel ->
  exists l, for2d c PThreads m n t fuel = Some l /\ covers_once2 m n l.
Proof.
  intros Ht Hfu. destruct (block_sizes_pos c PThreads m n t Ht) as (rb & cb & Hb & H1 & H2 & H3 & H4 & He).
  destruct (for2d_visits _ _ _ _ _ _ _ _ Hb H1 H2 H3 H4 Hfu) as (l & Hl & Hv).
  exists l; split; auto. intros i j. rewrite Hv. destruct (He eq_refl) as (E1 & E2).
  apply reach_eq in E1, E2; auto. now rewrite E1, E2.
Qed.

Lemma for2d_safe c pa m n t fuel :
  t <> 0 -> m * n <= fuel ->
  exists l, for2d c pa m n t fuel = Some l /\ inside_disjoint2 m n l.
Proof.
  intros Ht Hfu. destruct (block_sizes_pos c pa m n t Ht) as (rb & cb & Hb & H1 & H2 & H3 & H4 & He).
  destruct (for2d_visits _ _ _ _ _ _ _ _ Hb H1 H2 H3 H4 Hfu) as (l & Hl & Hv).
  exists l; split; auto. intros i j. rewrite Hv.
  pose proof (reach_le m rb H1). pose proof (reach_le n cb H2).
  destruct (Nat.ltb_spec i (reach m rb)), (Nat.ltb_spec j (reach n cb)),
    (Nat.ltb_spec i m), (Nat.ltb_spec j n); cbn; lia.
Qed.

Lemma for2d_exact_iff c pa m n t fuel rb cb :
  t <> 0 -> m * n <= fuel -> 0 < m -> 0 < n ->
  block_sizes c pa m n t = Some (rb, cb) ->
  (exists l, for2d c pa m n t fuel = Some l /\ covers_once2 m n l) <->
  (m mod rb <= m / rb /\ n mod cb <= n / cb).
Proof.
  intros Ht Hfu Hm Hn Hb.
  destruct (block_sizes_pos c pa m n t Ht) as (rb' & cb' & Hb' & H1 & H2 & H3 & H4 & He).
  rewrite Hb in Hb'. injection Hb' as <- <-.
  destruct (for2d_visits _ _ _ _ _ _ _ _ Hb H1 H2 H3 H4 Hfu) as (l & Hl & Hv).
  fold (dim_exact m rb). fold (dim_exact n cb). rewrite <- !reach_eq by auto.
  pose proof (reach_le m rb H1). pose proof (reach_le n cb H2).
  split.
  - intros (l' & Hl' & Hc). rewrite Hl in Hl'. injection Hl' as <-.
    specialize (Hc (m - 1) (n - 1)). rewrite Hv in Hc.
    destruct (Nat.ltb_spec (m - 1) (reach m rb)), (Nat.ltb_spec (n - 1) (reach n cb)),
      (Nat.ltb_spec (m - 1) m), (Nat.ltb_spec (n - 1) n); cbn in Hc; lia.
  - intros (E1 & E2). exists l; split; auto. intros i j. now rewrite Hv, E1, E2.
Qed.
