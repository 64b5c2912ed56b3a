From mathcomp Require Import all_ssreflect ssralg ssrint zify.
From Verif Require Import Cuts_model Cuts_spec Cuts_proofs Par_model Par_spec Par_proofs Par2_proofs.
Set Implicit Arguments.
Unset Strict Implicit.
Unset Printing Implicit Defensive.
Import GRing.Theory.

Lemma ownedE pth x : owned pth x -> exists s, x.1 = pth ++ s.
Proof. move=> /eqP H. exists (drop (size pth) x.1). rewrite -[LHS](cat_take_drop (size pth)) H //. Qed.
Lemma owned_intro pth s o : owned pth (pth ++ s, o).
Proof. by rewrite /owned /= take_size_cat. Qed.
Lemma owned_cat pth s x : owned (pth ++ s) x -> owned pth x.
Proof. move=> /ownedE [s' E]. by rewrite /owned E -catA take_size_cat. Qed.
Lemma owned_dis pth a s b s' x : a <> b -> owned (pth ++ a :: s) x -> ~ owned (pth ++ b :: s') x.
Proof.
  move=> N /ownedE [t E] /ownedE [t' E']. apply: N. move: E'. rewrite E -!catA /=.
  by move/eqP; rewrite eqseq_cat // => /andP [_ /eqP []].
Qed.

Section Variants.
Variables (V : ringType) (df : bool) (T : nat) (ta tb : bool) (alpha : V) (RA RB : seq nat).
Local Open Scope ring_scope.
Notation product := (product ta tb).
Notation good := (good ta tb alpha RA RB).
Notation tgood := (tgood ta tb alpha RA RB).

Lemma product_sub k A B beta C mu r c i j :
  product k alpha (opsub ta A r 0) (opsub tb B 0 c) beta (sub C r c) mu i j
  = product k alpha A B beta C mu (r + i) (c + j).
Proof.
  rewrite /Par_spec.product cell_sub. congr (_ * _ + _). apply: eq_bigr => l _. by rewrite !op_opsub !add0n.
Qed.

Lemma good_tiles (own : addr -> Prop) m n k A B beta C (ts : seq (tile V)) :
  (forall t, List.In t ts -> tgood t) -> pdis ts ->
  (forall t, List.In t ts -> (forall x, t_win t x -> in_win C m n x) /\ (forall x, t_own t x -> own x)) ->
  (forall i j, (i < m)%N -> (j < n)%N -> exists t i' j', [/\ List.In t ts, (i' < t_m t)%N, (j' < t_n t)%N,
     cell C i j = cell (t_C t) i' j' &
     forall mu, product (t_k t) alpha (t_A t) (t_B t) (t_beta t) (t_C t) mu i' j' = product k alpha A B beta C mu i j]) ->
  good own m n k A B beta C (cpar [seq t_P t | t <- ts]).
Proof.
  move=> Hg Hd Hin Hcov. have [I1 I2 I3 I4 I5] := tiles_ok Hg Hd. split=> //.
  - by move=> x /I3 [t /Hin [H1 H2] [/H1|/H2]]; [left|right].
  - by move=> x /I4 [H|H|[t /Hin [H1 H2] [/H1 ?|/H2 ?]]]; [constructor 1|constructor 2|constructor 3|constructor 4].
  - move=> mu i j Hi Hj. have [t [i' [j' [H1 H2 H3 -> H5]]]] := Hcov i j Hi Hj. by rewrite I5.
Qed.

Definition env (own : addr -> Prop) (n : nat) (A B C : view) : Prop :=
  [/\ vreg A = RA, vreg B = RB, vreg C <> RA /\ vreg C <> RB, (n <= vld C)%N &
      forall x, own x -> [/\ x.1 <> RA, x.1 <> RB & x.1 <> vreg C]].

Lemma good_base own (m n k : nat) A B beta C P : env own n A B C -> 
  (~~ ((m == 0)%N || (n == 0)%N) -> ~~ ((k == 0)%N || (alpha == 0)) -> good own m n k A B beta C P) ->
  good own m n k A B beta C
    (if (m == 0)%N || (n == 0)%N then Done else if (k == 0)%N || (alpha == 0) then fscalin m n beta C else P).
Proof.
  move=> [HA HB [CA CB] Hn _] H. case: ifPn => H1; first exact: good_done.
  case: ifPn => H2; first exact: good_scal. exact: H.
Qed.

Lemma env_all own n' n A B C A' B' C' : env own n A B C -> (n' <= n)%N -> vreg A' = RA -> vreg B' = RB ->
  vreg C' = vreg C -> vld C' = vld C -> env own n' A' B' C'.
Proof. by move=> [HA HB HC Hn HO] H e1 e2 e3 e4; split=> //=; rewrite ?e3 ?e4 //; lia. Qed.
Lemma env_tgood (own : addr -> Prop) m n k A B beta C P : env own n A B C -> good own m n k A B beta C P ->
  tgood (Tile own m n k A B beta C P).
Proof. by move=> [HA HB HC Hn HO] G; split=> //= x /HO []. Qed.

Local Ltac disj := let i := fresh in let j := fresh in
  move=> ? [i [j [? ? ->]]] [? [? [? ?]]]; rewrite ?cell_sub; move=> /cell_inj [||]; lia.
Local Ltac inwin := let i := fresh in let j := fresh in
  move=> ? [i [j [? ? ->]]]; rewrite ?cell_sub; eexists; eexists; split; [| |reflexivity]; lia.

(** two tiles: rows *)
Lemma good_rows (own own1 own2 : addr -> Prop) m n k A B beta C P1 P2 M2 : (M2 <= m)%N -> env own n A B C ->
  (forall x, own1 x -> own x) -> (forall x, own2 x -> own x) -> (forall x, own1 x -> ~ own2 x) ->
  good own1 M2 n k A B beta C P1 -> good own2 (m - M2) n k (opsub ta A M2 0) B beta (sub C M2 0) P2 ->
  good own m n k A B beta C (cpar [:: P1; P2]).
Proof.
  move=> HM E O1 O2 O12 G1 G2. have [HA HB [CA CB] Hn HO] := E.
  pose ts := [:: Tile own1 M2 n k A B beta C P1; Tile own2 (m - M2) n k (opsub ta A M2 0) B beta (sub C M2 0) P2].
  apply: (@good_tiles own m n k A B beta C ts).
  - move=> t [<-|[<-|[]]]; split=> //= x; [move=> /O1 /HO []|move=> /O2 /HO []] => //.
  - split=> //= s [<-|[]] //. split=> //=.
    + rewrite /t_win /=. disj.
    + by move=> x /win_reg Ex /O2 /HO [_ _]; rewrite Ex.
    + by move=> x /win_reg Ex /O1 /HO [_ _]; rewrite Ex.
  - move=> t [<-|[<-|[]]]; split=> //=; rewrite /t_win /=; inwin.
  - move=> i j Hi Hj. case: (ltnP i M2) => H.
    + exists (Tile own1 M2 n k A B beta C P1), i, j. split=> //. by left.
    + exists (Tile own2 (m - M2) n k (opsub ta A M2 0) B beta (sub C M2 0) P2), (i - M2)%N, j. split=> //=.
      * by right; left.
      * lia.
      * rewrite cell_sub add0n. congr cell. lia.
      * move=> mu. rewrite -{1}(opsub00 tb B) product_sub add0n subnKC //.
Qed.

Lemma good_cols (own own1 own2 : addr -> Prop) m n k A B beta C P1 P2 N2 : (N2 <= n)%N -> env own n A B C ->
  (forall x, own1 x -> own x) -> (forall x, own2 x -> own x) -> (forall x, own1 x -> ~ own2 x) ->
  good own1 m N2 k A B beta C P1 -> good own2 m (n - N2) k A (opsub tb B 0 N2) beta (sub C 0 N2) P2 ->
  good own m n k A B beta C (cpar [:: P1; P2]).
Proof.
  move=> HM E O1 O2 O12 G1 G2. have [HA HB [CA CB] Hn HO] := E.
  pose ts := [:: Tile own1 m N2 k A B beta C P1; Tile own2 m (n - N2) k A (opsub tb B 0 N2) beta (sub C 0 N2) P2].
  apply: (@good_tiles own m n k A B beta C ts).
  - move=> t [<-|[<-|[]]]; split=> //= x; [move=> /O1 /HO []|move=> /O2 /HO []] => //.
  - split=> //= s [<-|[]] //. split=> //=.
    + rewrite /t_win /=. disj.
    + by move=> x /win_reg Ex /O2 /HO [_ _]; rewrite Ex.
    + by move=> x /win_reg Ex /O1 /HO [_ _]; rewrite Ex.
  - move=> t [<-|[<-|[]]]; split=> //=; rewrite /t_win /=; inwin.
  - move=> i j Hi Hj. case: (ltnP j N2) => H.
    + exists (Tile own1 m N2 k A B beta C P1), i, j. split=> //. by left.
    + exists (Tile own2 m (n - N2) k A (opsub tb B 0 N2) beta (sub C 0 N2) P2), i, (j - N2)%N. split=> //=.
      * by right; left.
      * lia.
      * rewrite cell_sub add0n. congr cell. lia.
      * move=> mu. rewrite -{1}(opsub00 ta A) product_sub add0n subnKC //.
Qed.

Definition no_tmp (x : addr) : Prop := False.

Lemma half_le m : (m./2 <= m)%N. Proof. lia. Qed.

Theorem good_2da fuel nt m n k A B beta C : env no_tmp n A B C ->
  good no_tmp m n k A B beta C (pf_2da T ta tb alpha fuel nt m n k A B beta C).
Proof.
  elim: fuel nt m n A B C => [|f IH] nt m n A B C E; have [HA HB [CA CB] Hn HO] := E.
  - apply: good_base => // _ _. case: ifP => _; exact: good_leaf.
  - apply: good_base => // _ _. case: ifP => _; first exact: good_leaf.
    cbv zeta. case: ifP => _.
    + apply: (@good_rows _ no_tmp no_tmp _ _ _ _ _ _ _ _ _ m./2) => //; first exact: half_le.
      * by apply: IH.
      * apply: IH. by apply: (env_all E) => //; lia.
    + apply: (@good_cols _ no_tmp no_tmp _ _ _ _ _ _ _ _ _ n./2) => //; first exact: half_le.
      * apply: IH. by apply: (env_all E) => //; lia.
      * apply: IH. by apply: (env_all E) => //; lia.
Qed.

(** four tiles *)
Lemma good_quads (own : addr -> Prop) (o : nat -> addr -> Prop) m n k A B beta C P1 P2 P3 P4 M2 N2 :
  (M2 <= m)%N -> (N2 <= n)%N -> env own n A B C ->
  (forall q x, o q x -> own x) -> (forall q q' x, q <> q' -> o q x -> ~ o q' x) ->
  good (o 0%N) M2 N2 k A B beta C P1 ->
  good (o 1%N) M2 (n - N2) k A (opsub tb B 0 N2) beta (sub C 0 N2) P2 ->
  good (o 2%N) (m - M2) N2 k (opsub ta A M2 0) B beta (sub C M2 0) P3 ->
  good (o 3%N) (m - M2) (n - N2) k (opsub ta A M2 0) (opsub tb B 0 N2) beta (sub C M2 N2) P4 ->
  pairwise_indep [:: P1; P2; P3; P4] /\ good own m n k A B beta C (cpar [:: P1; P2; P3; P4]).
Proof.
  move=> HM HN E O1 O2 G1 G2 G3 G4. have [HA HB [CA CB] Hn HO] := E.
  pose ts := [:: Tile (o 0%N) M2 N2 k A B beta C P1;
    Tile (o 1%N) M2 (n - N2) k A (opsub tb B 0 N2) beta (sub C 0 N2) P2;
    Tile (o 2%N) (m - M2) N2 k (opsub ta A M2 0) B beta (sub C M2 0) P3;
    Tile (o 3%N) (m - M2) (n - N2) k (opsub ta A M2 0) (opsub tb B 0 N2) beta (sub C M2 N2) P4].
  have Hg t : List.In t ts -> tgood t.
  { move=> [<-|[<-|[<-|[<-|[]]]]]; split=> //= x; move=> /O1 /HO [] //. }
  have W q x (C' : view) m' n' : vreg C' = vreg C -> in_win C' m' n' x -> ~ o q x.
  { by move=> EC /win_reg Ex /O1 /HO [_ _]; rewrite Ex EC. }
  have Hd : pdis ts.
  { split; [|split; [|split; [|split]]] => //= s H.
    1: case: H => [<-|[<-|[<-|[]]]] //.
    4: case: H => [<-|[<-|[]]] //.
    6: case: H => [<-|[]] //.
    all: split=> /=; rewrite /t_win /=; [disj|by move=> x; apply: O2|by move=> x; apply: W|by move=> x; apply: W]. }
  split; first by have [] := tiles_ok Hg Hd.
  apply: (@good_tiles own m n k A B beta C ts) => //.
  - move=> t [<-|[<-|[<-|[<-|[]]]]]; split=> /=; try exact: O1; rewrite /t_win /=; inwin.
  - move=> i j Hi Hj. case: (ltnP i M2) => H1; case: (ltnP j N2) => H2.
    + eexists; exists i, j; split; [by left| | | |] => //.
    + eexists; exists i, (j - N2)%N; split; [by right; left| | | |] => //=.
      * lia.
      * rewrite cell_sub add0n. congr cell. lia.
      * move=> mu. rewrite -{1}(opsub00 ta A) product_sub add0n subnKC //.
    + eexists; exists (i - M2)%N, j; split; [by right; right; left| | | |] => //=.
      * lia.
      * rewrite cell_sub add0n. congr cell. lia.
      * move=> mu. rewrite -{1}(opsub00 tb B) product_sub add0n subnKC //.
    + eexists; exists (i - M2)%N, (j - N2)%N; split; [by right; right; right; left| | | |] => //=.
      * lia. * lia.
      * rewrite cell_sub. congr cell; lia.
      * move=> mu. rewrite product_sub !subnKC //.
Qed.

Theorem good_2d fuel nt m n k A B beta C : env no_tmp n A B C ->
  good no_tmp m n k A B beta C (pf_2d T ta tb alpha fuel nt m n k A B beta C).
Proof.
  elim: fuel nt m n A B C => [|f IH] nt m n A B C E; have [HA HB [CA CB] Hn HO] := E.
  - apply: good_base => // _ _. case: ifP => _; exact: good_leaf.
  - apply: good_base => // _ _. case: ifP => _; first exact: good_leaf.
    cbv zeta. apply: (proj2 (@good_quads no_tmp (fun=> no_tmp) m n k A B beta C _ _ _ _ m./2 n./2 _ _ E _ _ _ _ _ _));
      try exact: half_le; try by [].
    + apply: IH. by apply: (env_all E) => //; lia.
    + apply: IH. by apply: (env_all E) => //; lia.
    + apply: IH. by apply: (env_all E) => //; lia.
    + apply: IH. by apply: (env_all E) => //; lia.
Qed.

(** ** Accumulation *)
Lemma good_seq (own : addr -> Prop) m n k k1 k2 A A1 A2 B B1 B2 beta C P1 P2 :
  env own n A B C -> vreg A1 = RA -> vreg B1 = RB -> vreg A2 = RA -> vreg B2 = RB ->
  good own m n k1 A1 B1 beta C P1 -> good own m n k2 A2 B2 1 C P2 ->
  (forall mu i j, product k2 alpha A2 B2 0 C mu i j + product k1 alpha A1 B1 beta C mu i j = product k alpha A B beta C mu i j) ->
  good own m n k A B beta C (Seq P1 P2).
Proof.
  move=> [HA HB [CA CB] Hn HO] A1r B1r A2r B2r G1 G2 Hv. split.
  - by split; [exact: (g_rf G1)|exact: (g_rf G2)].
  - by move=> x /= /orP [/(g_w G1)|/(g_w G2)].
  - by move=> x /= /orP [/(g_r G1)|/(g_r G2)].
  - move=> mu i j Hi Hj /=. rewrite (g_v G2) // -Hv {1}/Par_spec.product (g_v G1) // mul1r. congr (_ + _).
    rewrite /Par_spec.product mul0r addr0. congr (_ * _). apply: eq_bigr => l _.
    have F x : x.1 = RA \/ x.1 = RB -> run P1 mu x = mu x.
    { move=> Hx. apply: run_frame. apply/negP => /(g_w G1) [/win_reg Ex|/HO [X1 X2 _]]; case: Hx => //; rewrite Ex //. }
    rewrite !F // op_reg; auto.
Qed.

(** product by temporaries *)
Lemma faddin_ok m n S D mu i j : (i < m)%N -> (j < n)%N -> (n <= vld D)%N -> vreg S <> vreg D ->
  run (faddin V m n S D) mu (cell D i j) = mu (cell D i j) + mu (cell S i j).
Proof.
  move=> Hi Hj Hn HS. rewrite (@run_loop2_at _ m n _ i j) //.
  - by rewrite /= /upd eqxx.
  - move=> i' j' Hi' Hj' /=. apply: contra => /eqP /cell_inj [||-> ->] //; lia.
  - move=> i1 j1 i2 j2 y Hi1 Hj1 Hi2 Hj2 N /=. rewrite !inE => /orP [/eqP ->|/eqP ->].
    + apply: contra N => /eqP /cell_inj [||-> ->] //; lia.
    + by apply/negP => /eqP [] /HS.
Qed.
Lemma faddin_w m n S D x : writes (faddin V m n S D) x -> in_win D m n x.
Proof. by move=> /writes_loop2 [i [j [Hi Hj /= /eqP ->]]]; exists i, j. Qed.
Lemma faddin_r m n S D x : reads (faddin V m n S D) x -> in_win D m n x \/ in_win S m n x.
Proof.
  move=> /reads_loop2 [i [j [Hi Hj /=]]]. rewrite !inE => /orP [/eqP ->|/eqP ->]; [left|right]; by exists i, j.
Qed.

Lemma good_tmp (own own1 own2 : addr -> Prop) m n k k1 k2 A A1 A2 B B1 B2 beta C D P1 P2 :
  env own n A B C -> vreg A1 = RA -> vreg B1 = RB -> vreg A2 = RA -> vreg B2 = RB ->
  (forall x, own1 x -> own x) -> (forall x, own2 x -> own x) -> (forall x, own1 x -> ~ own2 x) ->
  (forall x, x.1 = vreg D -> [/\ own x, ~ own1 x & ~ own2 x]) -> (n <= vld D)%N ->
  good own1 m n k1 A1 B1 beta C P1 -> good own2 m n k2 A2 B2 0 D P2 ->
  (forall mu i j, product k1 alpha A1 B1 beta C mu i j + product k2 alpha A2 B2 0 D mu i j = product k alpha A B beta C mu i j) ->
  good own m n k A B beta C (Seq (cpar [:: P1; P2]) (faddin V m n D C)).
Proof.
  move=> [HA HB [CA CB] Hn HO] A1r B1r A2r B2r O1 O2 O12 HD HDn G1 G2 Hv.
  have [DA DB DC] : [/\ vreg D <> RA, vreg D <> RB & vreg D <> vreg C].
  { have [/HO []] := HD (vreg D, 0%N) erefl. by []. }
  pose ts := [:: Tile own1 m n k1 A1 B1 beta C P1; Tile own2 m n k2 A2 B2 0 D P2].
  have Hg t : List.In t ts -> tgood t.
  { move=> [<-|[<-|[]]]; split=> //= x; [move=> /O1 /HO []|move=> /O2 /HO []] => //. }
  have Hd : pdis ts.
  { split=> //= s [<-|[]] //. split=> //=; rewrite /t_win /=.
    - by move=> x /win_reg E /win_reg E'; apply: DC; rewrite -E' E.
    - by move=> x /win_reg Ex /O2 /HO [_ _]; rewrite Ex.
    - by move=> x /win_reg /HD []. }
  have [I1 I2 I3 I4 I5] := tiles_ok Hg Hd. rewrite [X in Seq X _](_ : _ = cpar [seq t_P t | t <- ts]) //. split.
  - by split=> //; apply: rf_loop2.
  - move=> x; rewrite /= -/(cpar _) => /orP [/I3 [t [<-|[<-|[]]] /= [H|H]]|].
    + by left. + by right; apply: O1. + by right; have [] := HD _ (win_reg H). + by right; apply: O2.
    + by move=> /faddin_w; left.
  - move=> x; rewrite /= -/(cpar _) => /orP [/I4 [H|H|[t [<-|[<-|[]]] /= [H|H]]]|].
    + by constructor 1. + by constructor 2. + by constructor 3. + by constructor 4; apply: O1.
    + by constructor 4; have [] := HD _ (win_reg H). + by constructor 4; apply: O2.
    + by move=> /faddin_r [H|/win_reg /HD [H _ _]]; [constructor 3|constructor 4].
  - move=> mu i j Hi Hj. rewrite [LHS](_ : _ = run (faddin V m n D C) (run (cpar [seq t_P t | t <- ts]) mu) (cell C i j)) // faddin_ok //.
    have J1 := I5 mu (Tile own1 m n k1 A1 B1 beta C P1) i j (or_introl erefl) Hi Hj.
    have J2 := I5 mu (Tile own2 m n k2 A2 B2 0 D P2) i j (or_intror (or_introl erefl)) Hi Hj.
    by rewrite -Hv; congr (_ + _); [exact: J1|exact: J2].
Qed.

(** halves of a product *)
Lemma halves_lo k A B beta C D mu i j :
  product k./2 alpha A B beta C mu i j + product (k - k./2) alpha (opsub ta A 0 k./2) (opsub tb B k./2 0) 0 D mu i j
  = product k alpha A B beta C mu i j.
Proof.
  rewrite (@product_split _ ta tb alpha _ _ k./2 k A B beta C mu i j (half_le k) erefl erefl).
  rewrite /Par_spec.product mul0r addr0. by rewrite -!addrA; congr (_ + _); rewrite addrC.
Qed.
Lemma halves_hi k A B beta C D mu i j :
  product (k - k./2) alpha (opsub ta A 0 k./2) (opsub tb B k./2 0) beta C mu i j + product k./2 alpha A B 0 D mu i j
  = product k alpha A B beta C mu i j.
Proof.
  rewrite (@product_split _ ta tb alpha _ _ k./2 k A B beta C mu i j (half_le k) erefl erefl).
  rewrite /Par_spec.product mul0r addr0. by rewrite addrC.
Qed.
Lemma opsub_opsub t A r c r' c' : opsub t (opsub t A r c) r' c' = opsub t A (r + r') (c + c').
Proof. rewrite /opsub /=. congr View. case: t; lia. Qed.
Lemma opsub_row t A r c : opsub t (opsub t A r 0) 0 c = opsub t A r c.
Proof. by rewrite opsub_opsub addn0 add0n. Qed.
Lemma opsub_col t A r c : opsub t (opsub t A 0 c) r 0 = opsub t A r c.
Proof. by rewrite opsub_opsub addn0 add0n. Qed.

Lemma In4 (W : Type) (a b c d : W) x : List.In x [:: a; b; c; d] -> [\/ x = a, x = b, x = c | x = d].
Proof. by move=> [->|[->|[->|[->|[]]]]]; [constructor 1|constructor 2|constructor 3|constructor 4]. Qed.

Theorem good_3dip fuel nt m n k A B beta C : env no_tmp n A B C ->
  good no_tmp m n k A B beta C (pf_3dip df T ta tb alpha fuel nt m n k A B beta C).
Proof.
  elim: fuel nt m n k A B beta C => [|f IH] nt m n k A B beta C E; have [HA HB [CA CB] Hn HO] := E.
  - apply: good_base => // _ _. case: ifP => _; exact: good_leaf.
  - apply: good_base => // _ _. case: ifP => _; first exact: good_leaf.
    cbv zeta. set ps := (X in phases df X _). set qs := (X in phases df _ X).
    have E2 A' B' : vreg A' = RA -> vreg B' = RB -> env no_tmp n./2 A' B' C.
    { move=> e1 e2. by apply: (env_all E) => //; lia. }
    have E3 A' B' r c : vreg A' = RA -> vreg B' = RB -> env no_tmp (n - n./2) A' B' (sub C r c).
    { move=> e1 e2. by apply: (env_all E) => //; lia. }
    have E4 A' B' r c : vreg A' = RA -> vreg B' = RB -> env no_tmp n./2 A' B' (sub C r c).
    { move=> e1 e2. by apply: (env_all E) => //; lia. }
    have G : pairwise_indep [seq Seq pq.1 pq.2 | pq <- zip ps qs] /\
             good no_tmp m n k A B beta C (cpar [seq Seq pq.1 pq.2 | pq <- zip ps qs]).
    { apply: (@good_quads no_tmp (fun=> no_tmp) m n k A B beta C _ _ _ _ m./2 n./2 _ _ E);
        try exact: half_le; try by [].
      - apply: (good_seq (A1 := A) (B1 := B) (A2 := opsub ta A 0 k./2) (B2 := opsub tb B k./2 0) (E2 _ _ HA HB)) => //;
          [by apply: IH; exact: E2|by apply: IH; exact: E2|].
        move=> mu i j. rewrite addrC. exact: halves_lo.
      - apply: (good_seq (A1 := opsub ta A 0 k./2) (B1 := opsub tb B k./2 n./2) (A2 := A) (B2 := opsub tb B 0 n./2) (E3 _ _ _ _ HA _)) => //;
          [by apply: IH; exact: E3|by apply: IH; exact: E3|].
        move=> mu i j. rewrite addrC -(opsub_col tb B k./2 n./2). exact: halves_hi.
      - apply: (good_seq (A1 := opsub ta A m./2 k./2) (B1 := opsub tb B k./2 0) (A2 := opsub ta A m./2 0) (B2 := B) (E4 _ _ _ _ _ HB)) => //;
          [by apply: IH; exact: E4|by apply: IH; exact: E4|].
        move=> mu i j. rewrite addrC -(opsub_row ta A m./2 k./2). exact: halves_hi.
      - apply: (good_seq (A1 := opsub ta A m./2 0) (B1 := opsub tb B 0 n./2) (A2 := opsub ta A m./2 k./2) (B2 := opsub tb B k./2 n./2) (E3 _ _ _ _ _ _)) => //;
          [by apply: IH; exact: E3|by apply: IH; exact: E3|].
        move=> mu i j. rewrite addrC -(opsub_row ta A m./2 k./2) -(opsub_col tb B k./2 n./2). exact: halves_lo. }
    case: G => PI G. have Hrf e : List.In e [seq Seq pq.1 pq.2 | pq <- zip ps qs] -> rf e.
    { move: (g_rf G). elim: [seq _ | _ <- _] => [|a l IHl] //= [Ra Rl _] [<-|] //. exact: IHl. }
    have [F1 F2 F3 F4] := @phases_ok V df ps qs erefl PI Hrf. split=> //.
    + move=> x. rewrite F3. exact: (g_w G).
    + move=> x. rewrite F4. exact: (g_r G).
    + move=> mu i j Hi Hj. rewrite F2. exact: (g_v G).
Qed.
End Variants.
