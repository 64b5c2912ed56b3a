From Coq Require Import ZArith.
From mathcomp Require Import all_ssreflect ssralg ssrint zify.
From Verif Require Import Cuts_model Cuts_spec Cuts_proofs Par_model Par_spec Par_proofs Par2_proofs Par3_proofs.
Set Implicit Arguments.
Unset Strict Implicit.
Unset Printing Implicit Defensive.
Import GRing.Theory.

Lemma owned_refl p x : x.1 = p -> owned p x.
Proof. by rewrite /owned => ->; rewrite take_size. Qed.

Section Temps.
Variables (V : ringType) (df : bool) (T : nat) (ta tb : bool) (alpha : V) (RA RB : seq nat).
Local Open Scope ring_scope.
Notation product := (product ta tb).
Notation good := (good ta tb alpha RA RB).
Notation tgood := (tgood ta tb alpha RA RB).
Notation env := (env RA RB).

Lemma env_path pth s n A B C : env (owned pth) n A B C -> env (owned (pth ++ s)) n A B C.
Proof. by move=> [HA HB HC Hn HO]; split=> // x /owned_cat /HO. Qed.
Lemma env_temp pth a b s n n' A B C A' B' : a <> b -> env (owned pth) n A B C -> vreg A' = RA -> vreg B' = RB ->
  env (owned (pth ++ a :: s)) n' A' B' (View (pth ++ [:: b]) 0 n').
Proof.
  move=> Hab [HA HB HC Hn HO] HA' HB'. have [O1 O2 O3] := HO _ (owned_intro pth [:: b] 0). split=> //= x H.
  have [X1 X2 _] := HO _ (owned_cat H). split=> // E. apply: (@owned_dis _ _ _ _ [::] _ Hab H). exact: owned_refl.
Qed.

Lemma good_tmp_owned pth m n k k1 k2 A A1 A2 B B1 B2 beta C P1 P2 :
  env (owned pth) n A B C -> vreg A1 = RA -> vreg B1 = RB -> vreg A2 = RA -> vreg B2 = RB ->
  good (owned (pth ++ [:: 0%N])) m n k1 A1 B1 beta C P1 ->
  good (owned (pth ++ [:: 1%N])) m n k2 A2 B2 0 (View (pth ++ [:: 2%N]) 0 n) P2 ->
  (forall mu i j, product k1 alpha A1 B1 beta C mu i j +
     product k2 alpha A2 B2 0 (View (pth ++ [:: 2%N]) 0 n) mu i j = product k alpha A B beta C mu i j) ->
  good (owned pth) m n k A B beta C (Seq (cpar [:: P1; P2]) (faddin V m n (View (pth ++ [:: 2%N]) 0 n) C)).
Proof.
  move=> E A1r B1r A2r B2r G1 G2 Hv.
  apply: (@good_tmp _ ta tb alpha RA RB (owned pth) _ _ m n k k1 k2 A A1 A2 B B1 B2 beta C _ P1 P2 E A1r B1r A2r B2r _ _ _ _ _ G1 G2 Hv) => //.
  - by move=> x; apply: owned_cat.
  - by move=> x; apply: owned_cat.
  - by move=> x; apply: owned_dis.
  - move=> [u v] /= ->. split; first exact: owned_intro.
    + by move=> H; apply: (@owned_dis pth 0 [::] 2 [::] _ _ H) => //; exact: owned_refl.
    + by move=> H; apply: (@owned_dis pth 1 [::] 2 [::] _ _ H) => //; exact: owned_refl.
Qed.

Lemma path2 (pth : seq nat) q s : pth ++ [:: q; s] = (pth ++ [:: q]) ++ [:: s].
Proof. by rewrite -catA. Qed.

Lemma quad3 pth q m n k k1 k2 A A1 A2 B B1 B2 beta C P1 P2 :
  env (owned pth) n A B C -> vreg A1 = RA -> vreg B1 = RB -> vreg A2 = RA -> vreg B2 = RB ->
  good (owned (pth ++ [:: q; 0%N])) m n k1 A1 B1 beta C P1 ->
  good (owned (pth ++ [:: q; 1%N])) m n k2 A2 B2 0 (View (pth ++ [:: q; 2%N]) 0 n) P2 ->
  (forall mu i j, product k1 alpha A1 B1 beta C mu i j +
     product k2 alpha A2 B2 0 (View (pth ++ [:: q; 2%N]) 0 n) mu i j = product k alpha A B beta C mu i j) ->
  good (owned (pth ++ [:: q])) m n k A B beta C
    (Seq (cpar [:: P1; P2]) (faddin V m n (View (pth ++ [:: q; 2%N]) 0 n) C)).
Proof. rewrite !path2 => E. exact: (good_tmp_owned (env_path _ E)). Qed.

Lemma temp3 pth q n n' A B C A' B' : env (owned pth) n A B C -> vreg A' = RA -> vreg B' = RB ->
  env (owned (pth ++ [:: q; 1%N])) n' A' B' (View (pth ++ [:: q; 2%N]) 0 n').
Proof. rewrite !path2 => E e1 e2. apply: (@env_temp (pth ++ [:: q]) 1 2 [::] n n' A B C) => //. exact: env_path. Qed.

Lemma rf_in (es : seq (cmd V)) e : rf (cpar es) -> List.In e es -> rf e.
Proof. elim: es => [|a l IHl] //= [Ra Rl _] [<-|] //. exact: IHl. Qed.

Lemma good_phases own m n k A B beta C (ps qs : seq (cmd V)) : size ps = size qs ->
  pairwise_indep [seq Seq pq.1 pq.2 | pq <- zip ps qs] /\ good own m n k A B beta C (cpar [seq Seq pq.1 pq.2 | pq <- zip ps qs]) ->
  good own m n k A B beta C (phases df ps qs).
Proof.
  move=> Hs [PI G]. have [F1 F2 F3 F4] := @phases_ok V df ps qs Hs PI (fun e => rf_in (g_rf G)). split=> //.
  - move=> x. rewrite F3. exact: (g_w G).
  - move=> x. rewrite F4. exact: (g_r G).
  - move=> mu i j Hi Hj. rewrite F2. exact: (g_v G).
Qed.

Theorem good_3d fuel pth nt m n k A B beta C : env (owned pth) n A B C ->
  good (owned pth) m n k A B beta C (pf_3d df T ta tb alpha fuel pth nt m n k A B beta C).
Proof.
  elim: fuel pth nt m n k A B beta C => [|f IH] pth nt m n k A B beta C E; have [HA HB [CA CB] Hn HO] := E.
  - apply: good_base => // _ _. case: ifP => _; exact: good_leaf.
  - apply: good_base => // _ _. case: ifP => _; first exact: good_leaf.
    cbv zeta. apply: good_phases => //.
    have EP A' B' C' n' q s : (n' <= n)%N -> vreg A' = RA -> vreg B' = RB -> vreg C' = vreg C -> vld C' = vld C ->
      env (owned (pth ++ [:: q; s])) n' A' B' C'.
    { move=> e0 e1 e2 e3 e4. apply: env_path. by apply: (env_all E). }
    have EQ A' B' C' n' : (n' <= n)%N -> vreg A' = RA -> vreg B' = RB -> vreg C' = vreg C -> vld C' = vld C ->
      env (owned pth) n' A' B' C'.
    { move=> e0 e1 e2 e3 e4. by apply: (env_all E). }
    have L1 : (n./2 <= n)%N by lia. have L2 : (n - n./2 <= n)%N by lia.
    apply: (@good_quads _ ta tb alpha RA RB (owned pth) (fun q => owned (pth ++ [:: q])) m n k A B beta C _ _ _ _ m./2 n./2 _ _ E);
      try exact: half_le.
    + by move=> q x; apply: owned_cat.
    + by move=> q q' x N H H'; apply: (owned_dis N H H').
    + apply: (quad3 (k1 := k./2) (k2 := (k - k./2)%N) (A1 := A) (B1 := B) (A2 := opsub ta A 0 k./2) (B2 := opsub tb B k./2 0) (EQ _ _ _ _ L1 HA HB erefl erefl)) => //.
      * by apply: IH; apply: EP.
      * by apply: IH; apply: (temp3 _ _ E).
      * move=> mu i j. exact: halves_lo.
    + apply: (quad3 (k1 := (k - k./2)%N) (k2 := k./2) (A1 := opsub ta A 0 k./2) (B1 := opsub tb B k./2 n./2) (A2 := A) (B2 := opsub tb B 0 n./2) (EQ A (opsub tb B 0 n./2) (sub C 0 n./2) _ L2 HA HB erefl erefl)) => //.
      * by apply: IH; apply: EP.
      * by apply: IH; apply: (temp3 _ _ E).
      * move=> mu i j. rewrite -(opsub_col tb B k./2 n./2). exact: halves_hi.
    + apply: (quad3 (k1 := (k - k./2)%N) (k2 := k./2) (A1 := opsub ta A m./2 k./2) (B1 := opsub tb B k./2 0) (A2 := opsub ta A m./2 0) (B2 := B) (EQ (opsub ta A m./2 0) B (sub C m./2 0) _ L1 HA HB erefl erefl)) => //.
      * by apply: IH; apply: EP.
      * by apply: IH; apply: (temp3 _ _ E).
      * move=> mu i j. rewrite -(opsub_row ta A m./2 k./2). exact: halves_hi.
    + apply: (quad3 (k1 := k./2) (k2 := (k - k./2)%N) (A1 := opsub ta A m./2 0) (B1 := opsub tb B 0 n./2) (A2 := opsub ta A m./2 k./2) (B2 := opsub tb B k./2 n./2) (EQ (opsub ta A m./2 0) (opsub tb B 0 n./2) (sub C m./2 n./2) _ L2 HA HB erefl erefl)) => //.
      * by apply: IH; apply: EP.
      * by apply: IH; apply: (temp3 _ _ E).
      * move=> mu i j. rewrite -(opsub_row ta A m./2 k./2) -(opsub_col tb B k./2 n./2). exact: halves_lo.
Qed.

(** the adaptive variant, when the calls that split k are square *)
Theorem good_3da fuel pth nt m n k A B beta C : env (owned pth) n A B C -> square_k T fuel nt m n k ->
  good (owned pth) m n k A B beta C (pf_3da T ta tb alpha fuel pth nt m n k A B beta C).
Proof.
  elim: fuel pth nt m n k A B beta C => [|f IH] pth nt m n k A B beta C E; have [HA HB [CA CB] Hn HO] := E; move=> Hsq.
  - apply: good_base => // _ _. case: ifP => _; exact: good_leaf.
  - apply: good_base => // H0 H1. case: ifP => H2; first exact: good_leaf.
    cbv zeta. move: Hsq => /=. rewrite (negbTE H0) (_ : (k == 0)%N = false) ?H2; last by case: (k == 0)%N H1.
    case: ifP => _.
    + move=> /andP [S1 S2].
      apply: (@good_rows _ ta tb alpha RA RB _ (owned (pth ++ [:: 0%N])) (owned (pth ++ [:: 1%N])) m n k A B beta C _ _ m./2) => //; first exact: half_le.
      * by move=> x; apply: owned_cat. * by move=> x; apply: owned_cat. * by move=> x; apply: owned_dis.
      * apply: IH => //. exact: env_path.
      * apply: IH => //. apply: env_path. by apply: (env_all E).
    + case: ifP => _.
      * move=> /andP [S1 S2].
        apply: (@good_cols _ ta tb alpha RA RB _ (owned (pth ++ [:: 0%N])) (owned (pth ++ [:: 1%N])) m n k A B beta C _ _ n./2) => //; first exact: half_le.
        -- by move=> x; apply: owned_cat. -- by move=> x; apply: owned_cat. -- by move=> x; apply: owned_dis.
        -- apply: IH => //. apply: env_path. by apply: (env_all E) => //; lia.
        -- apply: IH => //. apply: env_path. by apply: (env_all E) => //; lia.
      * move=> /and3P [/eqP Emn S1 S2]. subst n.
        apply: (good_tmp_owned (k1 := k./2) (k2 := (k - k./2)%N) (A1 := A) (B1 := B) (A2 := opsub ta A 0 k./2) (B2 := opsub tb B k./2 0) E) => //.
        -- apply: IH => //. exact: env_path.
        -- apply: IH => //. by apply: (@env_temp pth 1 2 [::] m m A B C).
        -- move=> mu i j. exact: halves_lo.
Qed.
End Temps.
