From Coq Require Import Arith.
From mathcomp Require Import all_ssreflect ssralg ssrint zify.
From Verif Require Import Cuts_model Cuts_spec Cuts_proofs Par_model Par_spec Par_proofs Par2_proofs Par3_proofs Par4_proofs.
Set Implicit Arguments.
Unset Strict Implicit.
Unset Printing Implicit Defensive.
Import GRing.Theory.

(** ** Rectangles *)
Lemma visits2_in ib ie jb je i j l : List.In (ib, ie, jb, je) l -> ib <= i < ie -> jb <= j < je -> 0 < visits2 i j l.
Proof.
  elim: l => [|[[[a b] c] d] l IH] //= [[-> -> -> ->]|H] Hi Hj.
  - have -> : ((ib <=? i) && (i <? ie) && ((jb <=? j) && (j <? je)))%nat = true; last by [].
    rewrite !(introT (Nat.leb_spec0 _ _)) ?(introT (Nat.ltb_spec0 _ _)) //; lia.
  - have := IH H Hi Hj. lia.
Qed.
Lemma visits2_ex i j l : 0 < visits2 i j l -> exists ib ie jb je, [/\ List.In (ib, ie, jb, je) l, ib <= i < ie & jb <= j < je].
Proof.
  elim: l => [|[[[a b] c] d] l IH] //=.
  case E : (_ && _); last by move=> /IH [ib [ie [jb [je [H1 H2 H3]]]]]; exists ib, ie, jb, je; split=> //; right.
  move=> _. exists a, b, c, d. split; first by left.
  - move: E. do 4 (case: Nat.leb_spec0 || case: Nat.ltb_spec0 => //); lia.
  - move: E. do 4 (case: Nat.leb_spec0 || case: Nat.ltb_spec0 => //); lia.
Qed.
Lemma inside_lt m n l i j : inside_disjoint2 m n l -> 0 < visits2 i j l -> i < m /\ j < n.
Proof. move=> H; move: (H i j); move: (visits2 i j l) => v. case: Nat.ltb_spec0 => ?; case: Nat.ltb_spec0 => ? /=; lia. Qed.
Lemma covers_inside m n l : covers_once2 m n l -> inside_disjoint2 m n l.
Proof. by move=> H i j; rewrite H. Qed.

Section Rects.
Variables (V : ringType) (ta tb : bool) (alpha : V) (RA RB : seq nat).
Local Open Scope ring_scope.
Notation product := (product ta tb).
Notation good := (good ta tb alpha RA RB).
Notation tgood := (tgood ta tb alpha RA RB).
Notation env := (env RA RB).

Definition rtile k A B beta C (P : nat * nat * nat * nat -> cmd V) (t : nat * nat * nat * nat) : tile V :=
  Tile no_tmp (t.1.1.2 - t.1.1.1) (t.2 - t.1.2) k (opsub ta A t.1.1.1 0) (opsub tb B 0 t.1.2) beta (sub C t.1.1.1 t.1.2) (P t).

Lemma In_map2 (W U : Type) (f : W -> U) s y : List.In y [seq f x | x <- s] -> exists2 x, List.In x s & y = f x.
Proof.
  elim: s => [|a s IH] //= [<-|/IH [x Hx ->]].
  - by exists a => //; left.
  - by exists x => //; right.
Qed.
Lemma map_In (W U : Type) (f : W -> U) s x : List.In x s -> List.In (f x) [seq f x | x <- s].
Proof. elim: s => [|a s IH] //= [<-|/IH H]; [by left|by right]. Qed.

Lemma rects_ok m n k A B beta C P l : env no_tmp n A B C -> inside_disjoint2 m n l ->
  (forall t, List.In t l ->
     good no_tmp (t.1.1.2 - t.1.1.1) (t.2 - t.1.2) k (opsub ta A t.1.1.1 0) (opsub tb B 0 t.1.2) beta (sub C t.1.1.1 t.1.2) (P t)) ->
  (forall t, List.In t [seq rtile k A B beta C P x | x <- l] -> tgood t) /\ pdis [seq rtile k A B beta C P x | x <- l].
Proof.
  move=> [HA HB [CA CB] Hn HO] Hd Hg. split.
  - move=> t Hin. have [[[[ib ie] jb] je] Ht ->] := In_map2 Hin. split=> //=. exact: (Hg _ Ht).
  - elim: l Hd {Hg} => [|[[[ib ie] jb] je] l IH] //= Hd.
    split; last first.
    { apply: IH => i j. move: (Hd i j) => /=. case: (_ && _); case: (_ && _); lia. }
    move=> s Hin. have [[[[ib' ie'] jb'] je'] Hs ->] := In_map2 Hin. split; try by move=> x _ [].
    move=> x [i [j [/= Hi Hj Ex]]] [i' [j' [/= Hi' Hj' Ex']]]. rewrite Ex !cell_sub in Ex'.
    have V1 : (0 < visits2 (ib + i) (jb + j) ((ib, ie, jb, je) :: l))%N by apply: (@visits2_in ib ie jb je); [left|lia|lia].
    have V2 : (0 < visits2 (ib' + i') (jb' + j') ((ib, ie, jb, je) :: l))%N by apply: (@visits2_in ib' ie' jb' je'); [right|lia|lia].
    have B1 := Hd (ib + i)%N (jb + j)%N. have B2 := Hd (ib' + i')%N (jb' + j')%N.
    have [_ J1] := inside_lt Hd V1.
    have [_ J2] := inside_lt Hd V2.
    have [E1 E2] : (ib + i = ib' + i' /\ jb + j = jb' + j')%N by apply: (cell_inj _ _ Ex'); lia.
    have V3 : (0 < visits2 (ib + i) (jb + j) l)%N by apply: (@visits2_in ib' ie' jb' je'); [|lia|lia].
    move: B1 => /=. have -> : ((ib <=? (ib + i)%N) && ((ib + i)%N <? ie) && ((jb <=? (jb + j)%N) && ((jb + j)%N <? je)))%nat = true.
    { rewrite !(introT (Nat.leb_spec0 _ _)) ?(introT (Nat.ltb_spec0 _ _)) //; lia. }
    case: (_ && _); lia.
Qed.

Lemma good_rects m n k A B beta C P l : env no_tmp n A B C -> covers_once2 m n l ->
  (forall t, List.In t l ->
     good no_tmp (t.1.1.2 - t.1.1.1) (t.2 - t.1.2) k (opsub ta A t.1.1.1 0) (opsub tb B 0 t.1.2) beta (sub C t.1.1.1 t.1.2) (P t)) ->
  good no_tmp m n k A B beta C (cpar [seq P t | t <- l]).
Proof.
  move=> E Hc Hg. have Hd : inside_disjoint2 m n l by move=> i j; rewrite Hc.
  have [G1 G2] := rects_ok E Hd Hg.
  have -> : [seq P t | t <- l] = [seq t_P t | t <- [seq rtile k A B beta C P x | x <- l]] by rewrite -map_comp.
  apply: good_tiles => //.
  - move=> t Hin. have [[[[ib ie] jb] je] Ht ->] := In_map2 Hin. split=> //= x [i [j [/= Hi Hj ->]]].
    exists (ib + i)%N, (jb + j)%N. rewrite cell_sub.
    have V1 : (0 < visits2 (ib + i) (jb + j) l)%N by apply: (@visits2_in ib ie jb je); [|lia|lia].
    by have [? ?] := inside_lt Hd V1.
  - move=> i j Hi Hj. have : (0 < visits2 i j l)%N.
    { rewrite Hc !(introT (Nat.ltb_spec0 _ _)) //; lia. }
    move=> /visits2_ex [ib [ie [jb [je [Ht H1 H2]]]]].
    exists (rtile k A B beta C P (ib, ie, jb, je)), (i - ib)%N, (j - jb)%N. split=> /=.
    + exact: map_In.
    + lia. + lia.
    + rewrite cell_sub. congr cell; lia.
    + move=> mu. rewrite product_sub. by congr (product _ _ _ _ _ _ _); lia.
Qed.

Theorem good_block T nt m n k A B beta C : nt <> 0%N -> env no_tmp n A B C ->
  exists2 P, pf_block T nt ta tb m n k alpha A B beta C = Some P & good no_tmp m n k A B beta C P.
Proof.
  move=> Ht E. have [HA HB [CA CB] Hn HO] := E. rewrite /pf_block.
  have [|l [-> Hl]] := @for2d_threads_ok CBlock m n (minn nt (maxn 1 (m * n %/ (T * T)))) (m * n) _ (le_n _); first lia.
  eexists; first reflexivity. apply: (good_rects E Hl) => -[[[ib ie] jb] je] /= Hin.
  case: (posnP (ie - ib)) => [->|Hp]; first by apply: good_done.
  apply: good_leaf => //=.
  case: (posnP (je - jb)) => [->|Hq] //.
  have V1 : (0 < visits2 ib je.-1 l)%N by apply: (@visits2_in ib ie jb je); [|lia|lia].
  have [_ ?] := inside_lt (covers_inside Hl) V1. lia.
Qed.

Lemma good_schedule own pth m n k A B beta C P mu : env own n A B C -> (forall x, own x -> owned pth x) ->
  good own m n k A B beta C P -> every_schedule P mu (is_product ta tb m n k alpha A B beta C pth mu).
Proof.
  move=> [HA HB [CA CB] Hn HO] Ho G. apply: schedule_ok; first exact: (g_rf G). move=> mu' E. split.
  - move=> i j Hi Hj. rewrite E. exact: (g_v G).
  - move=> x Hx Hp. rewrite E run_frame //. apply/negP => /(g_w G) [//|/Ho]. by rewrite (negbTE Hp).
Qed.
End Rects.

(** ** Matrix-vector products *)
Section Gemv.
Variables (V : ringType) (ta : bool) (alpha : V) (RA RB : seq nat).
Local Open Scope ring_scope.
Notation good := (good ta false alpha RA RB).
Notation env := (env RA RB).

Lemma good_gemv own m n A X beta Y : vreg A = RA -> vreg X = RB -> vreg Y <> RA -> vreg Y <> RB -> (1 <= vld Y)%N ->
  good own (if ta then n else m) 1 (if ta then m else n) A X beta Y (fgemv_seq ta m n alpha A X beta Y).
Proof.
  move=> HA HX YA YB Hn.
  have G := @good_leaf V ta false alpha RA RB own (if ta then n else m) 1 (if ta then m else n) A X beta Y HA HX YA YB Hn.
  set p := fgemm_seq _ _ _ _ _ _ _ _ _ _ in G.
  have R mu : run (fgemv_seq ta m n alpha A X beta Y) mu = run p mu.
  { rewrite /fgemv_seq /p /fgemm_seq /loop2. elim: (iota 0 (if ta then n else m)) mu => //= i s IH mu. }
  have W x : writes (fgemv_seq ta m n alpha A X beta Y) x = writes p x.
  { rewrite /fgemv_seq /p /fgemm_seq /loop2 !writes_cseq !has_map. apply: eq_has => i /=. by rewrite orbF. }
  have D x : reads (fgemv_seq ta m n alpha A X beta Y) x = reads p x.
  { rewrite /fgemv_seq /p /fgemm_seq /loop2 !reads_cseq !has_map. apply: eq_has => i /=. by rewrite orbF. }
  split.
  - apply: rf_cseq => q Hq. by have [i _ ->] := In_map Hq.
  - by move=> x; rewrite W; apply: (g_w G).
  - by move=> x; rewrite D; apply: (g_r G).
  - by move=> mu i j Hi Hj; rewrite R; apply: (g_v G).
Qed.

Lemma covers_1_2 N l : covers_once1 N l -> covers_once2 N 1 [seq (t.1, t.2, 0%N, 1%N) | t <- l].
Proof.
  move=> H i j. have -> : visits2 i j [seq (t.1, t.2, 0%N, 1%N) | t <- l] = if (j == 0)%N then visits1 i l else 0%N.
  { elim: l {H} => [|[b e] l IH] /=; first by case: eqP. rewrite IH. case: j {IH} => [|j] //=. by rewrite !andbT. by rewrite !andbF. }
  rewrite H. case: j => [|j] /=; first by rewrite andbT. by rewrite andbF.
Qed.

Theorem good_pgemv_row pa nt m n A X beta Y : (pa = PGrain -> nt <> 0%N) -> env no_tmp 1 A X Y ->
  exists2 P, pgemv_row pa nt ta m n alpha A X beta Y = Some P &
    good no_tmp (if ta then n else m) 1 (if ta then m else n) A X beta Y P.
Proof.
  move=> Ht E. have [HA HB [CA CB] Hn HO] := E. rewrite /pgemv_row.
  have [l [-> Hl]] := @for1d_ok pa (if ta then n else m) nt (if ta then n else m) Ht (le_n _).
  eexists; first reflexivity.
  pose P (t : nat * nat * nat * nat) := let '(b, e, _, _) := t in
    if ta then fgemv_seq ta (if ta then m else n) (e - b) alpha (opsub ta A b 0) X beta (sub Y b 0)
    else fgemv_seq ta (e - b) (if ta then m else n) alpha (opsub ta A b 0) X beta (sub Y b 0).
  have -> : [seq (let '(b, e) := t in
        if ta then fgemv_seq ta (if ta then m else n) (e - b) alpha (opsub ta A b 0) X beta (sub Y b 0)
        else fgemv_seq ta (e - b) (if ta then m else n) alpha (opsub ta A b 0) X beta (sub Y b 0)) | t <- l]
     = [seq P t | t <- [seq (t.1, t.2, 0%N, 1%N) | t <- l]].
  { rewrite -map_comp. by apply: eq_map => -[b e]. }
  apply: (good_rects E (covers_1_2 Hl)) => t Hint. have [[b e] Hin -> /=] := In_map2 Hint. rewrite (opsub00 false X).
  have G1 := @good_gemv no_tmp (if ta then m else e - b)%N (if ta then (e - b)%N else n) (opsub ta A b 0) X beta (sub Y b 0) HA HB CA CB Hn.
  by case: (ta) G1 {Hl P}.
Qed.

End Gemv.

Theorem good_pgemv_rec (V : ringType) (alpha : V) RA RB fuel nt m n A X beta Y : nt <> 0 -> nt <= fuel -> env RA RB no_tmp 1 A X Y ->
  exists2 P, pgemv_rec fuel nt false m n alpha A X beta Y = Some P & good false false alpha RA RB no_tmp m 1 n A X beta Y P.
Proof.
  elim: fuel nt m A Y => [|f IH] nt m A Y Ht Hf E; have [HA HB [CA CB] Hn HO] := E; first lia.
  move=> /=. case: ifP => [_|H].
  { eexists; first reflexivity. exact: (@good_gemv V false alpha RA RB no_tmp m n A X beta Y HA HB CA CB Hn). }
  have [P1 -> G1] := IH nt./2 m./2 A Y ltac:(lia) ltac:(lia) E.
  have E2 : env RA RB no_tmp 1 (opsub false A m./2 0) X (sub Y m./2 0) by apply: (env_all E).
  have [P2 H2 G2] := IH (nt - nt./2)%N (m - m./2)%N (opsub false A m./2 0) (sub Y m./2 0) ltac:(lia) ltac:(lia) E2.
  have -> : View (vreg A) (vbase A + m./2 * vld A) (vld A) = opsub false A m./2 0 by rewrite /opsub mul0n addn0.
  rewrite H2. eexists; first reflexivity.
  apply: (@good_rows _ _ _ _ _ _ _ no_tmp no_tmp _ _ _ _ _ _ _ _ _ m./2) => //. exact: half_le.
Qed.
