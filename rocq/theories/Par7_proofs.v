From Coq Require Import Arith.
From mathcomp Require Import all_ssreflect ssralg ssrint zify.
From Verif Require Import Cuts_model Cuts_spec Cuts_proofs Par_model Par_spec Par_proofs Par2_proofs Par3_proofs Par4_proofs Par5_proofs Par6_proofs.
Set Implicit Arguments.
Unset Strict Implicit.
Unset Printing Implicit Defensive.
Import GRing.Theory.

(** ** Independent commands in sequence *)
Section Seqs.
Variable V : Type.
Lemma run_indep (p q : cmd V) mu x : indep q p -> writes p x -> run p (run q mu) x = run p mu x.
Proof.
  move=> I W. have [J1 J2] := indep_sym I. case: I => I1 I2. apply: run_local.
  - move=> y Ry. apply: run_frame. apply/negP => /I1. by rewrite Ry andbF.
  - apply: run_frame. by case/andP: (J1 _ W).
Qed.
Lemma frame_all (ps : seq (cmd V)) mu x : (forall p, List.In p ps -> ~~ writes p x) -> run (cseq ps) mu x = mu x.
Proof.
  elim: ps mu => [|p ps IH] mu H //=. rewrite IH; last by move=> q Hq; apply: H; right.
  apply: run_frame. apply: H. by left.
Qed.
Lemma run_cseq_indep (ps : seq (cmd V)) p mu x : pairwise_indep ps -> List.In p ps -> writes p x ->
  run (cseq ps) mu x = run p mu x.
Proof.
  elim: ps mu => [|q ps IH] mu //= [Hq Hps] [E|Hin] W.
  - subst q. apply: frame_all => r Hr. by case/andP: ((Hq _ Hr).1 _ W).
  - rewrite IH //. exact: run_indep (Hq _ Hin) W.
Qed.
Lemma pairwise_map (f : nat -> cmd V) s : uniq s ->
  (forall i j, i \in s -> j \in s -> i <> j -> indep (f i) (f j)) -> pairwise_indep [seq f i | i <- s].
Proof.
  elim: s => [|a s IH] //= /andP [Ha Hu] H. split.
  - move=> q Hq. have [i Hi ->] := In_map Hq. apply: H; rewrite ?inE ?eqxx ?Hi ?orbT //. by move=> E; rewrite E Hi in Ha.
  - apply: IH => // i j Hi Hj. by apply: H; rewrite inE ?Hi ?Hj orbT.
Qed.
Lemma In_mem_iota s n j : reflect (List.In j (iota s n)) (s <= j < s + n).
Proof.
  apply: (iffP idP).
  - elim: n s => [|n IH] s H /=; first lia. have [->|N] := eqVneq s j; [by left|right]. apply: IH. lia.
  - elim: n s => [|n IH] s //= [->|/IH]; lia.
Qed.
Lemma run_cat (ps qs : seq (cmd V)) mu : run (cseq (ps ++ qs)) mu = run (cseq qs) (run (cseq ps) mu).
Proof. by elim: ps mu => //= p ps IH mu. Qed.

(** ** Blocks of independent columns *)
Lemma visits1_in b e i l : List.In (b, e) l -> b <= i < e -> 0 < visits1 i l.
Proof.
  elim: l => [|[a d] l IH] //= [[-> ->]|H] Hi.
  - by rewrite (introT (Nat.leb_spec0 _ _)) ?(introT (Nat.ltb_spec0 _ _)) //; lia.
  - have := IH H Hi. lia.
Qed.
Lemma visits1_ex i l : 0 < visits1 i l -> exists b e, List.In (b, e) l /\ b <= i < e.
Proof.
  elim: l => [|[a d] l IH] //=.
  case E : (_ && _); last by move=> /IH [b [e [H1 H2]]]; exists b, e; split=> //; right.
  move=> _. exists a, d. split; first by left. move: E. case: Nat.leb_spec0 => //; case: Nat.ltb_spec0 => //; lia.
Qed.
Lemma covers1_lt n l i : covers_once1 n l -> 0 < visits1 i l -> i < n.
Proof. move=> H. rewrite H. case: Nat.ltb_spec0 => //. lia. Qed.

Lemma writes_solve (col : nat -> cmd V) c w x : writes (solve col c w) x -> exists2 j, c <= j < c + w & writes (col j) x.
Proof. by rewrite writes_cseq has_map => /hasP [j]; rewrite mem_iota => Hj Hw; exists j. Qed.
Lemma reads_solve (col : nat -> cmd V) c w x : reads (solve col c w) x -> exists2 j, c <= j < c + w & reads (col j) x.
Proof. by rewrite reads_cseq has_map => /hasP [j]; rewrite mem_iota => Hj Hw; exists j. Qed.

Theorem ptrsm_iter_ok pa nt N (col : nat -> cmd V) mu (Q : mem V -> Prop) : (pa = PGrain -> nt <> 0) ->
  (forall j, j < N -> rf (col j)) ->
  (forall i j, i < N -> j < N -> i <> j -> indep (col i) (col j)) ->
  (forall mu', mu' =1 run (solve col 0 N) mu -> Q mu') ->
  exists2 P, ptrsm_iter pa nt N col = Some P & every_schedule P mu Q.
Proof.
  move=> Ht Hrf Hin HQ. rewrite /ptrsm_iter.
  have [l [-> Hl]] := @for1d_ok pa N nt N Ht (le_n _). eexists; first reflexivity.
  have Hlt b e j : List.In (b, e) l -> b <= j < b + (e - b) -> j < N.
  { move=> Hb Hj. apply: (covers1_lt Hl). apply: visits1_in Hb _. lia. }
  have Hind c w c' w' : (forall j, c <= j < c + w -> j < N) -> (forall j, c' <= j < c' + w' -> j < N) ->
     (forall j, c <= j < c + w -> c' <= j < c' + w' -> False) -> indep (solve col c w) (solve col c' w').
  { move=> H1 H2 H3. split=> x /writes_solve [i Hi Wi].
    - have I j : c' <= j < c' + w' -> indep (col i) (col j).
      { move=> Hj. apply: Hin; [exact: H1|exact: H2|]. move=> E. apply: (H3 i) => //. by rewrite E. }
      rewrite writes_cseq reads_cseq !has_map -!all_predC.
      apply/andP; split; apply/allP => j; rewrite mem_iota => Hj /=; by case/andP: ((I j Hj).1 _ Wi).
    - rewrite reads_cseq has_map -all_predC. apply/allP => j; rewrite mem_iota => Hj /=.
      apply: ((Hin j i _ _ _).2 _ Wi); [exact: H1|exact: H2|]. move=> E. apply: (H3 j) => //. by rewrite E. }
  have Pw : pairwise_indep [seq solve col t.1 (t.2 - t.1) | t <- l].
  { have Hv i : visits1 i l <= 1 by rewrite Hl; case: (_ <? _).
    elim: l {Hl HQ} Hlt Hv => [|[b e] l IH] //= Hlt Hv. split; last first.
    { apply: IH => [b' e' j Hb|i]; first by apply: Hlt; right.
      have := Hv i. case: (_ && _); lia. }
    move=> q Hq. have [[b' e'] Hb -> /=] := In_map2 Hq. apply: Hind.
    - move=> j. apply: (Hlt b e j). by left.
    - move=> j. apply: (Hlt b' e' j). by right.
    - move=> j H1 H2. have V1 := @visits1_in b' e' j l Hb ltac:(lia). move: (Hv j).
      rewrite (introT (Nat.leb_spec0 _ _)) ?(introT (Nat.ltb_spec0 _ _)) /=; lia. }
  have Rs c w : (forall j, c <= j < c + w -> j < N) -> rf (solve col c w).
  { move=> H. apply: rf_cseq => p Hp. have [j Hj ->] := In_map Hp. apply: Hrf. apply: H. by rewrite mem_iota in Hj. }
  have PwN : pairwise_indep [seq col j | j <- iota 0 N].
  { apply: pairwise_map; first exact: iota_uniq. move=> i j; rewrite !mem_iota => Hi Hj. by apply: Hin. }
  apply: schedule_ok.
  - apply: rf_cpar => // p Hp. have [[b e] Hb -> /=] := In_map2 Hp. apply: Rs => j. exact: Hlt.
  - move=> mu' E. apply: HQ => x. rewrite E run_cpar. clear mu' E.
    case HW : (has (fun j => writes (col j) x) (iota 0 N)).
    + move/hasP: HW => [j]. rewrite mem_iota => Hj W.
      rewrite [RHS](run_cseq_indep (p := col j)) //; last by apply: map_In; apply/In_mem_iota; lia.
      have /visits1_ex [b [e [Hb He]]] : 0 < visits1 j l by rewrite Hl; case: Nat.ltb_spec0 => //; lia.
      rewrite (run_cseq_indep (p := solve col b (e - b))) //.
      * rewrite (run_cseq_indep (p := col j)) //.
        -- apply: pairwise_map; first exact: iota_uniq.
           move=> i1 i2; rewrite !mem_iota => H1 H2. apply: Hin; apply: Hlt; eauto; lia.
        -- apply: map_In. apply/In_mem_iota. lia.
      * exact: (@map_In _ _ (fun t => solve col t.1 (t.2 - t.1)) l (b, e)).
      * rewrite writes_cseq has_map. apply/hasP. exists j => //. rewrite mem_iota. lia.
    + rewrite !frame_all //.
      * move=> p Hp. have [j Hj ->] := In_map Hp. by move/hasPn: HW => /(_ j Hj).
      * move=> p Hp. have [[b e] Hb -> /=] := In_map2 Hp. apply/negP => /writes_solve [j Hj W].
        move/hasPn: HW => /(_ j). rewrite mem_iota W. have := Hlt b e j Hb Hj. lia.
Qed.
End Seqs.

(** ** Forward substitution on a column *)
Section Col.
Variable V : ringType.
Local Open Scope ring_scope.
Variables (A B : view).
Hypothesis HAB : vreg A <> vreg B.

Lemma rf_trsm_col M j : rf (@trsm_col V M A B j).
Proof. apply: rf_cseq => p Hp. by have [i _ ->] := In_map Hp. Qed.
Lemma writes_col M j x : writes (@trsm_col V M A B j) x -> exists2 i, (i < M)%N & x = cell B i j.
Proof. by rewrite writes_cseq has_map => /hasP [i]; rewrite mem_iota => Hi /= /eqP ->; exists i. Qed.
Lemma col_writes M i j : (i < M)%N -> writes (@trsm_col V M A B j) (cell B i j).
Proof. move=> Hi. rewrite writes_cseq has_map. apply/hasP. exists i; [by rewrite mem_iota|by rewrite /= eqxx]. Qed.
Lemma reads_col M j x : reads (@trsm_col V M A B j) x -> x.1 = vreg A \/ exists2 i, (i < M)%N & x = cell B i j.
Proof.
  rewrite reads_cseq has_map => /hasP [i]; rewrite mem_iota => Hi /=. rewrite inE mem_cat => /orP [/eqP ->|/orP [|]].
  - right. by exists i.
  - by move=> /mapP [l _ ->]; left.
  - move=> /mapP [l]; rewrite mem_iota => Hl ->. right. exists l => //. lia.
Qed.
Lemma indep_cols M N i j : (N <= vld B)%N -> (i < N)%N -> (j < N)%N -> i <> j ->
  indep (@trsm_col V M A B i) (@trsm_col V M A B j).
Proof.
  move=> HN Hi Hj Hij.
  have D k k' : cell B k i <> cell B k' j by move=> /cell_inj [||_ ?] //; lia.
  have D' k k' : cell B k' j <> cell B k i by move=> E; apply: (D k k'); rewrite E.
  split=> x /writes_col [k Hk ->].
  - apply/andP; split; apply/negP; first by move=> /writes_col [k' _ /D].
    by move=> /reads_col [/= E|[k' _ /D] //]; apply: HAB.
  - by apply/negP => /reads_col [/= E|[k' _ /D'] //]; apply: HAB.
Qed.

Lemma col_val M j mu i : (j < vld B)%N -> (i < M)%N ->
  run (@trsm_col V M A B j) mu (cell B i j) +
  (\sum_(l < i) mu (cell A i l) * run (@trsm_col V M A B j) mu (cell B l j)) = mu (cell B i j).
Proof.
  move=> Hj. elim: M i => [|M IH] i // Hi.
  have E x : run (@trsm_col V M.+1 A B j) mu x =
    if x == cell B M j then mu (cell B M j) - (\sum_(l < M) mu (cell A M l) * run (@trsm_col V M A B j) mu (cell B l j))
    else run (@trsm_col V M A B j) mu x.
  { rewrite /trsm_col -{1}[M.+1]addn1 iotaD map_cat run_cat add0n -/(trsm_col V M A B j) /= /upd.
    case: eqP => // _. rewrite (@run_frame _ _ _ (cell B M j)); last first.
    { apply/negP => /writes_col [k Hk /cell_inj [||? _]] //; lia. }
    congr (_ - _). rewrite -(foldr_sum (fun l => mu (cell A M l) * run (trsm_col V M A B j) mu (cell B l j))).
    have S1 : size [seq run (trsm_col V M A B j) mu x0 | x0 <- [seq cell A M l | l <- iota 0 M]] = M by rewrite !size_map size_iota.
    have F l : l \in iota 0 M ->
      nth 0 [seq run (trsm_col V M A B j) mu x0 | x0 <- [seq cell A M l0 | l0 <- iota 0 M] ++ [seq cell B l0 j | l0 <- iota 0 M]] l
      = mu (cell A M l) /\
      nth 0 [seq run (trsm_col V M A B j) mu x0 | x0 <- [seq cell A M l0 | l0 <- iota 0 M] ++ [seq cell B l0 j | l0 <- iota 0 M]] (M + l)
      = run (trsm_col V M A B j) mu (cell B l j).
    { rewrite mem_iota => Hl. rewrite map_cat !nth_cat S1. have -> : (l < M)%N by lia. have -> : (M + l < M)%N = false by lia.
      rewrite addKn -!map_comp !(nth_map 0%N) ?size_iota ?nth_iota ?add0n /=; try lia. split=> //.
      apply: run_frame. apply/negP => /writes_col [k _ []] /HAB. by []. }
    move: (map (run _ mu) _) F => L F. elim: (iota 0 M) F => [|l s IHs] //= F. have [-> ->] := F l (mem_head _ _). congr (_ + _). apply: IHs => l' Hl'.
    apply: F. by rewrite inE Hl' orbT. }
  have G l : (l < M)%N -> run (@trsm_col V M.+1 A B j) mu (cell B l j) = run (@trsm_col V M A B j) mu (cell B l j).
  { move=> Hl. rewrite E. case: eqP => // /cell_inj [||? _]; lia. }
  have [Ei|Ni] := eqVneq i M.
  - subst i. rewrite [X in X + _]E eqxx [X in _ + X](eq_bigr (fun l : 'I_M => mu (cell A M l) * run (@trsm_col V M A B j) mu (cell B l j))); last first.
    { move=> l _. by rewrite G. }
    by rewrite subrK.
  - rewrite G; last lia. rewrite -[RHS](IH i); last lia. congr (_ + _). apply: eq_bigr => l _. rewrite G //.
    by have := ltn_ord l; lia.
Qed.

Lemma solve_solved M N mu mu' : (N <= vld B)%N -> mu' =1 run (solve (@trsm_col V M A B) 0 N) mu -> solved M N A B mu mu'.
Proof.
  move=> HN E.
  have Pw : pairwise_indep [seq @trsm_col V M A B j | j <- iota 0 N].
  { apply: pairwise_map; first exact: iota_uniq. move=> i j; rewrite !mem_iota => Hi Hj N'. by apply: (@indep_cols M N). }
  have Ec i j : (i < M)%N -> (j < N)%N -> mu' (cell B i j) = run (@trsm_col V M A B j) mu (cell B i j).
  { move=> Hi Hj. rewrite E (run_cseq_indep (p := trsm_col V M A B j)) //.
    - apply: (@map_In _ _ (trsm_col V M A B)). apply/In_mem_iota. lia.
    - exact: col_writes. }
  split.
  - move=> i j Hi Hj. rewrite Ec // -[RHS](@col_val M j mu i) //; last lia. congr (_ + _). apply: eq_bigr => l _.
    rewrite Ec //. by have := ltn_ord l; lia.
  - move=> x Hx. rewrite E. apply: run_frame. apply/negP => /writes_solve [j Hj /writes_col [i Hi Ex]].
    apply: Hx. by exists i, j.
Qed.
End Col.

Theorem ptrsm_iter_solved (V : ringType) pa nt M N A B (mu : mem V) : (pa = PGrain -> nt <> 0) ->
  vreg A <> vreg B -> N <= vld B ->
  exists2 P, ptrsm_iter pa nt N (trsm_col V M A B) = Some P & every_schedule P mu (solved M N A B mu).
Proof.
  move=> Ht HAB HN. apply: ptrsm_iter_ok => //.
  - move=> j _. exact: rf_trsm_col.
  - move=> i j Hi Hj Hij. exact: (@indep_cols V A B HAB M N).
  - move=> mu' E. exact: solve_solved E.
Qed.

(** ** The hybrid loop *)
Lemma hyb_loop_some f H n it : 0 < n -> it <= f -> exists r, hyb_loop f H n it = Some r.
Proof.
  move=> Hn. elim: f it => [|f IH] it Hit /=.
  - case: ifP; first by eexists. have -> : it = 0 by lia. rewrite mul0n Hn. by [].
  - case: ifP => E; first by eexists. apply: IH. have : it <> 0 by move=> Z; rewrite Z mul0n Hn in E. lia.
Qed.
Theorem ptrsm_hyb_ok (V : ringType) pa H nt M N A B (mu : mem V) : pa <> PGrain -> 0 < N ->
  vreg A <> vreg B -> N <= vld B ->
  exists2 P, ptrsm_hyb_left pa H nt N (trsm_col V M A B) = Some P & every_schedule P mu (solved M N A B mu).
Proof.
  move=> Hpa HN HAB HB. rewrite /ptrsm_hyb_left /hyb_it.
  case: ifP => _; first by apply: ptrsm_iter_solved.
  have [r ->] := @hyb_loop_some nt H N nt./2 HN ltac:(lia). by apply: ptrsm_iter_solved.
Qed.
Theorem hyb_loop_zero fuel H it : hyb_loop fuel H 0 it = None.
Proof. by elim: fuel it => [|f IH] it //=. Qed.

(** ** Dot product *)
Lemma fs1_loop_size f s x l : fs1_loop f s x = Some l -> x.2 <= f1_num s -> x.2 + size l = f1_num s.
Proof.
  elim: f x l => [|f IH] [[b e] c] l /=; case: (Nat.eqb_spec c (f1_num s)) => [->|Nc] //.
  - by move=> [<-] _; rewrite addn0.
  - by move=> [<-] _; rewrite addn0.
  - case E : (fs1_loop _ _ _) => [l'|] // [<-] H. have := IH _ _ E. rewrite /=. lia.
Qed.
Lemma for1d_threads_size n t f l : for1d PThreads n t f = Some l -> size l <= maxn t 1.
Proof.
  rewrite /for1d /fs1_build. set num := Nat.max t 1.
  have -> : div_ub n num = Some (Nat.div n num) by rewrite /num; case: t {num} => [|t].
  case: Nat.ltb_spec0 => Hd E.
  - have := fs1_loop_size E. rewrite /=. have : n < num; last by rewrite /num; lia.
    have D := Nat.div_mod n num ltac:(lia). have M := Nat.mod_upper_bound n num ltac:(lia).
    have Z : Nat.div n num = 0 by lia. rewrite Z in D. lia.
  - have := fs1_loop_size E. rewrite /= /num. lia.
Qed.

Section Dot.
Variable V : ringType.
Local Open Scope ring_scope.
Implicit Types (x y z : view) (d : addr) (mu : mem V).

Definition bdot x y mu (t : nat * nat) : V := \sum_(i < t.2 - t.1) mu (cell x (t.1 + i) 0) * mu (cell y (t.1 + i) 0).

Lemma fdot_run N x y dst mu : run (fdot_seq V N x y dst) mu dst = \sum_(i < N) mu (cell x i 0) * mu (cell y i 0).
Proof.
  rewrite /= /upd eqxx -(foldr_sum (fun i => mu (cell x i 0) * mu (cell y i 0))).
  have F l : l \in iota 0 N ->
      nth 0 [seq mu x0 | x0 <- [seq cell x l0 0 | l0 <- iota 0 N] ++ [seq cell y l0 0 | l0 <- iota 0 N]] l = mu (cell x l 0) /\
      nth 0 [seq mu x0 | x0 <- [seq cell x l0 0 | l0 <- iota 0 N] ++ [seq cell y l0 0 | l0 <- iota 0 N]] (N + l) = mu (cell y l 0).
  { rewrite mem_iota => Hl. rewrite map_cat !nth_cat !size_map size_iota. have -> : (l < N)%N by lia.
    have -> : (N + l < N)%N = false by lia.
    by rewrite addKn -!map_comp !(nth_map 0%N) ?size_iota ?nth_iota ?add0n /=; try lia. }
  move: (map mu _) F => L F. elim: (iota 0 N) F => [|l s IHs] //= F.
  have [-> ->] := F l (mem_head _ _). congr (_ + _). apply: IHs => l' Hl'. apply: F. by rewrite inE Hl' orbT.
Qed.

Lemma pfdot_run rs x y z d mu (l : seq (nat * nat)) :
  vreg z <> vreg x -> vreg z <> vreg y -> d.1 <> vreg z -> d.1 <> vreg x -> d.1 <> vreg y ->
  let P := Seq (cseq [seq Upd (cell z 0 i) (fun=> 0) [::] [::] | i <- iota 0 rs])
           (Seq (cpar [seq fdot_seq V ((nth (0, 0)%N l i).2 - (nth (0, 0)%N l i).1)
                             (sub x (nth (0, 0)%N l i).1 0) (sub y (nth (0, 0)%N l i).1 0) (cell z 0 i)
                       | i <- iota 0 (size l)])
                (cseq [seq Upd d (fun s => nth 0 s 0 + nth 0 s 1) [::] [:: d; cell z 0 i] | i <- iota 0 rs])) in
  [/\ rf P,
      run P mu d = mu d + (\sum_(i < rs) (if (i < size l)%N then bdot x y mu (nth (0, 0)%N l i) else 0)),
      forall i, (i < size l)%N -> run P mu (cell z 0 i) = bdot x y mu (nth (0, 0)%N l i) &
      forall a, a <> d -> (forall i, (i < maxn rs (size l))%N -> a <> cell z 0 i) -> run P mu a = mu a].
Proof.
  move=> Zx Zy Dz Dx Dy P.
  pose p1 := cseq [seq Upd (cell z 0 i) (fun=> 0 : V) [::] [::] | i <- iota 0 rs].
  pose body i := fdot_seq V ((nth (0, 0)%N l i).2 - (nth (0, 0)%N l i).1)
                             (sub x (nth (0, 0)%N l i).1 0) (sub y (nth (0, 0)%N l i).1 0) (cell z 0 i).
  pose p2 := cpar [seq body i | i <- iota 0 (size l)].
  pose p3 := cseq [seq Upd d (fun s => nth 0 s 0 + nth 0 s 1 : V) [::] [:: d; cell z 0 i] | i <- iota 0 rs].
  have EP : P = Seq p1 (Seq p2 p3) by []. rewrite EP. clear P EP.
  have zinj i j : cell z 0 i = cell z 0 j -> i = j by move=> []; lia.
  have W1 a : writes p1 a -> exists2 i, (i < rs)%N & a = cell z 0 i.
  { by rewrite writes_cseq has_map => /hasP [i]; rewrite mem_iota => Hi /= /eqP ->; exists i. }
  have W2 a : writes p2 a -> exists2 i, (i < size l)%N & a = cell z 0 i.
  { by rewrite writes_cpar has_map => /hasP [i]; rewrite mem_iota => Hi /= /eqP ->; exists i. }
  have W3 a : writes p3 a -> a = d.
  { by rewrite writes_cseq has_map => /hasP [i]; rewrite mem_iota => Hi /= /eqP ->. }
  have Ri i a : reads (body i) a -> a.1 = vreg x \/ a.1 = vreg y.
  { by rewrite /= mem_cat => /orP [|] /mapP [k _ ->]; [left|right]. }
  have Pw : pairwise_indep [seq body i | i <- iota 0 (size l)].
  { apply: pairwise_map; first exact: iota_uniq. move=> i j _ _ Nij. split=> a /= /eqP ->.
    - apply/andP; split; first by apply/negP => /eqP /zinj.
      by apply/negP => /(Ri j) /= [].
    - by apply/negP => /(Ri i) /= []. }
  have D1 mu0 : run p1 mu0 d = mu0 d /\ run p2 mu0 d = mu0 d.
  { split; apply: run_frame; apply/negP; [move=> /W1 [? _ E]|move=> /W2 [? _ E]]; by apply: Dz; rewrite E. }
  have B0 i mu0 : run (body i) mu0 (cell z 0 i) = bdot x y mu0 (nth (0, 0)%N l i).
  { rewrite fdot_run. apply: eq_bigr => k _. by rewrite !cell_sub. }
  have B1 i : (i < size l)%N -> run p2 (run p1 mu) (cell z 0 i) = bdot x y mu (nth (0, 0)%N l i).
  { move=> Hi. rewrite /p2 run_cpar (run_cseq_indep (p := body i)) //.
    - rewrite B0 /bdot. apply: eq_bigr => k _.
      by congr (_ * _); apply: run_frame; apply/negP => /W1 [? _ [E _]]; [apply: Zx|apply: Zy].
    - apply: (@map_In _ _ body). apply/In_mem_iota. lia.
    - by rewrite /= eqxx. }
  have B2 i : (i < rs)%N -> (size l <= i)%N -> run p2 (run p1 mu) (cell z 0 i) = 0.
  { move=> Hi Hs. rewrite run_frame; last first.
    { by apply/negP => /W2 [k Hk /zinj E]; rewrite -E ltnNge Hs in Hk. }
    rewrite (@run_cseq_at _ (fun i => Upd (cell z 0 i) (fun=> 0) [::] [::]) 0 rs i) //=; first by rewrite /upd eqxx.
    move=> i' _ N. by apply: contra N => /eqP /zinj ->. }
  have S3 s mu0 : run (cseq [seq Upd d (fun s => nth 0 s 0 + nth 0 s 1) [::] [:: d; cell z 0 i] | i <- s]) mu0 d
      = mu0 d + (\sum_(i <- s) mu0 (cell z 0 i)).
  { elim: s mu0 => [|i s IH] mu0; first by rewrite big_nil addr0. rewrite /= IH big_cons addrA /upd eqxx /=. congr (_ + _).
    apply: eq_bigr => k _. case: eqP => // E. by case: Dz; rewrite -E. }
  split.
  - split; [|split].
    + apply: rf_cseq => p Hp. by have [i _ ->] := In_map Hp.
    + apply: rf_cpar => // p Hp. by have [i _ ->] := In_map Hp.
    + apply: rf_cseq => p Hp. by have [i _ ->] := In_map Hp.
  - rewrite [LHS](_ : _ = run p3 (run p2 (run p1 mu)) d) // S3.
    have [_ ->] := D1 (run p1 mu). have [-> _] := D1 mu. congr (_ + _).
    rewrite -(big_mkord xpredT (fun i => if (i < size l)%N then bdot x y mu (nth (0, 0)%N l i) else 0)) /index_iota subn0.
    rewrite [LHS]big_seq [RHS]big_seq. apply: eq_bigr => i. rewrite mem_iota => Hi.
    case: ifP => H; first exact: B1. apply: B2; lia.
  - move=> i Hi. rewrite [LHS](_ : _ = run p3 (run p2 (run p1 mu)) (cell z 0 i)) // run_frame; first exact: B1.
    by apply/negP => /W3 E; apply: Dz; rewrite -E.
  - move=> a Na Hz. rewrite [LHS](_ : _ = run p3 (run p2 (run p1 mu)) a) // !run_frame //.
    + apply/negP => /W1 [i Hi]. apply: Hz. lia.
    + apply/negP => /W2 [i Hi]. apply: Hz. lia.
    + by apply/negP => /W3.
Qed.

Lemma blocks_sum N (l : seq (nat * nat)) (f : nat -> V) : covers_once1 N l ->
  \sum_(t <- l) (\sum_(i < t.2 - t.1) f (t.1 + i)%N) = \sum_(i < N) f i.
Proof.
  move=> Hc.
  have K (l' : seq (nat * nat)) : (forall b e, List.In (b, e) l' -> (e <= N)%N \/ (e <= b)%N) ->
    \sum_(t <- l') (\sum_(i < t.2 - t.1) f (t.1 + i)%N) = \sum_(i < N) f i *+ visits1 i l'.
  { elim: l' => [|[b e] l' IH] H.
    - rewrite big_nil. symmetry. apply: big1 => i _. by rewrite mulr0n.
    - rewrite big_cons IH; last by move=> b' e' Hb; apply: H; right.
      have -> : \sum_(i < e - b) f (b + i)%N = \sum_(i < N) f i *+ (if (b <=? i) && (i <? e) then 1 else 0)%nat.
      { rewrite -(big_mkord xpredT (fun i => f (b + i)%N)) -(big_mkord xpredT (fun i => f i *+ (if (b <=? i) && (i <? e) then 1 else 0)%nat)).
        case: (leqP e b) => Hbe.
        - have -> : (e - b = 0)%N by lia. rewrite big_geq //. symmetry. apply: big1_seq => i _.
          case: Nat.leb_spec0 => ?; case: Nat.ltb_spec0 => ?; rewrite /= ?mulr0n //. lia.
        - have HeN : (e <= N)%N by case: (H b e (or_introl erefl)); lia.
          rewrite [RHS](@big_cat_nat _ _ _ b 0 N) /=; [|lia|lia]. rewrite [X in _ = _ + X](@big_cat_nat _ _ _ e b N) /=; [|lia|lia].
          rewrite [X in _ = X + _]big_nat_cond [X in _ = X + _]big1 ?add0r; last first.
          { move=> i Hi. case: Nat.leb_spec0 => ?; rewrite /= ?mulr0n //. lia. }
          rewrite [X in _ = _ + X]big_nat_cond [X in _ = _ + X]big1 ?addr0; last first.
          { move=> i Hi. case: Nat.ltb_spec0 => ?; rewrite ?andbF /= ?mulr0n //. lia. }
          rewrite [RHS](_ : _ = \sum_(0 + b <= i < e) f i *+ (if (b <=? i) && (i <? e) then 1 else 0)%nat) // big_addn !big_nat. apply: eq_bigr => i Hi. rewrite addnC.
          rewrite (introT (Nat.leb_spec0 _ _)) ?(introT (Nat.ltb_spec0 _ _)) /= ?mulr1n //; lia. }
      rewrite -big_split /=. apply: eq_bigr => i _. by rewrite mulrnDr. }
  rewrite K.
  - apply: eq_bigr => i _. rewrite Hc. case: Nat.ltb_spec0 => // H. case: H. apply/ltP. exact: ltn_ord.
  - move=> b e Hin. case: (leqP e b) => H; first by right. left.
    have /covers1_lt : (0 < visits1 e.-1 l)%N by apply: (@visits1_in b e) => //; lia. move=> /(_ N Hc). lia.
Qed.
End Dot.

Theorem pfdot_threads (V : ringType) rs N x y z d (mu : mem V) : 0 < rs ->
  vreg z <> vreg x -> vreg z <> vreg y -> d.1 <> vreg z -> d.1 <> vreg x -> d.1 <> vreg y ->
  exists2 P, pfdot V PThreads rs N x y z d = Some P & every_schedule P mu (dotted rs N x y z d mu).
Proof.
  move=> Hrs Zx Zy Dz Dx Dy. rewrite /pfdot.
  have [l [Hf Hc]] := @for1d_ok PThreads N rs N (fun e => match e with end) (le_n _). rewrite Hf.
  eexists; first reflexivity. have [R1 R2 R3 R4] := @pfdot_run V rs x y z d mu l Zx Zy Dz Dx Dy.
  have Hs := for1d_threads_size Hf. apply: schedule_ok => // mu' E. split.
  - rewrite E R2. congr (_ + _)%R. rewrite -(blocks_sum (fun i => mu (cell x i 0) * mu (cell y i 0))%R Hc).
    rewrite (big_nth (0, 0)).
    rewrite -(big_mkord xpredT (fun i => if i < size l then bdot x y mu (nth (0, 0) l i) else 0%R)).
    rewrite (@big_cat_nat _ _ _ (size l)) //=; last lia. rewrite [X in (_ + X)%R]big_nat_cond [X in (_ + X)%R]big1 ?addr0; last first.
    { move=> i Hi. case: ifP => //. lia. }
    rewrite !big_nat. apply: eq_bigr => i Hi. by have -> : i < size l by lia.
  - move=> a Na Hz. rewrite E R4 // => i Hi Ea. apply: Hz. exists 0, i. split=> //. lia.
Qed.
