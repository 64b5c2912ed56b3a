From mathcomp Require Import all_ssreflect ssralg zify.
From Verif Require Import Cuts_model Cuts_spec Cuts_proofs Par_model Par_spec Par_proofs.
Set Implicit Arguments.
Unset Strict Implicit.
Unset Printing Implicit Defensive.
Import GRing.Theory.

(** ** Views *)
Lemma cell_inj C i j i' j' : j < vld C -> j' < vld C -> cell C i j = cell C i' j' -> i = i' /\ j = j'.
Proof.
  move=> Hj Hj' [] E. have E' : i * vld C + j = i' * vld C + j' by lia.
  have Ei : i = i'.
  { have := congr1 (divn^~ (vld C)) E'. by rewrite !divnMDl ?divn_small ?addn0; lia. }
  split=> //. subst i'. lia.
Qed.
Lemma cell_sub C r c i j : cell (sub C r c) i j = cell C (r + i) (c + j).
Proof. rewrite /cell /sub /=. congr (_, _). rewrite mulnDl. lia. Qed.
Lemma op_opsub t A r c i l : op t (opsub t A r c) i l = op t A (r + i) (c + l).
Proof. rewrite /op /opsub /cell /=. case: t => /=; congr (_, _); rewrite mulnDl; lia. Qed.
Lemma sub00 C : sub C 0 0 = C.
Proof. by case: C => r b l; rewrite /sub /= mul0n !addn0. Qed.
Lemma opsub00 t A : opsub t A 0 0 = A.
Proof. by case: A => r b l; rewrite /opsub /= !mul0n !addn0. Qed.
Lemma op_reg t A i l : (op t A i l).1 = vreg A. Proof. by case: t. Qed.

Lemma win_reg C m n x : in_win C m n x -> x.1 = vreg C.
Proof. by move=> [i [j [_ _ ->]]]. Qed.
Lemma win_sub C r c m' n' m n x : r + m' <= m -> c + n' <= n -> in_win (sub C r c) m' n' x -> in_win C m n x.
Proof. move=> H1 H2 [i [j [Hi Hj ->]]]. exists (r + i), (c + j). split; [lia|lia|exact: cell_sub]. Qed.
Lemma win_dis C r c m1 n1 r2 c2 m2 n2 n x : n <= vld C -> c + n1 <= n -> c2 + n2 <= n ->
  [|| r + m1 <= r2, r2 + m2 <= r, c + n1 <= c2 | c2 + n2 <= c] ->
  in_win (sub C r c) m1 n1 x -> ~ in_win (sub C r2 c2) m2 n2 x.
Proof.
  move=> H0 H1 H2 H [i [j [Hi Hj ->]]] [i' [j' [Hi' Hj']]]. rewrite !cell_sub => /cell_inj [||]; lia.
Qed.

Section Good.
Variables (V : ringType) (ta tb : bool) (alpha : V) (RA RB : seq nat).
Local Open Scope ring_scope.
Notation product := (product ta tb).

Lemma foldr_sum (F : nat -> V) k : foldr (fun l acc => F l + acc) 0 (iota 0 k) = \sum_(l < k) F l.
Proof. by rewrite -(big_mkord xpredT F) /index_iota subn0 unlock. Qed.

(** what a task may touch, and what it computes *)
Record good (own : addr -> Prop) (m n k : nat) (A B : view) (beta : V) (C : view) (P : cmd V) : Prop := Good {
  g_rf : rf P;
  g_w : forall x, writes P x -> in_win C m n x \/ own x;
  g_r : forall x, reads P x -> [\/ x.1 = RA, x.1 = RB, in_win C m n x | own x];
  g_v : forall mu i j, (i < m)%N -> (j < n)%N -> run P mu (cell C i j) = product k alpha A B beta C mu i j
}.

Lemma good_weaken (own own' : addr -> Prop) m n k A B beta C P :
  (forall x, own x -> own' x) -> good own m n k A B beta C P -> good own' m n k A B beta C P.
Proof.
  move=> H [G1 G2 G3 G4]. split=> // x.
  - by move=> /G2 [?|/H ?]; [left|right].
  - by move=> /G3 [?|?|?|/H ?]; [constructor 1|constructor 2|constructor 3|constructor 4].
Qed.

Lemma product_ext k A B beta C mu mu' i j : vreg A = RA -> vreg B = RB ->
  (forall x, x.1 = RA \/ x.1 = RB -> mu x = mu' x) -> mu (cell C i j) = mu' (cell C i j) ->
  product k alpha A B beta C mu i j = product k alpha A B beta C mu' i j.
Proof.
  move=> HA HB H HC. rewrite /Par_spec.product HC. congr (_ * _ + _).
  apply: eq_bigr => l _. rewrite (H (op ta A i l)) ?(H (op tb B l j)) // op_reg; auto.
Qed.

Lemma good_leaf own m n k A B beta C : vreg A = RA -> vreg B = RB -> vreg C <> RA -> vreg C <> RB ->
  (n <= vld C)%N -> good own m n k A B beta C (fgemm_seq ta tb m n k alpha A B beta C).
Proof.
  move=> HA HB CA CB Hn. split.
  - by apply: rf_loop2.
  - move=> x /writes_loop2 [i [j [Hi Hj /= /eqP ->]]]. left. by exists i, j.
  - move=> x /reads_loop2 [i [j [Hi Hj /=]]]. rewrite !mem_cat => /or3P [/mapP [l _ ->]|/mapP [l _ ->]|].
    + by constructor 1; rewrite op_reg.
    + by constructor 2; rewrite op_reg.
    + case: eqP => _ //. rewrite inE => /eqP ->. constructor 3. by exists i, j.
  - move=> mu i j Hi Hj. rewrite (@run_loop2_at _ m n _ i j) //.
    + rewrite /= /upd eqxx /gemm_val /Par_spec.product !map_cat -!map_comp.
      set a := [seq _ | _ <- _]. set b := [seq _ | _ <- _]. set c := [seq _ | _ <- (if _ then _ else _)].
      have sa : size a = k by rewrite size_map size_iota. have sb : size b = k by rewrite size_map size_iota.
      congr (_ * _ + _).
      * rewrite foldr_sum. apply: eq_bigr => l _. congr (_ * _).
        -- by rewrite nth_cat sa ltn_ord (nth_map 0%N) ?size_iota // nth_iota.
        -- rewrite nth_cat sa ltnNge leq_addr /= addKn nth_cat sb ltn_ord (nth_map 0%N) ?size_iota // nth_iota //.
      * rewrite nth_cat sa ltnNge leq_addr /= addKn nth_cat sb ltnn subnn /c.
        by have [->|_] := eqVneq beta 0 => /=; rewrite ?mul0r.
    + move=> i' j' Hi' Hj' /=. apply: contra => /eqP /cell_inj [||-> ->] //; lia.
    + move=> i1 j1 i2 j2 y Hi1 Hj1 Hi2 Hj2 N /=. rewrite !mem_cat => H. apply/negP => /eqP E. move: H; rewrite E => /or3P [/mapP [l _ K]|/mapP [l _ K]|].
      * apply: CA. by rewrite -HA -(op_reg ta A i1 l) -K.
      * apply: CB. by rewrite -HB -(op_reg tb B l j1) -K.
      * case: eqP => _ //. rewrite inE => /eqP /cell_inj [||E1 E2]; try lia. by rewrite E1 E2 eqxx in N.
Qed.

Lemma good_scal own m n k A B beta C : (k == 0)%N || (alpha == 0) -> (n <= vld C)%N ->
  good own m n k A B beta C (fscalin m n beta C).
Proof.
  move=> Hz Hn. split.
  - by apply: rf_loop2.
  - move=> x /writes_loop2 [i [j [Hi Hj /= /eqP ->]]]. left. by exists i, j.
  - move=> x /reads_loop2 [i [j [Hi Hj /=]]]. case: eqP => _ //. rewrite inE => /eqP ->. constructor 3. by exists i, j.
  - move=> mu i j Hi Hj. rewrite (@run_loop2_at _ m n _ i j) //.
    + rewrite /= /upd eqxx /Par_spec.product.
      have -> : alpha * (\sum_(l < k) mu (op ta A i l) * mu (op tb B l j)) = 0.
      { case/orP: Hz => /eqP ->; [by rewrite big_ord0 mulr0|by rewrite mul0r]. }
      rewrite add0r. by have [->|_] := eqVneq beta 0 => /=; rewrite ?mul0r.
    + move=> i' j' Hi' Hj' /=. apply: contra => /eqP /cell_inj [||-> ->] //; lia.
    + move=> i1 j1 i2 j2 y Hi1 Hj1 Hi2 Hj2 N /=. case: eqP => _ //. rewrite inE => /eqP ->.
      apply: contra N => /eqP /cell_inj [||-> ->] //; lia.
Qed.

Lemma good_done own m n k A B beta C : (m == 0)%N || (n == 0)%N -> good own m n k A B beta C Done.
Proof. move=> H. split=> // mu i j Hi Hj. lia. Qed.

(** ** Families of tasks *)
Record tile := Tile { t_own : addr -> Prop; t_m : nat; t_n : nat; t_k : nat; t_A : view; t_B : view;
  t_beta : V; t_C : view; t_P : cmd V }.
Definition t_win t := in_win (t_C t) (t_m t) (t_n t).
Definition tgood t : Prop :=
  [/\ good (t_own t) (t_m t) (t_n t) (t_k t) (t_A t) (t_B t) (t_beta t) (t_C t) (t_P t),
      vreg (t_A t) = RA, vreg (t_B t) = RB, vreg (t_C t) <> RA /\ vreg (t_C t) <> RB &
      forall x, t_own t x -> x.1 <> RA /\ x.1 <> RB].
Definition dis t s : Prop :=
  [/\ forall x, t_win t x -> ~ t_win s x, forall x, t_own t x -> ~ t_own s x,
      forall x, t_win t x -> ~ t_own s x & forall x, t_win s x -> ~ t_own t x].
Fixpoint pdis (ts : seq tile) : Prop :=
  match ts with [::] => True | t :: ts => (forall s, List.In s ts -> dis t s) /\ pdis ts end.

Lemma dis_indep t s : tgood t -> tgood s -> dis t s -> indep (t_P t) (t_P s).
Proof.
  move=> [[_ tw tr _] tA tB [tCA tCB] tO] [[_ sw sr _] sA sB [sCA sCB] sO] [D1 D2 D3 D4].
  have nT x : writes (t_P t) x -> x.1 <> RA /\ x.1 <> RB by move=> /tw [/win_reg ->|/tO].
  have nS x : writes (t_P s) x -> x.1 <> RA /\ x.1 <> RB by move=> /sw [/win_reg ->|/sO].
  split=> x W.
  - apply/andP; split; apply/negP.
    + move/tw: (W) => [w|o] /sw [w'|o'].
      * exact: D1 w w'. * exact: D3 w o'. * exact: D4 w' o. * exact: D2 o o'.
    + move/tw: (W) => [w|o] /sr [/(proj1 (nT _ W))|/(proj2 (nT _ W))|w'|o'] //.
      * exact: D1 w w'. * exact: D3 w o'. * exact: D4 w' o. * exact: D2 o o'.
  - apply/negP => /tr [/(proj1 (nS _ W))|/(proj2 (nS _ W))|w|o] //; move/sw: W => [w'|o'].
    * exact: D1 w w'. * exact: D3 w o'. * exact: D4 w' o. * exact: D2 o o'.
Qed.

Lemma tiles_ok ts : (forall t, List.In t ts -> tgood t) -> pdis ts ->
  [/\ pairwise_indep [seq t_P t | t <- ts],
      rf (cpar [seq t_P t | t <- ts]),
      forall x, writes (cpar [seq t_P t | t <- ts]) x -> exists2 t, List.In t ts & t_win t x \/ t_own t x,
      forall x, reads (cpar [seq t_P t | t <- ts]) x ->
        [\/ x.1 = RA, x.1 = RB | exists2 t, List.In t ts & t_win t x \/ t_own t x] &
      forall mu t i j, List.In t ts -> (i < t_m t)%N -> (j < t_n t)%N ->
        run (cpar [seq t_P t | t <- ts]) mu (cell (t_C t) i j)
        = product (t_k t) alpha (t_A t) (t_B t) (t_beta t) (t_C t) mu i j].
Proof.
  elim: ts => [|t ts IH] Hg Hd; first by split.
  have [Gt tA tB [tCA tCB] tO] := Hg t (or_introl erefl). case: Hd => Hd1 Hd2.
  have Hg' s : List.In s ts -> tgood s by move=> Hs; apply: Hg; right.
  have [I1 I2 I3 I4 I5] := IH Hg' Hd2.
  have Ind q : List.In q [seq t_P s | s <- ts] -> indep (t_P t) q.
  { elim: (ts) Hg' Hd1 => [|s ss IHs] //= Hgs Hds [<-|].
    - apply: dis_indep; [exact: (Hg t (or_introl erefl))|exact: (Hgs s (or_introl erefl))|exact: (Hds s (or_introl erefl))].
    - apply: IHs => u Hu; [apply: Hgs|apply: Hds]; by right. }
  split.
  - by split.
  - split=> //; first exact: (g_rf Gt). exact: indep_has.
  - move=> x /= /orP [/(g_w Gt) H|/I3 [s Hs H]]; [exists t; [by left|exact: H]|exists s; [by right|exact: H]].
  - move=> x /= /orP [/(g_r Gt) [H|H|H|H]|/I4 [H|H|[s Hs H]]].
    + by constructor 1.
    + by constructor 2.
    + by constructor 3; exists t; [left|left].
    + by constructor 3; exists t; [left|right].
    + by constructor 1.
    + by constructor 2.
    + by constructor 3; exists s; [right|].
  - move=> mu s i j [<-|Hs] Hi Hj /=.
    + rewrite run_frame; first exact: (g_v Gt).
      apply/negP => /I3 [s' Hs' H]. have [D1 D2 D3 D4] := Hd1 _ Hs'.
      have W : t_win t (cell (t_C t) i j) by exists i, j.
      by case: H; [exact: D1|exact: D3].
    + rewrite I5 //. have [_ sA sB _ _] := Hg' _ Hs. have [D1 D2 D3 D4] := Hd1 _ Hs.
      have W : t_win s (cell (t_C s) i j) by exists i, j.
      apply: product_ext => //.
      * move=> x Hx. apply: run_frame. apply/negP => /(g_w Gt) [/win_reg E|/tO [E1 E2]].
        -- by case: Hx => Hx; [apply: tCA|apply: tCB]; rewrite -E.
        -- by case: Hx.
      * apply: run_frame. apply/negP => /(g_w Gt) [H|H]; [exact: D1 H W|exact: D4 W H].
Qed.

(** ** Two phases *)
Lemma phases_ok df (ps qs : seq (cmd V)) : size ps = size qs ->
  pairwise_indep [seq Seq pq.1 pq.2 | pq <- zip ps qs] ->
  (forall e, List.In e [seq Seq pq.1 pq.2 | pq <- zip ps qs] -> rf e) ->
  [/\ rf (phases df ps qs),
      forall mu, run (phases df ps qs) mu =1 run (cpar [seq Seq pq.1 pq.2 | pq <- zip ps qs]) mu,
      forall x, writes (phases df ps qs) x = writes (cpar [seq Seq pq.1 pq.2 | pq <- zip ps qs]) x &
      forall x, reads (phases df ps qs) x = reads (cpar [seq Seq pq.1 pq.2 | pq <- zip ps qs]) x].
Proof.
  move=> Hs Hp Hr. rewrite /phases. case: df; first by split=> //; apply: rf_cpar.
  have Sub (p q p' q' : cmd V) : indep (Seq p q) (Seq p' q') -> [/\ indep p p', indep q q', indep p q' & indep q p'].
  { move=> H. split; apply: indep_sub H => x /= ->; rewrite ?orbT //. }
  elim: ps qs Hs Hp Hr => [|p ps IH] [|q qs] //= [Hs] [Hi Hp] Hr.
  have [I1 I2 I3 I4] := IH qs Hs Hp (fun e He => Hr e (or_intror He)).
  have [Rp Rq] := Hr _ (or_introl erefl). case: I1 => Rps Rqs.
  have Each q0 : List.In q0 ps -> indep p q0 /\ indep q q0.
  { elim: (ps) (qs) Hs Hi => [|a l IHl] [|b l'] //= [Hs'] Hi' [<-|].
    - by have [? _ _ ?] := Sub _ _ _ _ (Hi' _ (or_introl erefl)).
    - apply: (IHl l') => // e He. apply: Hi'. by right. }
  have Each' q0 : List.In q0 qs -> indep q q0.
  { elim: (ps) (qs) Hs Hi {Each} => [|a l IHl] [|b l'] //= [Hs'] Hi' [<-|].
    - by have [_ ? _ _] := Sub _ _ _ _ (Hi' _ (or_introl erefl)).
    - apply: (IHl l') => // e He. apply: Hi'. by right. }
  split.
  - split; split=> //; apply: indep_has => q0 H; [exact: (Each _ H).1|exact: Each'].
  - move=> mu x. rewrite -I2 /=. apply: run_ext => y.
    have : indep q (cpar ps) by apply: indep_has => q0 H; exact: (Each _ H).2.
    move=> /indep_sym /run_comm H. by rewrite H.
  - move=> x. rewrite -I3 /=. by rewrite -!orbA; do 2 bool_congr; rewrite orbCA.
  - move=> x. rewrite -I4 /=. by rewrite -!orbA; do 2 bool_congr; rewrite orbCA.
Qed.

(** ** Sums *)
Lemma product_split t1 t2 (k1 k : nat) A B beta C mu i j : (k1 <= k)%N ->
  t1 = \sum_(l < k1) mu (op ta A i l) * mu (op tb B l j) ->
  t2 = \sum_(l < k - k1) mu (op ta (opsub ta A 0 k1) i l) * mu (op tb (opsub tb B k1 0) l j) ->
  product k alpha A B beta C mu i j = alpha * t1 + (alpha * t2 + beta * mu (cell C i j)).
Proof.
  move=> Hk -> ->. rewrite /Par_spec.product addrA -mulrDr. congr (_ * _ + _).
  rewrite -(big_mkord xpredT (fun l => mu (op ta A i l) * mu (op tb B l j))) (big_cat_nat _ (n := k1)) //= big_mkord. congr (_ + _).
  rewrite -{1}[k1]add0n big_addn big_mkord. apply: eq_bigr => l _. by rewrite !op_opsub add0n addnC.
Qed.
End Good.
