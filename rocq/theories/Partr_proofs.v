From Coq Require Import Arith.
From mathcomp Require Import all_ssreflect ssralg ssrint zify.
From Verif Require Import Cuts_model Cuts_spec Cuts_proofs Par_model Par_spec Par_proofs Par2_proofs Par3_proofs Par4_proofs Par5_proofs Par6_proofs Par7_proofs Partr_model Partr_spec.
Set Implicit Arguments.
Unset Strict Implicit.
Unset Printing Implicit Defensive.
Import GRing.Theory.

Section Row.
Variable V : ringType.
Local Open Scope ring_scope.
Variables (A B : view) (al : V).
Hypothesis HAB : vreg A <> vreg B.
Local Notation row N := (trsm_row al N A B).

Local Notation sb N := (subst_row V N A B).
Local Notation sc N := (scal_row al N B).

Lemma writes_sub N i x : writes (sb N i) x -> exists2 j, (j < N)%N & x = cell B i j.
Proof. by rewrite writes_cseq has_map => /hasP [j]; rewrite mem_iota => Hj /= /eqP ->; exists j. Qed.
Lemma writes_sc N i x : writes (sc N i) x -> exists2 j, (j < N)%N & x = cell B i j.
Proof. rewrite /scal_row. case: eqP => // _. by rewrite writes_cseq has_map => /hasP [j]; rewrite mem_iota => Hj /= /eqP ->; exists j. Qed.
Lemma rf_trsm_row N i : rf (row N i).
Proof.
  split.
  - apply: rf_cseq => p Hp. by have [j _ ->] := In_map Hp.
  - rewrite /scal_row. case: eqP => // _. apply: rf_cseq => p Hp. by have [j _ ->] := In_map Hp.
Qed.
Lemma writes_row N i x : writes (row N i) x -> exists2 j, (j < N)%N & x = cell B i j.
Proof. by rewrite /= => /orP [/writes_sub|/writes_sc]. Qed.
Lemma row_writes N i j : (j < N)%N -> writes (row N i) (cell B i j).
Proof. move=> Hj. apply/orP; left. rewrite -/(writes (sb N i) _) writes_cseq has_map. apply/hasP. exists j; [by rewrite mem_iota|by rewrite /= eqxx]. Qed.
Lemma reads_row N i x : reads (row N i) x -> x.1 = vreg A \/ exists2 j, (j < N)%N & x = cell B i j.
Proof.
  rewrite /= => /orP []; last first.
  { rewrite /scal_row. case: eqP => // _. rewrite reads_cseq has_map => /hasP [j]; rewrite mem_iota => Hj /=.
    rewrite inE => /eqP ->. right. by exists j. }
  rewrite reads_cseq has_map => /hasP [j]; rewrite mem_iota => Hj /=. rewrite inE mem_cat => /orP [/eqP ->|/orP [|]].
  - right. by exists j.
  - move=> /mapP [l]; rewrite mem_iota => Hl ->. right. exists l => //. lia.
  - by move=> /mapP [l _ ->]; left.
Qed.
Lemma indep_rows N i j : (N <= vld B)%N -> i <> j -> indep (row N i) (row N j).
Proof.
  move=> HN Hij.
  have D k k' : (k < N)%N -> (k' < N)%N -> cell B i k <> cell B j k' by move=> Hk Hk' /cell_inj [||? _] //; lia.
  split=> x /writes_row [k Hk ->].
  - apply/andP; split; apply/negP; first by move=> /writes_row [k' Hk' /D]; apply.
    by move=> /reads_row [/= E|[k' Hk' /D]]; [apply: HAB|apply].
  - by apply/negP => /reads_row [/= E|[k' Hk' /esym /D]]; [apply: HAB|apply].
Qed.

Lemma sub_val N i mu j : (N <= vld B)%N -> (j < N)%N ->
  run (sb N i) mu (cell B i j) +
  (\sum_(l < j) run (sb N i) mu (cell B i l) * mu (cell A l j)) = mu (cell B i j).
Proof.
  elim: N j => [|N IH] j // HN Hj.
  have E x : run (sb N.+1 i) mu x =
    if x == cell B i N then mu (cell B i N) - (\sum_(l < N) run (sb N i) mu (cell B i l) * mu (cell A l N))
    else run (sb N i) mu x.
  { rewrite /subst_row -{1}[N.+1]addn1 iotaD map_cat run_cat add0n -/(subst_row V N A B i) /= /upd.
    case: eqP => // _. rewrite (@run_frame _ _ _ (cell B i N)); last first.
    { apply/negP => /writes_sub [k Hk /cell_inj [||_ ?]] //; lia. }
    congr (_ - _). rewrite -(foldr_sum (fun l => run (sb N i) mu (cell B i l) * mu (cell A l N))).
    have S1 : size [seq run (sb N i) mu x0 | x0 <- [seq cell B i l | l <- iota 0 N]] = N by rewrite !size_map size_iota.
    have F l : l \in iota 0 N ->
      nth 0 [seq run (sb N i) mu x0 | x0 <- [seq cell B i l0 | l0 <- iota 0 N] ++ [seq cell A l0 N | l0 <- iota 0 N]] l
      = run (sb N i) mu (cell B i l) /\
      nth 0 [seq run (sb N i) mu x0 | x0 <- [seq cell B i l0 | l0 <- iota 0 N] ++ [seq cell A l0 N | l0 <- iota 0 N]] (N + l)
      = mu (cell A l N).
    { rewrite mem_iota => Hl. rewrite map_cat !nth_cat S1. have -> : (l < N)%N by lia. have -> : (N + l < N)%N = false by lia.
      rewrite addKn -!map_comp !(nth_map 0%N) ?size_iota ?nth_iota ?add0n /=; try lia. split=> //.
      apply: run_frame. apply/negP => /writes_sub [k _ []] /HAB. by []. }
    move: (map (run _ mu) _) F => L F. elim: (iota 0 N) F => [|l s IHs] //= F. have [-> ->] := F l (mem_head _ _). congr (_ + _). apply: IHs => l' Hl'.
    apply: F. by rewrite inE Hl' orbT. }
  have G l : (l < N)%N -> run (sb N.+1 i) mu (cell B i l) = run (sb N i) mu (cell B i l).
  { move=> Hl. rewrite E. case: eqP => // /cell_inj [||_ ?]; lia. }
  have [Ei|Ni] := eqVneq j N.
  - subst j. rewrite [X in X + _]E eqxx [X in _ + X](eq_bigr (fun l : 'I_N => run (sb N i) mu (cell B i l) * mu (cell A l N))); last first.
    { move=> l _. by rewrite G. }
    by rewrite subrK.
  - rewrite G; last lia. rewrite -[RHS](IH j); [|lia|lia]. congr (_ + _). apply: eq_bigr => l _. rewrite G //.
    by have := ltn_ord l; lia.
Qed.


Lemma sc_val N i mu j : (N <= vld B)%N -> (j < N)%N -> run (sc N i) mu (cell B i j) = al * mu (cell B i j).
Proof.
  move=> HN Hj. rewrite /scal_row. case: eqP => [->|_]; first by rewrite mul1r.
  have Pw : pairwise_indep [seq Upd (cell B i k) (fun s => al * nth 0 s 0) [::] [:: cell B i k] | k <- iota 0 N].
  { apply: (@pairwise_map _ (fun k => Upd (cell B i k) (fun s => al * nth 0 s 0) [::] [:: cell B i k])); first exact: iota_uniq.
    move=> k k'; rewrite !mem_iota => Hk Hk' Nk.
    have D : cell B i k <> cell B i k' by move=> /cell_inj [||_ ?] //; lia.
    split=> x /= /eqP ->; rewrite ?inE.
    - by apply/andP; split; apply/negP => /eqP // E; apply: D; rewrite E.
    - by apply/negP => /eqP E; apply: D; rewrite E. }
  rewrite (run_cseq_indep (p := Upd (cell B i j) (fun s => al * nth 0 s 0) [::] [:: cell B i j])) //=.
  - by rewrite /upd eqxx.
  - apply: (@map_In _ _ (fun k => Upd (cell B i k) (fun s => al * nth 0 s 0) [::] [:: cell B i k])). apply/In_mem_iota. lia.
Qed.
Lemma row_val N i mu j : (N <= vld B)%N -> (j < N)%N ->
  run (row N i) mu (cell B i j) +
  (\sum_(l < j) run (row N i) mu (cell B i l) * mu (cell A l j)) = al * mu (cell B i j).
Proof.
  move=> HN Hj. rewrite -(@sub_val N i mu j) //= sc_val // mulrDr. congr (_ + _). rewrite mulr_sumr. apply: eq_bigr => l _.
  rewrite sc_val //; first by rewrite mulrA. by have := ltn_ord l; lia.
Qed.

Lemma solve_solved_right M N mu mu' : (N <= vld B)%N -> mu' =1 run (solve (row N) 0 M) mu -> solved_right M N al A B mu mu'.
Proof.
  move=> HN E.
  have Pw : pairwise_indep [seq row N i | i <- iota 0 M].
  { apply: pairwise_map; first exact: iota_uniq. move=> i j _ _ Nij. exact: indep_rows. }
  have Ec i j : (i < M)%N -> (j < N)%N -> mu' (cell B i j) = run (row N i) mu (cell B i j).
  { move=> Hi Hj. rewrite E (run_cseq_indep (p := row N i)) //.
    - apply: (@map_In _ _ (trsm_row al N A B)). apply/In_mem_iota. lia.
    - exact: row_writes. }
  split.
  - move=> i j Hi Hj. rewrite Ec // -[RHS](@row_val N i mu j) //. congr (_ + _). apply: eq_bigr => l _.
    rewrite Ec //. by have := ltn_ord l; lia.
  - move=> x Hx. rewrite E. apply: run_frame. apply/negP => /writes_solve [i Hi /writes_row [j Hj Ex]].
    apply: Hx. by exists i, j.
Qed.
End Row.

Theorem ptrsm_right_solved (V : ringType) pa nt M N (al : V) A B (mu : mem V) : (pa = PGrain -> nt <> 0) ->
  vreg A <> vreg B -> N <= vld B ->
  exists2 P, ptrsm_iter_right pa nt M N al A B = Some P & every_schedule P mu (solved_right M N al A B mu).
Proof.
  move=> Ht HAB HN. apply: ptrsm_iter_ok => //.
  - move=> j _. exact: rf_trsm_row.
  - move=> i j _ _ Hij. exact: indep_rows.
  - move=> mu' E. exact: solve_solved_right E.
Qed.

Lemma cdiv_pos a b : 0 < b -> 0 < a -> 0 < cdiv a b.
Proof. rewrite /cdiv => Hb Ha. have D := divn_eq a b. case: (a %/ b) D => [|q] //= D. rewrite mul0n add0n in D. by rewrite -D -lt0n Ha. Qed.

Theorem ptrsm_hyb_right_ok (V : ringType) pa H nt M N (al : V) A B (mu : mem V) : 0 < H -> (pa = PGrain -> nt <> 0) -> 0 < M ->
  vreg A <> vreg B -> N <= vld B ->
  exists2 P, ptrsm_hyb_right pa H nt M N al A B = Some P & every_schedule P mu (solved_right M N al A B mu).
Proof.
  move=> HH Ht HM HAB HN. rewrite /ptrsm_hyb_right /hyb_right.
  have C := cdiv_pos HH HM.
  case: ifP => _; last exact: ptrsm_right_solved. case: eqP => [Z|Z]; first by rewrite Z in C. exact: ptrsm_right_solved.
Qed.

(** The threads are shared out without losing any: nt_it nt_rec >= nt. *)
Theorem hyb_right_threads H m nt it rc : hyb_right H m nt = Some (it, rc) -> nt <= it * rc.
Proof.
  rewrite /hyb_right. case: ifP => _; last by move=> [<- <-]; rewrite muln1.
  case: eqP => // Z [<- <-]. set c := cdiv m H in Z *. rewrite /cdiv {1}(divn_eq nt c) mulnDr mulnC leq_add2l.
  have := @ltn_pmod nt c ltac:(lia). case: (nt %% c) => [|r] //= Hr. by rewrite muln1; lia.
Qed.

Theorem hyb_right_empty H nt : 0 < nt -> hyb_right H 0 nt = None.
Proof. by move=> Hn; rewrite /hyb_right div0n Hn /cdiv div0n mod0n. Qed.

(** ** Any shape *)
Section Any.
Variable V : Type.
Lemma confined_rf W R (p : cmd V) : confined W R p -> rf p.
Proof. elim: p => //= p IHp q IHq [/IHp ? /IHq ?]. by split. Qed.
Lemma confined_writes W R (p : cmd V) x : confined W R p -> writes p x -> W x.
Proof. by elim: p => //= [a f g t [H _] /eqP ->|p IHp q IHq [/IHp Hp /IHq Hq] /orP [/Hp|/Hq]]. Qed.
Lemma confined_reads W R (p : cmd V) x : confined W R p -> reads p x -> R x.
Proof. by elim: p => //= [a f g t [_ H] /H|p IHp q IHq [/IHp Hp /IHq Hq] /orP [/Hp|/Hq]]. Qed.
Lemma confined_indep W R W' R' (p q : cmd V) : confined W R p -> confined W' R' q ->
  (forall x, W x -> W' x -> False) -> (forall x, W x -> R' x -> False) -> (forall x, W' x -> R x -> False) -> indep p q.
Proof.
  move=> Hp Hq H1 H2 H3. split=> x /confined_writes Wx.
  - apply/andP; split; apply/negP => H; [apply: H1 (Wx _ _ Hp) _|apply: H2 (Wx _ _ Hp) _];
      [exact: confined_writes Hq H|exact: confined_reads Hq H].
  - apply/negP => H. apply: H3 (Wx _ _ Hq) _. exact: confined_reads Hp H.
Qed.

Theorem ptrsm_left_any pa nt M N A B (tmp : nat -> seq nat) (col : nat -> cmd V) mu : (pa = PGrain -> nt <> 0) ->
  vreg A <> vreg B -> N <= vld B -> injective tmp -> (forall j, tmp j <> vreg A) -> (forall j, tmp j <> vreg B) ->
  (forall j, j < N -> confined (own_col B M tmp j) (fun x => x.1 = vreg A \/ own_col B M tmp j x) (col j)) ->
  exists2 P, ptrsm_iter pa nt N col = Some P & every_schedule P mu (fun mu' => mu' =1 run (solve col 0 N) mu).
Proof.
  move=> Ht HAB HN It TA TB H. apply: ptrsm_iter_ok => //.
  - move=> j Hj. exact: confined_rf (H j Hj).
  - move=> i j Hi Hj Nij.
    have D i' j' x : i' < N -> j' < N -> i' <> j' -> own_col B M tmp i' x -> own_col B M tmp j' x -> False.
    { move=> Hi' Hj' N' [[k Hk ->]|Ex] [[k' Hk']|Ex'].
      - move=> /cell_inj [||_ ?]; lia.
      - move: Ex' => /= /esym /(TB j'). by [].
      - move=> Ex'. rewrite Ex' /= in Ex. exact: (TB i').
      - apply: N'. apply: It. by rewrite -Ex. }
    have DA i' x : own_col B M tmp i' x -> x.1 <> vreg A.
    { by move=> [[k Hk ->]|->] // E; apply: HAB. }
    apply: (confined_indep (H i Hi) (H j Hj)).
    + move=> x. exact: D.
    + move=> x Ox [/(DA _ _ Ox) //|]. exact: D Ox.
    + move=> x Ox [/(DA _ _ Ox) //|]. apply: D Ox => //. by move=> E; apply: Nij.
Qed.

Theorem ptrsm_right_any pa nt M N A B (tmp : nat -> seq nat) (row : nat -> cmd V) mu : (pa = PGrain -> nt <> 0) ->
  vreg A <> vreg B -> N <= vld B -> injective tmp -> (forall j, tmp j <> vreg A) -> (forall j, tmp j <> vreg B) ->
  (forall i, i < M -> confined (own_row B N tmp i) (fun x => x.1 = vreg A \/ own_row B N tmp i x) (row i)) ->
  exists2 P, ptrsm_iter pa nt M row = Some P & every_schedule P mu (fun mu' => mu' =1 run (solve row 0 M) mu).
Proof.
  move=> Ht HAB HN It TA TB H. apply: ptrsm_iter_ok => //.
  - move=> j Hj. exact: confined_rf (H j Hj).
  - move=> i j Hi Hj Nij.
    have D i' j' x : i' <> j' -> own_row B N tmp i' x -> own_row B N tmp j' x -> False.
    { move=> N' [[k Hk ->]|Ex] [[k' Hk']|Ex'].
      - move=> /cell_inj [||? _]; lia.
      - move: Ex' => /= /esym /(TB j'). by [].
      - move=> Ex'. rewrite Ex' /= in Ex. exact: (TB i').
      - apply: N'. apply: It. by rewrite -Ex. }
    have DA i' x : own_row B N tmp i' x -> x.1 <> vreg A.
    { by move=> [[k Hk ->]|->] // E; apply: HAB. }
    apply: (confined_indep (H i Hi) (H j Hj)).
    + move=> x. exact: D.
    + move=> x Ox [/(DA _ _ Ox) //|]. exact: D Ox.
    + move=> x Ox [/(DA _ _ Ox) //|]. apply: D Ox => //. by move=> E; apply: Nij.
Qed.
End Any.

Lemma confined_cseq V W R (ps : seq (cmd V)) : (forall p, List.In p ps -> confined W R p) -> confined W R (cseq ps).
Proof. elim: ps => //= p ps IH H. split; first by apply: H; left. by apply: IH => q Hq; apply: H; right. Qed.
Lemma confined_col_up (V : ringType) M A B tmp j :
  confined (own_col B M tmp j) (fun x => x.1 = vreg A \/ own_col B M tmp j x) (trsm_col_up V M A B j).
Proof.
  apply: confined_cseq => p Hp. have [i] := In_map Hp. rewrite mem_rev mem_iota => Hi -> /=. split; first by left; exists i.
  move=> x. rewrite inE mem_cat => /orP [/eqP ->|/orP [/mapP [l _ ->]|/mapP [l Hl ->]]]; [|by left|]; right; left.
  - by exists i.
  - exists l => //. rewrite mem_iota in Hl. lia.
Qed.
