From Coq Require Import Arith.
From mathcomp Require Import all_ssreflect ssralg ssrint zify.
From Verif Require Import Cuts_model Cuts_spec Cuts_proofs Par_model Par_spec Par_proofs Par2_proofs Par3_proofs Par4_proofs Par5_proofs Par6_proofs Par7_proofs Padd_model Padd_spec.
Set Implicit Arguments.
Unset Strict Implicit.
Unset Printing Implicit Defensive.
Import GRing.Theory.

Section Add.
Variables (V : ringType) (f : V -> V -> V) (A B C : view) (N : nat).
Hypothesis HA : same_or_apart A C.
Hypothesis HB : same_or_apart B C.
Hypothesis HN : N <= vld C.
Local Notation row := (add_row f N A B C).
Local Notation entry i j := (Upd (cell C i j) (fun s => f (nth 0 s 0) (nth 0 s 1))%R [::] [:: cell A i j; cell B i j]).

Lemma apart_cell X i j i' j' : same_or_apart X C -> j < N -> j' < N -> cell X i j = cell C i' j' -> i = i' /\ j = j'.
Proof. move=> [->|D] Hj Hj'; [by move=> /cell_inj [||-> ->] //; lia|by move=> [] /D]. Qed.

Lemma entry_indep i j i' j' : j < N -> j' < N -> (i, j) <> (i', j') -> indep (entry i j : cmd V) (entry i' j').
Proof.
  move=> Hj Hj' D.
  have E X k l k' l' : same_or_apart X C -> l < N -> l' < N -> (k, l) <> (k', l') -> (cell C k l == cell X k' l') = false.
  { move=> HX Hl Hl' D'. apply/negP => /eqP /esym /(apart_cell HX Hl' Hl) [E1 E2]. by apply: D'; rewrite E1 E2. }
  have D' : (i', j') <> (i, j) by move=> E'; apply: D.
  split=> x /= /eqP ->; rewrite ?inE !E //; by left.
Qed.
Lemma writes_add i x : writes (row i) x -> exists2 j, j < N & x = cell C i j.
Proof. by rewrite writes_cseq has_map => /hasP [j]; rewrite mem_iota => Hj /= /eqP ->; exists j. Qed.
Lemma add_writes i j : j < N -> writes (row i) (cell C i j).
Proof. move=> Hj. rewrite writes_cseq has_map. apply/hasP. exists j; [by rewrite mem_iota|by rewrite /= eqxx]. Qed.
Lemma add_rf i : rf (row i).
Proof. apply: rf_cseq => p Hp. by have [j _ ->] := In_map Hp. Qed.
Lemma reads_add i x : reads (row i) x -> exists2 j, j < N & x = cell A i j \/ x = cell B i j.
Proof.
  rewrite reads_cseq has_map => /hasP [j]; rewrite mem_iota => Hj /=. rewrite !inE => /orP [] /eqP ->; exists j => //; by [left|right].
Qed.
Lemma add_indep i i' : i <> i' -> indep (row i) (row i').
Proof.
  move=> D. split=> x /writes_add [j Hj ->].
  - apply/andP; split; apply/negP.
    + move=> /writes_add [j' Hj' /cell_inj [||E _]] //; lia.
    + by move=> /reads_add [j' Hj' [] /esym]; [move=> /(apart_cell HA Hj' Hj) []|move=> /(apart_cell HB Hj' Hj) []] => E; case: D.
  - apply/negP. by move=> /reads_add [j' Hj' [] /esym]; [move=> /(apart_cell HA Hj' Hj) []|move=> /(apart_cell HB Hj' Hj) []] => E; case: D.
Qed.
Lemma add_val i mu j : j < N -> run (row i) mu (cell C i j) = f (mu (cell A i j)) (mu (cell B i j)).
Proof.
  move=> Hj. rewrite /add_row (run_cseq_indep (p := entry i j)) //=.
  - by rewrite /upd eqxx.
  - apply: (@pairwise_map _ (fun j => entry i j)); first exact: iota_uniq.
    move=> k k'; rewrite !mem_iota => Hk Hk' D. apply: entry_indep; try lia. by move=> [].
  - apply: (@map_In _ _ (fun j => entry i j)). apply/In_mem_iota. lia.
Qed.

Lemma add_rows nt M (mu : mem V) :
  exists2 P, ptrsm_iter PThreads nt M row = Some P & every_schedule P mu (combined f M N A B C mu).
Proof.
  apply: ptrsm_iter_ok => //.
  - move=> i _. exact: add_rf.
  - move=> i j _ _. exact: add_indep.
  - move=> mu' E.
    have Pw : pairwise_indep [seq row i | i <- iota 0 M].
    { apply: pairwise_map; first exact: iota_uniq. move=> i j _ _. exact: add_indep. }
    split.
    + move=> i j Hi Hj. rewrite E (run_cseq_indep (p := row i)) //.
      * exact: add_val.
      * apply: (@map_In _ _ (fun i => row i)). apply/In_mem_iota. lia.
      * exact: add_writes.
    + move=> x Hx. rewrite E. apply: run_frame. apply/negP => /writes_solve [i Hi /writes_add [j Hj Ex]].
      apply: Hx. by exists i, j.
Qed.
End Add.

Lemma add_in (V : ringType) nt M N B C (mu : mem V) : same_or_apart B C -> N <= vld C ->
  exists2 P, pfaddin V nt M N B C = Some P & every_schedule P mu (combined (fun c b => c + b)%R M N C B C mu).
Proof.
  move=> HB HN. apply: ptrsm_iter_ok => //.
  - move=> i _. exact: add_rf.
  - move=> i j _ _. apply: add_indep => //. by left.
  - move=> mu' E. have HC : same_or_apart C C by left.
    have Pw : pairwise_indep [seq add_row (+%R : V -> V -> V) N B C C i | i <- iota 0 M].
    { apply: pairwise_map; first exact: iota_uniq. move=> i j _ _. exact: add_indep. }
    split.
    + move=> i j Hi Hj. rewrite E (run_cseq_indep (p := add_row (+%R : V -> V -> V) N B C C i)) //.
      * rewrite add_val //. exact: addrC.
      * apply: (@map_In _ _ (fun i => add_row (+%R : V -> V -> V) N B C C i)). apply/In_mem_iota. lia.
      * exact: add_writes.
    + move=> x Hx. rewrite E. apply: run_frame. apply/negP => /writes_solve [i Hi /writes_add [j Hj Ex]].
      apply: Hx. by exists i, j.
Qed.
