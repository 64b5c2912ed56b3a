From mathcomp Require Import all_ssreflect ssralg zify.
From Verif Require Import Par_model Par_spec.
Set Implicit Arguments.
Unset Strict Implicit.
Unset Printing Implicit Defensive.

Section Framework.
Variable V : Type.
Implicit Types (p q : cmd V) (mu : mem V) (x : addr).

Fixpoint writes p x : bool :=
  match p with
  | Done => false
  | Upd a _ _ _ => x == a
  | Seq p q => writes p x || writes q x
  | Par p q => writes p x || writes q x
  end.
Fixpoint reads p x : bool :=
  match p with
  | Done => false
  | Upd _ _ _ todo => x \in todo
  | Seq p q => reads p x || reads q x
  | Par p q => reads p x || reads q x
  end.
Definition indep p q : Prop :=
  (forall x, writes p x -> ~~ writes q x && ~~ reads q x) /\
  (forall x, writes q x -> ~~ reads p x).
Fixpoint rf p : Prop :=
  match p with
  | Done | Upd _ _ _ _ => True
  | Seq p q => rf p /\ rf q
  | Par p q => [/\ rf p, rf q & indep p q]
  end.

Lemma run_ext p mu mu' : mu =1 mu' -> run p mu =1 run p mu'.
Proof.
  elim: p mu mu' => [|a f got todo|p IHp q IHq|p IHp q IHq] mu mu' H x //=.
  - rewrite /upd (eq_map H). by case: eqP.
  - by apply: IHq => y; apply: IHp.
  - by apply: IHq => y; apply: IHp.
Qed.

Lemma run_frame p mu x : ~~ writes p x -> run p mu x = mu x.
Proof.
  elim: p mu => [|a f got todo|p IHp q IHq|p IHp q IHq] mu //=.
  - by rewrite /upd => /negbTE ->.
  - by rewrite negb_or => /andP [H1 H2]; rewrite IHq // IHp.
  - by rewrite negb_or => /andP [H1 H2]; rewrite IHq // IHp.
Qed.

Lemma run_local p mu mu' x : (forall y, reads p y -> mu y = mu' y) -> mu x = mu' x -> run p mu x = run p mu' x.
Proof.
  elim: p mu mu' x => [|a f got todo|p IHp q IHq|p IHp q IHq] mu mu' x //= H Hx.
  - rewrite /upd. have -> : [seq mu y | y <- todo] = [seq mu' y | y <- todo] by apply/eq_in_map => y /H.
    by case: eqP.
  - by apply: IHq => [y Hy|]; apply: IHp => // *; apply: H; apply/orP; auto.
  - by apply: IHq => [y Hy|]; apply: IHp => // *; apply: H; apply/orP; auto.
Qed.

(** written cells do not depend on their old value unless read *)
Lemma step_foot p mu p' mu' : step p mu p' mu' ->
  [/\ forall x, writes p' x -> writes p x, forall x, reads p' x -> reads p x &
      forall x, ~~ writes p x -> mu' x = mu x].
Proof.
  elim=> {p mu p' mu'} [a f got x todo mu|a f got mu|p mu p' mu' q _ [H1 H2 H3]|q mu|p mu p' mu' q _ [H1 H2 H3]|p q mu q' mu' _ [H1 H2 H3]|mu] /=.
  - by split=> // y Hy; rewrite inE Hy orbT.
  - by split=> // y /negbTE; rewrite /upd => ->.
  - by split=> [x /orP [/H1 ->|->]|x /orP [/H2 ->|->]|x]; rewrite ?orbT // negb_or => /andP [/H3].
  - by split.
  - by split=> [x /orP [/H1 ->|->]|x /orP [/H2 ->|->]|x]; rewrite ?orbT // negb_or => /andP [/H3].
  - by split=> [x /orP [->|/H1 ->]|x /orP [->|/H2 ->]|x]; rewrite ?orbT // negb_or => /andP [_ /H3].
  - by split.
Qed.

Lemma indep_sub p q p' q' :
  (forall x, writes p' x -> writes p x) -> (forall x, reads p' x -> reads p x) ->
  (forall x, writes q' x -> writes q x) -> (forall x, reads q' x -> reads q x) ->
  indep p q -> indep p' q'.
Proof.
  move=> P1 P2 Q1 Q2 [H1 H2]; split=> x.
  - move=> /P1 /H1 /andP [A B]. by rewrite (contra (@Q1 x)) // (contra (@Q2 x)).
  - by move=> /Q1 /H2; apply: contra => /P2.
Qed.

Lemma step_run p mu p' mu' : step p mu p' mu' -> rf p -> rf p' /\ run p' mu' =1 run p mu.
Proof.
  elim=> {p mu p' mu'} [a f got x todo mu|a f got mu|p mu p' mu' q _ IH|q mu|p mu p' mu' q Hs IH|p q mu q' mu' Hs IH|mu] /=.
  - by split=> // y; rewrite cat_rcons.
  - by split=> // y; rewrite cats0.
  - by move=> [Hp Hq]; have [R E] := IH Hp; split=> //; apply: run_ext.
  - by move=> [_ ?].
  - move=> [Hp Hq Hi]. have [R E] := IH Hp. have [F1 F2 F3] := step_foot Hs.
    split; last by apply: run_ext.
    by split=> //; apply: indep_sub Hi.
  - move=> [Hp Hq [I1 I2]]. have [R E] := IH Hq. have [F1 F2 F3] := step_foot Hs.
    split; first by split=> //; apply: (@indep_sub p q).
    move=> x. case Wx: (writes q x).
    + have nW : ~~ writes p x by apply/negP => /I1; rewrite Wx.
      have nR y : reads q y -> ~~ writes p y by move=> Ry; apply/negP => /I1; rewrite Ry andbF.
      transitivity (run q' mu' x).
      { apply: run_local => [y /F2 /nR|]; exact: run_frame. }
      rewrite E. symmetry. apply: run_local => [y /nR|]; exact: run_frame.
    + have nW' : ~~ writes q' x by apply/negP => /F1; rewrite Wx.
      rewrite (run_frame _ nW') (run_frame (p := q)) ?Wx //. apply: run_local => [y Ry|]; apply: F3; last by rewrite Wx.
      by apply/negP => /I2; rewrite Ry.
  - by move=> [_ _ _].
Qed.

Lemma steps_run p mu p' mu' : steps p mu p' mu' -> rf p -> rf p' /\ run p' mu' =1 run p mu.
Proof.
  elim=> {p mu p' mu'} [p mu|p mu p' mu' p'' mu'' Hs _ IH] R; first by split.
  have [R' E'] := step_run Hs R. have [R'' E''] := IH R'. by split=> // x; rewrite E''.
Qed.

Lemma progress p mu : p = Done \/ exists p' mu', step p mu p' mu'.
Proof.
  elim: p mu => [|a f got todo|p IHp q IHq|p IHp q IHq] mu; [by left|right..].
  - case: todo => [|x todo]; do 2 eexists; by constructor.
  - case: (IHp mu) => [->|[p' [mu' H]]]; do 2 eexists; [exact: step_next|exact: step_seq H].
  - case: (IHp mu) => [->|[p' [mu' H]]]; last by do 2 eexists; exact: step_left H.
    case: (IHq mu) => [->|[q' [mu' H]]]; do 2 eexists; [exact: step_join|exact: step_right H].
Qed.

Fixpoint weight p : nat :=
  match p with
  | Done => 0
  | Upd _ _ _ todo => (size todo).+1
  | Seq p q => (weight p + weight q).+1
  | Par p q => (weight p + weight q).+1
  end.
Lemma step_weight p mu p' mu' : step p mu p' mu' -> weight p' < weight p.
Proof. elim=> {p mu p' mu'} //=; intros; lia. Qed.

Lemma terminates p mu : Acc (fun y x : cmd V * mem V => step x.1 x.2 y.1 y.2) (p, mu).
Proof.
  have [n] := ubnP (weight p). elim: n p mu => [|n IH] p mu Hn; first by exfalso; rewrite ltn0 in Hn.
  constructor=> -[p' mu'] /= /step_weight H. apply: IH. lia.
Qed.

Theorem schedule_ok p mu (Q : mem V -> Prop) : rf p ->
  (forall mu', mu' =1 run p mu -> Q mu') -> every_schedule p mu Q.
Proof.
  move=> R HQ. split.
  - exact: terminates.
  - by move=> p' mu' _; apply: progress.
  - move=> mu' /steps_run H. apply: HQ => x. have [_ <-] := H R. by [].
Qed.

Lemma every_done p mu (Q : mem V -> Prop) : every_schedule p mu Q -> exists mu', steps p mu Done mu' /\ Q mu'.
Proof.
  move=> [A P H]. suff [mu' S] : exists mu', steps p mu Done mu' by exists mu'; split=> //; apply: H.
  have [n] := ubnP (weight p). clear. elim: n p mu => [|n IH] p mu // Hn.
  case: (progress p mu) => [->|[p' [mu' S]]]; first by exists mu; constructor.
  have [mu'' S'] := IH p' mu' ltac:(have := step_weight S; lia). exists mu''. exact: steps_trans S S'.
Qed.

(** ** Sequences *)
Lemma indep_sym p q : indep p q -> indep q p.
Proof.
  move=> [H1 H2]; split=> x.
  - move=> Wq. rewrite (H2 _ Wq) andbT. apply/negP => /H1. by rewrite Wq.
  - by move=> /H1 /andP [].
Qed.
Lemma run_comm p q mu : indep p q -> run q (run p mu) =1 run p (run q mu).
Proof.
  move=> I x. have J := indep_sym I. move: I J => [I1 I2] [J1 J2].
  case Wq: (writes q x).
  - rewrite [RHS]run_frame; last by case/andP: (J1 _ Wq).
    apply: run_local => [y Ry|]; apply: run_frame; last by case/andP: (J1 _ Wq).
    by apply/negP => /J2; rewrite Ry.
  - rewrite [LHS]run_frame ?Wq //. symmetry. apply: run_local => [y Ry|]; apply: run_frame; rewrite ?Wq //.
    by apply/negP => /I2; rewrite Ry.
Qed.

Lemma writes_cseq ps x : writes (cseq ps) x = has (fun p => writes p x) ps.
Proof. by elim: ps => //= p ps ->. Qed.
Lemma reads_cseq ps x : reads (cseq ps) x = has (fun p => reads p x) ps.
Proof. by elim: ps => //= p ps ->. Qed.
Lemma writes_cpar ps x : writes (cpar ps) x = has (fun p => writes p x) ps.
Proof. by elim: ps => //= p ps ->. Qed.
Lemma reads_cpar ps x : reads (cpar ps) x = has (fun p => reads p x) ps.
Proof. by elim: ps => //= p ps ->. Qed.
Lemma run_cpar ps mu : run (cpar ps) mu = run (cseq ps) mu.
Proof. by elim: ps mu => //= p ps IH mu. Qed.

Lemma indep_has p qs : (forall q, List.In q qs -> indep p q) -> indep p (cpar qs).
Proof.
  move=> H. split=> x.
  - rewrite writes_cpar reads_cpar. elim: qs H => [|q qs IH] H //= Wp.
    rewrite !negb_or. have /andP [-> ->] := (H q (or_introl erefl)).1 _ Wp. apply: IH => // q' Hq. apply: H. by right.
  - rewrite writes_cpar. elim: qs H => [|q qs IH] H //= /orP [|].
    + by apply: (H q (or_introl erefl)).2.
    + apply: IH => q' Hq. apply: H. by right.
Qed.

Fixpoint pairwise_indep (ps : seq (cmd V)) : Prop :=
  match ps with [::] => True | p :: ps => (forall q, List.In q ps -> indep p q) /\ pairwise_indep ps end.
Lemma rf_cpar ps : (forall p, List.In p ps -> rf p) -> pairwise_indep ps -> rf (cpar ps).
Proof.
  elim: ps => [|p ps IH] //= H [I P]. split.
  - by apply: H; left.
  - by apply: IH => // q Hq; apply: H; right.
  - exact: indep_has.
Qed.
Lemma rf_cseq ps : (forall p, List.In p ps -> rf p) -> rf (cseq ps).
Proof.
  elim: ps => [|p ps IH] //= H. split; first by apply: H; left.
  by apply: IH => // q Hq; apply: H; right.
Qed.

Lemma In_map (T : eqType) W (f : T -> W) s y : List.In y [seq f x | x <- s] -> exists2 x, x \in s & y = f x.
Proof.
  elim: s => [|a s IH] //= [<-|/IH [x Hx ->]].
  - by exists a; rewrite ?inE ?eqxx.
  - by exists x; rewrite ?inE ?Hx ?orbT.
Qed.
Lemma writes_loop2 m n body x : writes (@loop2 V m n body) x -> exists i j, [/\ i < m, j < n & writes (body i j) x].
Proof.
  rewrite writes_cseq has_map => /hasP [i]. rewrite mem_iota add0n /= => Hi.
  rewrite writes_cseq has_map => /hasP [j]. rewrite mem_iota add0n /= => Hj Hw. by exists i, j.
Qed.
Lemma reads_loop2 m n body x : reads (@loop2 V m n body) x -> exists i j, [/\ i < m, j < n & reads (body i j) x].
Proof.
  rewrite reads_cseq has_map => /hasP [i]. rewrite mem_iota add0n /= => Hi.
  rewrite reads_cseq has_map => /hasP [j]. rewrite mem_iota add0n /= => Hj Hw. by exists i, j.
Qed.
Lemma loop2_writes m n body i j x : i < m -> j < n -> writes (body i j) x -> writes (@loop2 V m n body) x.
Proof.
  move=> Hi Hj Hw. rewrite writes_cseq has_map. apply/hasP. exists i; first by rewrite mem_iota.
  rewrite /= writes_cseq has_map. apply/hasP. by exists j; first by rewrite mem_iota.
Qed.
Lemma rf_loop2 m n body : (forall i j, rf (body i j)) -> rf (@loop2 V m n body).
Proof.
  move=> H. apply: rf_cseq => p Hp. have [i _ ->] := In_map Hp.
  apply: rf_cseq => q Hq. by have [j _ ->] := In_map Hq.
Qed.

(** a sequence in which only [body i] writes x, and nothing before writes what it reads *)
Lemma run_cseq_at (body : nat -> cmd V) s n i mu x : s <= i -> i < s + n ->
  (forall i', s <= i' < s + n -> i' != i -> ~~ writes (body i') x) ->
  (forall i' y, s <= i' < i -> reads (body i) y -> ~~ writes (body i') y) ->
  run (cseq [seq body j | j <- iota s n]) mu x = run (body i) mu x.
Proof.
  elim: n s mu => [|n IH] s mu Hs Hi Hw Hr /=; first lia.
  have [E|N] := eqVneq s i.
  - subst s. apply: run_frame. rewrite writes_cseq has_map. apply/hasPn => j. rewrite mem_iota => Hj. apply: Hw; lia.
  - rewrite IH; try lia.
    + apply: run_local => [y Ry|]; apply: run_frame.
      * apply: (Hr s y); [lia|exact: Ry].
      * apply: Hw; lia.
    + move=> i' H1 H2. apply: Hw; lia.
    + move=> i' y H1. apply: Hr; lia.
Qed.

Lemma run_loop2_at m n body i j mu x : i < m -> j < n ->
  (forall i' j', i' < m -> j' < n -> (i', j') != (i, j) -> ~~ writes (body i' j') x) ->
  (forall i1 j1 i2 j2 y, i1 < m -> j1 < n -> i2 < m -> j2 < n -> (i1, j1) != (i2, j2) ->
     reads (body i1 j1) y -> ~~ writes (body i2 j2) y) ->
  run (@loop2 V m n body) mu x = run (body i j) mu x.
Proof.
  move=> Hi Hj Hw Hr. rewrite /loop2.
  have E (mu0 : mem V) : run (cseq [seq body i j0 | j0 <- iota 0 n]) mu0 x = run (body i j) mu0 x.
  { apply: (@run_cseq_at (body i)); try lia.
    - move=> j' H1 H2. apply: Hw; try lia. by apply/negP => /eqP [] E; rewrite E eqxx in H2.
    - move=> j' y H1. apply: Hr; try lia. apply/negP => /eqP [] E; lia. }
  rewrite -E. apply: (@run_cseq_at (fun i => cseq [seq body i j | j <- iota 0 n])); try lia.
  - move=> i' H1 H2. rewrite writes_cseq has_map. apply/hasPn => j'. rewrite mem_iota => H3. apply: Hw; try lia.
    by apply/negP => /eqP [] E1 _; rewrite E1 eqxx in H2.
  - move=> i' y H1. rewrite reads_cseq has_map => /hasP [j1]. rewrite mem_iota => H2 H3.
    rewrite writes_cseq has_map. apply/hasPn => j'. rewrite mem_iota => H4.
    apply: (Hr i j1); try lia; last exact: H3. apply/negP => /eqP [] E1 _; lia.
Qed.
End Framework.
