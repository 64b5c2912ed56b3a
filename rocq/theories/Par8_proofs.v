From Coq Require Import Arith.
From mathcomp Require Import all_ssreflect ssralg ssrint zify.
From Verif Require Import Cuts_model Cuts_spec Cuts_proofs Par_model Par_spec Par_proofs Par2_proofs Par3_proofs Par4_proofs Par5_proofs Par6_proofs Par7_proofs.
Set Implicit Arguments.
Unset Strict Implicit.
Unset Printing Implicit Defensive.
Import GRing.Theory.

(** ** Deciding race freedom of a concrete program *)
Section Dec.
Variable V : Type.
Fixpoint wlist (p : cmd V) : seq addr :=
  match p with Done => [::] | Upd a _ _ _ => [:: a] | Seq p q | Par p q => wlist p ++ wlist q end.
Fixpoint rlist (p : cmd V) : seq addr :=
  match p with Done => [::] | Upd _ _ _ l => l | Seq p q | Par p q => rlist p ++ rlist q end.
Lemma wlistP p x : writes p x = (x \in wlist p).
Proof. elim: p => [|a f g l|p IHp q IHq|p IHp q IHq] //=; rewrite ?inE // mem_cat IHp IHq //. Qed.
Lemma rlistP p x : reads p x = (x \in rlist p).
Proof. elim: p => [|a f g l|p IHp q IHq|p IHp q IHq] //=; rewrite mem_cat IHp IHq //. Qed.
Fixpoint rfb (p : cmd V) : bool :=
  match p with
  | Done | Upd _ _ _ _ => true
  | Seq p q => rfb p && rfb q
  | Par p q => [&& rfb p, rfb q, all (fun x => (x \notin wlist q) && (x \notin rlist q)) (wlist p)
                 & all (fun x => x \notin rlist p) (wlist q)]
  end.
Lemma rfbP p : rfb p -> rf p.
Proof.
  elim: p => [|a f g l|p IHp q IHq|p IHp q IHq] //=; first by move=> /andP [/IHp ? /IHq ?].
  move=> /and4P [/IHp ? /IHq ? /allP H1 /allP H2]. split=> //. split=> x; rewrite !wlistP rlistP.
  - exact: H1.
  - exact: H2.
Qed.
End Dec.

Local Open Scope ring_scope.

(** memory of ones *)
Definition ones : mem int := fun=> 1.

(** ** pfgemm, ThreeDAdaptive *)
Lemma pf_3da_fails T :
  let A := View [:: 0%N] 0 (T + 3) in let B := View [:: 1%N] 0 (T + 2) in let C := View [:: 2%N] 0 (T + 2) in
  every_schedule (pf_3da T false false (1 : int) 2 [:: 3%N] 2 (T + 1) (T + 2) (T + 3) A B 1 C) ones
    (fun mu' => mu' (cell C 0 (T + 1)) <> product false false (T + 3) (1 : int) A B 1 C ones 0 (T + 1) /\
                mu' (cell C (T + 1) 0) <> ones (cell C (T + 1) 0)).
Proof.
  move=> A B C.
  set m := (T + 1)%N. set n := (T + 2)%N. set k := (T + 3)%N. set C2 := View [:: 3%N; 2%N] 0 n.
  set L1 := fgemm_seq false false m n k./2 (1 : int) A B 1 C.
  set L2 := fgemm_seq false false m n (k - k./2) (1 : int) (opsub false A 0 k./2) (opsub false B k./2 0) 0 C2.
  have -> : pf_3da T false false (1 : int) 2 [:: 3%N] 2 m n k A B 1 C = Seq (cpar [:: L1; L2]) (faddin _ n m C2 C).
  { have S1 j : small3 T 1 m n j = true by [].
    have S2 : small3 T 2 m n k = false.
    { rewrite /small3 /= /m /n /k. apply/negbTE. rewrite -ltnNge !leq_min. nia. }
    have Z1 : (m == 0)%N = false by rewrite /m; lia. have Z2 : (n == 0)%N = false by rewrite /n; lia.
    have Z3 : (k == 0)%N = false by rewrite /k; lia. have Z4 : (k < m)%N = false by rewrite /k /m; lia.
    have Z5 : (k < n)%N = false by rewrite /k /n; lia. have Z6 : (k./2 == 0)%N = false by rewrite /k; lia.
    have Z7 : (k - k./2 == 0)%N = false by rewrite /k; lia.
    have O : ((1 : int) == 0) = false by [].
    rewrite [LHS]/pf_3da Z1 Z2 Z3 O S2 Z4 Z5 /= Z6 Z7 //. }
  have nC : (n <= vld C)%N by []. have nC2 : (n <= vld C2)%N by [].
  pose ts := [:: Tile no_tmp m n k./2 A B 1 C L1;
    Tile no_tmp m n (k - k./2) (opsub false A 0 k./2) (opsub false B k./2 0) 0 C2 L2].
  have Hg t : List.In t ts -> tgood false false 1 [:: 0%N] [:: 1%N] t.
  { move=> [<-|[<-|[]]]; split=> //=; apply: good_leaf => //. }
  have Hd : pdis ts.
  { split=> //= s [<-|[]] //. split=> //= x; try by move=> _ []. by move=> /win_reg /= E1 /win_reg /=; rewrite E1. }
  have [I1 I2 I3 I4 I5] := tiles_ok Hg Hd. change (cpar [:: L1; L2]) with (cpar [seq t_P t | t <- ts]).
  set p1 := cpar _ in I2 I3 I5 *. apply: schedule_ok; first by split=> //; apply: rf_loop2.
  have j1 : (m < n)%N by rewrite /m /n; lia.
  move=> mu' E. rewrite !E. change (run (Seq p1 (faddin int_Ring n m C2 C)) ones) with (run (faddin int_Ring n m C2 C) (run p1 ones)). split.
  - rewrite run_frame; last first.
    { apply/negP => /faddin_w [i [j [Hi Hj /cell_inj [||_ Ej]]]]; rewrite /= ?/m ?/n; [lia|rewrite /m in Hj; lia|]. rewrite -Ej ltnn in Hj. by []. }
    have := I5 ones (Tile no_tmp m n k./2 A B 1 C L1) 0%N m (or_introl erefl) ltac:(by rewrite /m addn1) j1.
    rewrite /= => ->. rewrite /product /ones !mulr1 !mul1r !sumr_const !card_ord => /addIr /eqP.
    rewrite !natz eqz_nat /k. lia.
  - have F x : ~ in_win C m n x -> ~ in_win C2 m n x -> run p1 ones x = 1.
    { move=> H1 H2. apply: run_frame. by apply/negP => /I3 [t [<-|[<-|[]]] /= [|//]]. }
    have -> : run (faddin _ n m C2 C) (run p1 ones) (cell C m 0) = 2%:Z; last by [].
    rewrite faddin_ok //; [|by rewrite /m; lia|by rewrite /= /m /n; lia].
    rewrite !F //.
    all: try by move=> [i [j [_ _ []]]].
    all: move=> [i [j [Hi Hj /cell_inj [||Ei _]]]]; rewrite /= ?/m ?/n; [lia|rewrite /n in Hj; lia|]; by rewrite -Ei ltnn in Hi.
Qed.

(** ** pfgemv, transposed *)
Definition gemv_mem : mem int := fun a => if a.1 == [:: 0%N] then a.2%:Z else 1.
Lemma pgemv_trans_fails :
  let A := View [:: 0%N] 0 4 in let X := View [:: 1%N] 0 1 in let Y := View [:: 2%N] 0 1 in
  exists2 P, pgemv_rec 2 2 true 3 4 (1 : int) A X 0 Y = Some P &
  every_schedule P gemv_mem (fun mu' => mu' (cell Y 2 0) <> product true false 3 (1 : int) A X 0 Y gemv_mem 2 0).
Proof.
  move=> A X Y. case E : (pgemv_rec 2 2 true 3 4 (1 : int) A X 0 Y) => [P|]; last by move: E; vm_compute.
  exists P; first by []. have R : rfb P by move: E => [<-]; vm_compute.
  apply: schedule_ok; first exact: rfbP. move=> mu' ->.
  have -> : run P gemv_mem (cell Y 2 0) = 24%:Z by move: E => [<-]; vm_compute.
  by rewrite /product !big_ord_recl big_ord0; vm_compute.
Qed.
Lemma pgemv_nothread (V : ringType) fuel ta m n (alpha : V) A X beta Y : (1 < m)%N -> ta = true ->
  pgemv_rec fuel 0 ta m n alpha A X beta Y = None.
Proof.
  move=> Hm ->. elim: fuel n A Y => [|f IH] n A Y /=; rewrite leqNgt Hm //=. by rewrite IH.
Qed.
(** ** pfdot, fixed block size *)
Lemma pfdot_fixed_fails :
  let x := View [:: 0%N] 0 1 in let y := View [:: 1%N] 0 1 in let z := View [:: 2%N] 0 0 in let d := ([:: 3%N], 0%N) in
  exists2 P, pfdot _ PFixed 1 512 x y z d = Some P &
  every_schedule P (fun=> 1 : int) (fun mu' =>
    mu' d = 257%:Z /\ mu' (cell z 0 1) = 256%:Z).
Proof.
  move=> x y z d. rewrite /pfdot. have -> : for1d PFixed 512 1 512 = Some [:: (0, 256); (256, 512)]%N by vm_compute.
  eexists; first reflexivity.
  have [R1 R2 R3 R4] := @pfdot_run _ 1 x y z d (fun=> 1 : int) [:: (0, 256); (256, 512)]%N ltac:(by []) ltac:(by []) ltac:(by []) ltac:(by []) ltac:(by []).
  have S1 : bdot x y (fun=> 1 : int) (0, 256)%N = 256%:Z by rewrite /bdot mulr1 sumr_const card_ord natz.
  have S2 : bdot x y (fun=> 1 : int) (256, 512)%N = 256%:Z by rewrite /bdot mulr1 sumr_const card_ord natz.
  apply: schedule_ok; first exact: R1. move=> mu' E. split.
  - rewrite E R2 !big_ord_recl big_ord0. rewrite [X in _ + (X + _)](_ : _ = bdot x y (fun=> 1 : int) (0, 256)%N); last by []. rewrite S1. by [].
  - rewrite E. etransitivity; first by apply: R3. exact: S2.
Qed.

(** ** The products, for every schedule *)
Lemma separate_env pth n A B C : separate pth n A B C ->
  env (vreg A) (vreg B) (owned pth) n A B C /\ env (vreg A) (vreg B) no_tmp n A B C.
Proof. by move=> [H1 H2 H3 H4]; split; split. Qed.

Section Products.
Variables (V : ringType) (df : bool) (T : nat) (ta tb : bool) (alpha : V).
Variables (fuel nt m n k : nat) (A B : view) (beta : V) (C : view) (pth : seq nat) (mu : mem V).
Hypothesis S : separate pth n A B C.
Notation ok P := (every_schedule P mu (is_product ta tb m n k alpha A B beta C pth mu)).

Lemma sched_block : nt <> 0%N -> exists2 P, pf_block T nt ta tb m n k alpha A B beta C = Some P & ok P.
Proof.
  move=> Ht. have [_ E] := separate_env S. have [P -> G] := @good_block V ta tb alpha _ _ T nt m n k A B beta C Ht E.
  exists P; first by []. by apply: (good_schedule mu E _ G).
Qed.
Lemma sched_2da : ok (pf_2da T ta tb alpha fuel nt m n k A B beta C).
Proof. have [_ E] := separate_env S. by apply: (good_schedule mu E _ (good_2da T ta tb alpha fuel nt m k beta E)). Qed.
Lemma sched_2d : ok (pf_2d T ta tb alpha fuel nt m n k A B beta C).
Proof. have [_ E] := separate_env S. by apply: (good_schedule mu E _ (good_2d T ta tb alpha fuel nt m k beta E)). Qed.
Lemma sched_3dip : ok (pf_3dip df T ta tb alpha fuel nt m n k A B beta C).
Proof. have [_ E] := separate_env S. by apply: (good_schedule mu E _ (good_3dip df T ta tb alpha fuel nt m k beta E)). Qed.
Lemma sched_3d : ok (pf_3d df T ta tb alpha fuel pth nt m n k A B beta C).
Proof. have [E _] := separate_env S. by apply: (good_schedule mu E _ (good_3d df T ta tb alpha fuel nt m k beta E)). Qed.
Lemma sched_3da : square_k T fuel nt m n k -> ok (pf_3da T ta tb alpha fuel pth nt m n k A B beta C).
Proof. move=> Q. have [E _] := separate_env S. by apply: (good_schedule mu E _ (good_3da ta tb alpha beta E Q)). Qed.
End Products.

Section Vectors.
Variables (V : ringType) (alpha : V) (nt m n : nat) (A X : view) (beta : V) (Y : view) (pth : seq nat) (mu : mem V).
Hypothesis S : separate pth 1 A X Y.
Lemma sched_gemv_row pa ta : (pa = PGrain -> nt <> 0%N) ->
  exists2 P, pgemv_row pa nt ta m n alpha A X beta Y = Some P &
    every_schedule P mu (is_product ta false (if ta then n else m) 1 (if ta then m else n) alpha A X beta Y pth mu).
Proof.
  move=> Ht. have [_ E] := separate_env S. have [P -> G] := @good_pgemv_row V ta alpha _ _ pa nt m n A X beta Y Ht E.
  exists P; first by []. by apply: (good_schedule mu E _ G).
Qed.
Lemma sched_gemv_rec : nt <> 0%N ->
  exists2 P, pgemv_rec nt nt false m n alpha A X beta Y = Some P &
    every_schedule P mu (is_product false false m 1 n alpha A X beta Y pth mu).
Proof.
  move=> Ht. have [_ E] := separate_env S. have [P -> G] := @good_pgemv_rec V alpha _ _ nt nt m n A X beta Y Ht (leqnn _) E.
  exists P; first by []. by apply: (good_schedule mu E _ G).
Qed.
End Vectors.
