From Coq Require Import Arith.
From mathcomp Require Import all_ssreflect ssralg ssrint zify.
From Verif Require Import Cuts_model Cuts_spec Cuts_proofs Par_model Par_spec Par_proofs Par2_proofs Par3_proofs Par4_proofs Par5_proofs.
Set Implicit Arguments.
Unset Strict Implicit.
Unset Printing Implicit Defensive.
Import GRing.Theory.

Lemma natdiv a b : 0 < b -> Nat.div a b = a %/ b /\ Nat.modulo a b = a %% b.
Proof.
  move=> Hb. have H1 : (a %% b < b)%coq_nat by apply/ltP; rewrite ltn_mod.
  have H2 : a = (b * (a %/ b) + a %% b)%coq_nat by rewrite {1}(divn_eq a b) mulnC.
  split; symmetry; [exact: (Nat.div_unique _ _ _ _ H1 H2)|exact: (Nat.mod_unique _ _ _ _ H1 H2)].
Qed.

(** ** pfzero *)
Section Zero.
Variables (V : ringType) (RA RB : seq nat).
Local Open Scope ring_scope.
Notation good := (good false false (0 : V) RA RB).

Lemma good_zero own m n A B C : (n <= vld C)%N ->
  good own m n 0 A B 0 C (loop2 m n (fun i j => Upd (cell C i j) (fun=> 0) [::] [::])).
Proof.
  move=> Hn. split.
  - by apply: rf_loop2.
  - move=> x /writes_loop2 [i [j [Hi Hj /= /eqP ->]]]. left. by exists i, j.
  - by move=> x /reads_loop2 [i [j [Hi Hj]]].
  - move=> mu i j Hi Hj. rewrite (@run_loop2_at _ m n _ i j) //.
    + by rewrite /= /upd eqxx /product !mul0r addr0.
    + move=> i' j' Hi' Hj' /=. apply: contra => /eqP /cell_inj [||-> ->] //; lia.
Qed.
End Zero.

Definition RA0 (C : view) : seq nat := 0 :: vreg C.
Lemma RA0_neq C : vreg C <> RA0 C.
Proof. move=> /(congr1 size) /=. lia. Qed.
Lemma env0 C n : n <= vld C -> env (RA0 C) (RA0 C) no_tmp n (View (RA0 C) 0 0) (View (RA0 C) 0 0) C.
Proof. move=> H. split=> //. by split; apply: RA0_neq. Qed.

Definition zero_rect (V : ringType) (C : view) (t : nat * nat * nat * nat) : cmd V :=
  let '(ib, ie, jb, je) := t in
  loop2 (ie - ib) (je - jb) (fun i j => Upd (cell (sub C ib jb) i j) (fun=> 0%R) [::] [::]).

Lemma zero_rect_good (V : ringType) m n C l t : inside_disjoint2 m n l -> n <= vld C -> List.In t l ->
  good false false (0%R : V) (RA0 C) (RA0 C) no_tmp (t.1.1.2 - t.1.1.1) (t.2 - t.1.2) 0
    (opsub false (View (RA0 C) 0 0) t.1.1.1 0) (opsub false (View (RA0 C) 0 0) 0 t.1.2) 0%R (sub C t.1.1.1 t.1.2) (zero_rect V C t).
Proof.
  move=> Hd Hn. case: t => [[[ib ie] jb] je] Hin /=.
  case: (posnP (ie - ib)) => [->|Hp]; first by apply: good_done.
  apply: good_zero => /=. case: (posnP (je - jb)) => [->|Hq] //.
  have V1 : (0 < visits2 ib je.-1 l)%N by apply: (@visits2_in ib ie jb je); [|lia|lia].
  have [_ ?] := inside_lt Hd V1. lia.
Qed.

Theorem pfzero_ok (V : ringType) bs m n C mu : bs <> 0 -> 0 < m -> 0 < n -> n <= vld C ->
  m %% minn m bs <= m %/ minn m bs -> n %% minn n bs <= n %/ minn n bs ->
  exists2 P, pfzero V bs m n C = Some P & every_schedule P mu (zeroed m n C mu).
Proof.
  move=> Hb Hm Hn Hl. rewrite /pfzero.
  have M1 : 0 < minn m bs by lia. have M2 : 0 < minn n bs by lia.
  have X1 : Nat.max (Nat.min m bs) 1 = minn m bs by lia. have X2 : Nat.max (Nat.min n bs) 1 = minn n bs by lia.
  move=> C1 C2.
  have [l [-> Hc]] : exists l, for2d CBlock PGrain m n bs (m * n) = Some l /\ covers_once2 m n l.
  { apply/(@for2d_exact_iff _ _ _ _ _ _ (Nat.max (Nat.min m bs) 1) (Nat.max (Nat.min n bs) 1)) => //; [exact/ltP|exact/ltP|].
    rewrite X1 X2.
    have [-> ->] := natdiv m M1. have [-> ->] := natdiv n M2.
    by split; apply/leP. }
  eexists; first reflexivity.
  have G := @good_rects V false false 0%R (RA0 C) (RA0 C) m n 0 _ _ 0%R C (zero_rect V C) l (env0 Hl) Hc
     (fun t => @zero_rect_good V m n C l t (covers_inside Hc) Hl).
  apply: schedule_ok; first exact: (g_rf G). move=> mu' E. split.
  - move=> i j Hi Hj. rewrite E. etransitivity; first exact: (g_v G). by rewrite /product !mul0r addr0.
  - move=> x Hx. rewrite E run_frame //. by apply/negP => /(g_w G) [].
Qed.

Theorem pfzero_misses (V : ringType) bs m n C mu : bs <> 0 -> 0 < m -> 0 < n -> n <= vld C ->
  ~~ ((m %% minn m bs <= m %/ minn m bs) && (n %% minn n bs <= n %/ minn n bs)) ->
  exists i j, [/\ i < m, j < n & exists2 P, pfzero V bs m n C = Some P &
    every_schedule P mu (fun mu' => mu' (cell C i j) = mu (cell C i j))].
Proof.
  move=> Hb Hm Hn Hl. rewrite /pfzero.
  have M1 : 0 < minn m bs by lia. have M2 : 0 < minn n bs by lia.
  have X1 : Nat.max (Nat.min m bs) 1 = minn m bs by lia. have X2 : Nat.max (Nat.min n bs) 1 = minn n bs by lia.
  move=> Hno.
  have [|l [Hf Hd]] := @for2d_safe CBlock PGrain m n bs (m * n) _ (le_n _); first lia.
  have Hnc : ~ covers_once2 m n l.
  { move=> Hc. move/negP: Hno; apply.
    have := proj1 (@for2d_exact_iff CBlock PGrain m n bs (m * n) (Nat.max (Nat.min m bs) 1) (Nat.max (Nat.min n bs) 1) Hb (le_n _) (ltP Hm) (ltP Hn) erefl) (ex_intro _ l (conj Hf Hc)).
    rewrite X1 X2.
    have [-> ->] := natdiv m M1. have [-> ->] := natdiv n M2.
    by move=> [/leP -> /leP ->]. }
  clear Hno. have [i [j [Hi Hj Hv]]] : exists i j, [/\ i < m, j < n & visits2 i j l = 0].
  { case HX : (has (fun i => has (fun j => visits2 i j l == 0) (iota 0 n)) (iota 0 m)).
    - move/hasP: HX => [i]; rewrite mem_iota => Hi /hasP [j]; rewrite mem_iota => Hj /eqP Hv. by exists i, j.
    - case: Hnc => i j. move: (Hd i j). case: Nat.ltb_spec0 => Hi; case: Nat.ltb_spec0 => Hj /=; try lia.
      move/hasPn: HX => /(_ i). rewrite mem_iota => /(_ ltac:(lia)) /hasPn /(_ j). rewrite mem_iota => /(_ ltac:(lia)). lia. }
  exists i, j. split=> //. rewrite Hf. eexists; first reflexivity.
  have [G1 G2] := @rects_ok V false false 0%R (RA0 C) (RA0 C) m n 0 _ _ 0%R C (zero_rect V C) l (env0 Hl) Hd
     (fun t => @zero_rect_good V m n C l t Hd Hl).
  have [I1 I2 I3 I4 I5] := tiles_ok G1 G2. rewrite -map_comp in I2 I3.
  apply: schedule_ok; first exact: I2. move=> mu' ->. apply: run_frame. apply/negP => /I3 [t Hin].
  have [[[[ib ie] jb] je] Ht ->] := In_map2 Hin. move=> [|[]] [i' [j' [/= Hi' Hj']]]. rewrite cell_sub.
  have V1 : (0 < visits2 (ib + i') (jb + j') l)%N by apply: (@visits2_in ib ie jb je); [|lia|lia].
  have [? ?] := inside_lt Hd V1. move=> /cell_inj [||E1 E2]; [lia|lia|].
  move: V1. by rewrite -E1 -E2 Hv.
Qed.
