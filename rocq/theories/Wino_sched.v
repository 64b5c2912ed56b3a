(** * Each Winograd schedule computes the product *)
From mathcomp Require Import all_ssreflect all_algebra zify ring.
From Verif Require Import Grid Perm_model Tri_model Wino_model Wino_spec Wino_proofs.
Set Implicit Arguments.
Unset Strict Implicit.
Unset Printing Implicit Defensive.
Import GRing.Theory.
Local Open Scope ring_scope.

Lemma max_facts mr nr kr : [/\ (mr * nr <= mr * maxn nr kr)%N && (mr * kr <= mr * maxn nr kr)%N,
  (mr * nr <= maxn mr kr * nr)%N && (kr * nr <= maxn mr kr * nr)%N,
  (nr <= maxn nr kr)%N && (kr <= maxn nr kr)%N, (mr <= maxn mr kr)%N && (kr <= maxn mr kr)%N
  & maxn kr mr = maxn mr kr].
Proof.
by split; rewrite ?(leq_mul2l, leq_mul2r) ?leq_maxl ?leq_maxr ?orbT // maxnC.
Qed.

Section Sched.
Variable F : comRingType.
Variables (ta tb : transp).
Variable gemm : product F.
Local Open Scope nat_scope.

Ltac bounds s z := apply: soks0;
  cbv [soks s shape0 sset srok fits key_eq okey old_ sm sn sld A11 A12 A21 A22 B11 B12 B21 B22
       C11 C12 C21 C22 eqn eqb addb negb z la ca lb cb];
  match goal with |- context [maxn] => let H := fresh in
      match goal with h : gemm_right _ ?m ?n ?k |- _ => have H := max_facts m n k;
        clear h; move: (maxn n k) (maxn m k) (maxn k m) H => ? ? ? [? ? ? ? ?] end
  | _ => idtac end;
  case: (ta); case: (tb); repeat split; rewrite ?leqnn //; lia.

Ltac algebra s := let i := fresh in let j := fresh in move=> i j;
  case: i j => -[]; (split; [by case: (ta)|by case: (ta)|move=> p q]); rewrite /quad;
  lazy [arun aexec s eset key_eq okey cg A11 A12 A21 A22 B11 B12 B21 B22 C11 C12 C21 C22 eg
        env0 eqn eqb addb negb];
  rewrite ?(prBl, prDl, prBr, prDr); ring.


Local Notation computes_wino l z mr nr kr alpha beta := (forall M,
  is_gemm ta tb (2 * mr) (2 * nr) (2 * kr) alpha (mA M) (mB M) beta (mC M)
    (mC (run ta tb mr nr kr z gemm l M))).

Section Gen.
Variables (mr nr kr : nat) (alpha beta : F).
Hypothesis gemmP : gemm_right gemm mr nr kr.

Ltac go s z := move=> M; apply: sched_ok => //; [by bounds s z|by algebra s].

Lemma winograd_ok : computes_wino (winograd ta tb mr nr kr alpha) (winograd_sz mr nr kr) mr nr kr alpha 0%R.
Proof. go winograd winograd_sz. Qed.

Lemma winopar_ok : computes_wino (winopar ta tb mr nr kr alpha) (winopar_sz mr nr kr) mr nr kr alpha 0%R.
Proof. go winopar winopar_sz. Qed.

Lemma winograd_acc_3_23_ok :
  computes_wino (winograd_acc_3_23 ta tb mr nr kr alpha beta) (acc3_sz mr nr kr) mr nr kr alpha beta.
Proof. go winograd_acc_3_23 acc3_sz. Qed.

Lemma winograd_acc_3_21_ok :
  computes_wino (winograd_acc_3_21 ta tb mr nr kr alpha beta) (acc3_sz mr nr kr) mr nr kr alpha beta.
Proof. go winograd_acc_3_21 acc3_sz. Qed.

Lemma winograd_acc_2_24_ok :
  computes_wino (winograd_acc_2_24 ta tb mr nr kr alpha beta) (acc2_24_sz mr nr kr) mr nr kr alpha beta.
Proof. go winograd_acc_2_24 acc2_24_sz. Qed.

Lemma winograd_acc_2_27_ok :
  computes_wino (winograd_acc_2_27 ta tb mr nr kr alpha beta) (acc2_27_sz mr nr kr) mr nr kr alpha beta.
Proof. go winograd_acc_2_27 acc2_27_sz. Qed.

Lemma winograd_acc_LR_ok :
  computes_wino (winograd_acc_LR ta tb mr nr kr alpha beta) (acc_LR_sz mr nr kr) mr nr kr alpha beta.
Proof. go winograd_acc_LR acc_LR_sz. Qed.

End Gen.

Section Square.
Variables (s : nat) (alpha beta : F).
Hypothesis gemmP : gemm_right gemm s s s.

Ltac go c z := move=> M; apply: sched_ok => //; [by bounds c z|by algebra c].

Lemma winograd_LR_S_ok sz : computes_wino (winograd_LR_S ta tb s s s alpha) sz s s s alpha 0%R.
Proof. go winograd_LR_S la. Qed.

Lemma winograd_L_S_ok : computes_wino (winograd_L_S ta tb s s s alpha) (ip_sz s s) s s s alpha 0%R.
Proof. go winograd_L_S ip_sz. Qed.

Lemma winograd_R_S_ok : computes_wino (winograd_R_S ta tb s s s alpha) (ip_sz s s) s s s alpha 0%R.
Proof. go winograd_R_S ip_sz. Qed.

Lemma winograd_acc_R_S_ok :
  computes_wino (winograd_acc_R_S ta tb s s s alpha beta) (acc_S_sz s s s) s s s alpha beta.
Proof. go winograd_acc_R_S acc_S_sz. Qed.

Lemma winograd_acc_L_S_ok :
  computes_wino (winograd_acc_L_S ta tb s s s alpha beta) (acc_S_sz s s s) s s s alpha beta.
Proof. go winograd_acc_L_S acc_S_sz. Qed.

End Square.
End Sched.
