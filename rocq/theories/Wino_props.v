(** * C10, C11, C12, C50: Winograd products *)
From mathcomp Require Import all_ssreflect all_algebra.
From Verif Require Import Grid Lit Perm_model Tri_model Wino_model Wino_spec Wino_rec.
Set Implicit Arguments.
Unset Strict Implicit.
Unset Printing Implicit Defensive.
Local Open Scope ring_scope.
Import GRing.Theory.

(** Memory for the examples: the temporaries contain garbage. *)
Definition wjunk (id p : nat) : 'F_7 := (3 * id + 2 * p + 5)%:R.
Definition WA : grid 'F_7 := gl 7 [:: [:: 1; 2; 3; 4]; [:: 5; 6; 0; 1]; [:: 2; 3; 4; 5]; [:: 6; 0; 1; 2]]%N.
Definition WB : grid 'F_7 := gl 7 [:: [:: 3; 1; 4; 1]; [:: 5; 2; 6; 5]; [:: 3; 5; 1; 2]; [:: 0; 3; 2; 1]]%N.
Definition WC : grid 'F_7 := gl 7 [:: [:: 1; 1; 2; 3]; [:: 5; 1; 6; 0]; [:: 2; 4; 1; 5]; [:: 3; 3; 6; 1]]%N.

(** C10. Given a product right on m x n x k blocks, the schedule Winograd, and
    the sequential order of the tasks of WinoPar, leave alpha op(A) op(B) in
    the 2m x 2n window of C, nothing else of C changed, A and B unchanged,
    whatever C and the temporaries contained. *)
Theorem C10_Winograd : forall (F : comRingType) g ta tb m n k alpha (M : mem F), gemm_right g m n k ->
  let M1 := run ta tb m n k (winograd_sz m n k) g (winograd ta tb m n k alpha) M in
  let M2 := run ta tb m n k (winopar_sz m n k) g (winopar ta tb m n k alpha) M in
  [/\ is_gemm ta tb (2 * m) (2 * n) (2 * k) alpha (mA M) (mB M) 0 (mC M) (mC M1),
      is_gemm ta tb (2 * m) (2 * n) (2 * k) alpha (mA M) (mB M) 0 (mC M) (mC M2),
      mA M1 = mA M /\ mB M1 = mB M & mA M2 = mA M /\ mB M2 = mB M].
Proof. exact nobeta_all. Qed.
Print Assumptions C10_Winograd.

Example C10_case :
  out 4 4 (mC (run Trans NoTrans 1 2 2 (winograd_sz 1 2 2) (@wgemm _)
     (winograd Trans NoTrans 1 2 2 (2%:R : 'F_7)) (Mem WA WB WC wjunk))) =
  [:: [:: 5; 1; 5; 2]; [:: 6; 2; 3; 6]; [:: 2; 4; 1; 5]; [:: 3; 3; 6; 1]]%N.
Proof. by vm_compute. Qed.

(** C11. The four accumulating schedules. *)
Theorem C11_WinogradAcc : forall (F : comRingType) g ta tb m n k alpha beta (M : mem F), gemm_right g m n k ->
  let ok l sz := let M' := run ta tb m n k sz g l M in
    is_gemm ta tb (2 * m) (2 * n) (2 * k) alpha (mA M) (mB M) beta (mC M) (mC M') /\
    mA M' = mA M /\ mB M' = mB M in
  [/\ ok (winograd_acc_3_23 ta tb m n k alpha beta) (acc3_sz m n k),
      ok (winograd_acc_3_21 ta tb m n k alpha beta) (acc3_sz m n k),
      ok (winograd_acc_2_24 ta tb m n k alpha beta) (acc2_24_sz m n k) &
      ok (winograd_acc_2_27 ta tb m n k alpha beta) (acc2_27_sz m n k)].
Proof. exact acc_all. Qed.
Print Assumptions C11_WinogradAcc.

Example C11_case :
  out 3 4 (mC (run NoTrans Trans 1 2 1 (acc3_sz 1 2 1) (@wgemm _)
     (winograd_acc_3_21 NoTrans Trans 1 2 1 (2%:R : 'F_7) 3%:R) (Mem WA WB WC wjunk))) =
  [:: [:: 6; 0; 4; 0]; [:: 1; 0; 3; 1]; [:: 2; 4; 1; 5]]%N.
Proof. by vm_compute. Qed.

(** C12. The recursive product with peeling, with WINOTHRESHOLD at least 2, at
    any recursion level (or the level chosen by WinogradSteps), given enough
    fuel: the result is that of the classical product. *)
Theorem C12_fgemm_winograd : forall (F : comRingType) fuel th junk lvl m n k, (2 <= th)%N ->
  (2 * (m + n + k) + (if lvl is Some w then w + 2 else 1) <= fuel)%N ->
  gemm_right (@fgemm_winograd F fuel th junk lvl) m n k.
Proof. exact fgemm_winograd_ok. Qed.
Print Assumptions C12_fgemm_winograd.

Example C12_case :
  out 4 4 (@fgemm_winograd [comRingType of 'F_7] 30 2 wjunk None NoTrans Trans 3%N 4%N 3%N 2%:R WA WB 3%:R WC) =
  out 4 4 (@wgemm [comRingType of 'F_7] NoTrans Trans 3%N 4%N 3%N 2%:R WA WB 3%:R WC) /\
  out 4 4 (@fgemm_winograd [comRingType of 'F_7] 40 2 wjunk (Some 2%N) NoTrans Trans 3%N 4%N 3%N 2%:R WA WB 0 WC) =
  out 4 4 (@wgemm [comRingType of 'F_7] NoTrans Trans 3%N 4%N 3%N 2%:R WA WB 0 WC).
Proof. by vm_compute. Qed.

(** C50. In-place accumulating schedules, under the conditions they check. *)
Theorem C50_WinogradAcc_in_place : forall (F : comRingType) g ta tb m n k alpha beta (M : mem F),
  gemm_right g m n k ->
  let ok l sz := is_gemm ta tb (2 * m) (2 * n) (2 * k) alpha (mA M) (mB M) beta (mC M)
                   (mC (run ta tb m n k sz g l M)) in
  ok (winograd_acc_LR ta tb m n k alpha beta) (acc_LR_sz m n k) /\
  (m = n -> k = n ->
   ok (winograd_acc_R_S ta tb m n k alpha beta) (acc_S_sz m n k) /\
   ok (winograd_acc_L_S ta tb m n k alpha beta) (acc_S_sz m n k)).
Proof. exact acc_ip_all. Qed.
Print Assumptions C50_WinogradAcc_in_place.

(** The other in-place schedules, on square blocks only. *)
Theorem C50_Winograd_in_place_partial : forall (F : comRingType) g ta tb m n k alpha (M : mem F),
  gemm_right g m n k -> m = n -> k = n ->
  let ok l sz := is_gemm ta tb (2 * m) (2 * n) (2 * k) alpha (mA M) (mB M) 0 (mC M)
                   (mC (run ta tb m n k sz g l M)) in
  [/\ forall sz, ok (winograd_LR_S ta tb m n k alpha) sz,
      ok (winograd_L_S ta tb m n k alpha) (ip_sz m n) &
      ok (winograd_R_S ta tb m n k alpha) (ip_sz m n)].
Proof. exact ip_all. Qed.
Print Assumptions C50_Winograd_in_place_partial.

(** What they check is weaker (kr == nr, and kr <= mr for the last two) and not
    enough: a block of the shape of A does not fit in a quadrant of B or C, or
    one of the shape of B in a quadrant of C. *)
Theorem C50_Winograd_in_place_refuted :
  (exists ta tb m n k alpha (M : mem [comRingType of 'F_7]), k == n /\
     ~ is_gemm ta tb (2 * m) (2 * n) (2 * k) alpha (mA M) (mB M) 0 (mC M)
       (mC (run ta tb m n k (fun _ => 0%N) (@wgemm _) (winograd_LR_S ta tb m n k alpha) M))) /\
  (exists ta tb m n k alpha (M : mem [comRingType of 'F_7]), (k == n) && (k <= m)%N /\
     ~ is_gemm ta tb (2 * m) (2 * n) (2 * k) alpha (mA M) (mB M) 0 (mC M)
       (mC (run ta tb m n k (ip_sz m n) (@wgemm _) (winograd_L_S ta tb m n k alpha) M))) /\
  (exists ta tb m n k alpha (M : mem [comRingType of 'F_7]), (k == n) && (k <= m)%N /\
     ~ is_gemm ta tb (2 * m) (2 * n) (2 * k) alpha (mA M) (mB M) 0 (mC M)
       (mC (run ta tb m n k (ip_sz m n) (@wgemm _) (winograd_R_S ta tb m n k alpha) M))).
Proof.
split; [|split].
- exists Trans, NoTrans, 1%N, 2%N, 2%N, 1, (Mem WA WB WC wjunk); split; first by [].
  apply: (@not_gemm _ 0 2); [by []|by []|vm_compute; reflexivity].
- exists Trans, NoTrans, 2%N, 1%N, 1%N, 1, (Mem WA WB WC wjunk); split; first by [].
  apply: (@not_gemm _ 0 1); [by []|by []|vm_compute; reflexivity].
exists NoTrans, NoTrans, 2%N, 1%N, 1%N, 1, (Mem WA WB WC wjunk); split; first by [].
apply: (@not_gemm _ 0 1); [by []|by []|vm_compute; reflexivity].
Qed.
Print Assumptions C50_Winograd_in_place_refuted.
