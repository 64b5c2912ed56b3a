(** * C14: the delayed splitting of ftrsm *)
From Coq Require Import ZArith List Lia Znumtheory.
From Verif Require Import Delayed_model Delayed_spec Delayed_proofs Trsmb_model Trsmb_spec Trsmb_proofs.
Import ListNotations.
Open Scope Z_scope.

(** C14 as stated is false: for double and float, positive and balanced, some
    primes make nsplit zero, and every non-empty system (n = 1 included) meets
    the division by nsplit. *)
Theorem C14_ftrsm_split_refuted :
  (exists p, prime p /\ okmod Pos p 53 /\ forall ord unit n A b, (0 < n)%nat ->
     ftrsm_col Pos p 53 ord unit n A b = None) /\
  (exists p, prime p /\ okmod Bal p 53 /\ forall ord unit n A b, (0 < n)%nat ->
     ftrsm_col Bal p 53 ord unit n A b = None) /\
  (exists p, prime p /\ okmod Pos p 24 /\ forall ord unit n A b, (0 < n)%nat ->
     ftrsm_col Pos p 24 ord unit n A b = None) /\
  (exists p, prime p /\ okmod Bal p 24 /\ forall ord unit n A b, (0 < n)%nat ->
     ftrsm_col Bal p 24 ord unit n A b = None).
Proof. exact ftrsm_div0_witness. Qed.
Print Assumptions C14_ftrsm_split_refuted.

(** Exactly which moduli: the split size is positive outside the band, and
    only there. *)
Theorem C14_split_positive_iff :
  (forall p prec, 2 <= p -> 4 <= prec <= 2 ^ 30 ->
     ((0 < nsplit Pos p prec)%nat <-> ~ band_pos (p - 1) (2 ^ prec - 1))) /\
  (forall p c prec, p = 2 * c + 1 -> 1 <= c -> 0 < prec <= 2 ^ 30 ->
     ((0 < nsplit Bal p prec)%nat <-> ~ band_bal c (2 ^ prec - 1))).
Proof. exact (conj nsplit_pos nsplit_bal). Qed.
Print Assumptions C14_split_positive_iff.

(** When the split size is positive the solver returns, for every size, every
    operand and every order of the BLAS summations, the reduced solution of
    the system: no value accumulated between two reductions was rounded.
    Missing: the band of moduli refuted above, and updates large enough for
    the Winograd recursion (over the DoubleDomain it checks no bound). *)
Theorem C14_ftrsm_exact_partial : forall r p prec ord unit n A b,
  prime p -> okmod r p prec -> 0 < prec -> fair ord -> (0 < nsplit r p prec)%nat ->
  (forall i j, (j <= i < n)%nat -> reduced p (flo (rfld r p)) (A i j)) ->
  (unit = false -> forall i, (i < n)%nat -> A i i <> 0) ->
  (forall i, (i < n)%nat -> reduced p (flo (rfld r p)) (b i)) ->
  exists x, ftrsm_col r p prec ord unit n A b = Some x /\
    solves p (flo (rfld r p)) unit n A b x.
Proof. exact ftrsm_col_ok. Qed.
Print Assumptions C14_ftrsm_exact_partial.

(** A 9-bit mantissa modulo 7: nblas = 3, nsplit = 12; a system of size 8 is
    solved by blocks of 3, 3, 2 with delayed updates. *)
Example C14_delayed_case :
  TRSMBound Pos 7 9 = 3%nat /\ nsplit Pos 7 9 = 12%nat /\
  option_map (fun x => map x (seq 0 8))
    (ftrsm_col Pos 7 9 ltr false 8 (fun i j => if (i =? j)%nat then 3 else 6) (fun i => 5))
  = Some [4; 3; 4; 3; 4; 3; 4; 3].
Proof. vm_compute. repeat split. Qed.

(** A 7-bit mantissa modulo 7, balanced: nblas = 3, nsplit = 12. *)
Example C14_balanced_case :
  TRSMBound Bal 7 7 = 3%nat /\ nsplit Bal 7 7 = 12%nat /\
  option_map (fun x => map x (seq 0 5))
    (ftrsm_col Bal 7 7 ltr true 5 (fun i j => -3) (fun i => 3))
  = Some [3; -2; -1; 3; -2].
Proof. vm_compute. repeat split. Qed.
