(** * C65: determinant and characteristic polynomial of an integer matrix *)
From Coq Require Import ZArith Znumtheory.
From mathcomp Require Import all_ssreflect all_algebra.
From mathcomp.zify Require Import ssrZ.
From Verif Require Import Grid Perm_model Perm_spec Delayed_model Delayed_spec Red_model Rns_model Rns_spec.
From Verif Require Import Rns_proofs Api_model Charp_model Detmp_model Detmp_field Detmp_proofs.
Set Implicit Arguments.
Unset Strict Implicit.
Unset Printing Implicit Defensive.
Local Open Scope ring_scope.
Local Open Scope Z_scope.

(** What Det returns: the old value of its argument, plus the representative of
    the determinant modulo the product of the moduli that is centred around 0.
    Missing: matrices with so many bits that the words of the residues exceed
    the mantissa ([room_in], [room_out]). *)
Theorem C65_Det_partial : forall bk thr prec R N (A : nat -> nat -> Z) ms,
  (0 < bk)%N -> (0 < N)%N -> 1 <= prec <= 63 -> fair (d_in R) -> fair (d_out R) ->
  List.Forall Znumtheory.prime (d_draws R) ->
  rns_bound (d_draws R) (2 ^ d_bits R N (matbits N A)) false = Some ms ->
  matbits N A <= d_bits R N (matbits N A) ->
  room_in prec (two_roundings (d_how R)) ms (words (matbits N A)) -> room_out prec ms ->
  forall det0, exists x, DetZ bk thr prec R N A det0 = Some (det0 + x) /\
    (product ms | x - \det (mx N N A)) /\ centred (product ms) x.
Proof. exact DetZ_ok. Qed.
Print Assumptions C65_Det_partial.

(** Hence the determinant, when the argument was zero and twice the
    determinant is below the product of the moduli. *)
Theorem C65_Det_exact_partial : forall bk thr prec R N (A : nat -> nat -> Z) ms,
  (0 < bk)%N -> (0 < N)%N -> 1 <= prec <= 63 -> fair (d_in R) -> fair (d_out R) ->
  List.Forall Znumtheory.prime (d_draws R) ->
  rns_bound (d_draws R) (2 ^ d_bits R N (matbits N A)) false = Some ms ->
  matbits N A <= d_bits R N (matbits N A) ->
  room_in prec (two_roundings (d_how R)) ms (words (matbits N A)) -> room_out prec ms ->
  forall det0, 2 * Z.abs (\det (mx N N A)) < product ms ->
  DetZ bk thr prec R N A det0 = Some (det0 + \det (mx N N A)).
Proof. exact DetZ_exact. Qed.
Print Assumptions C65_Det_exact_partial.

(** The empty matrix. *)
Theorem C65_Det_empty : forall bk thr prec R (A : nat -> nat -> Z) det0, DetZ bk thr prec R 0 A det0 = Some (\det (mx 0 0 A)).
Proof. exact DetZ_empty. Qed.
Print Assumptions C65_Det_empty.

(** The exponents, without rounding. *)
Definition Detbs (N : nat) (Abs : Z) : Z := Z.of_nat N * Abs + (Z.log2_up (Z.of_nat N ^ Z.of_nat N) + 1) / 2.
Definition run1 : det_run := mkdet [:: 11; 13; 11; 17; 19; 23; 29; 31] ltr ltr None Detbs.
Definition A2 : nat -> nat -> Z := fun i j => nth 0 [:: 3; -2; 5; 4] (i * 2 + j).
Definition A3 : nat -> nat -> Z := fun i j => nth 0 [:: 3; -2; 1; 5; 4; 0; -7; 1; 2] (i * 3 + j).
Definition ones_ (m : Z) : nat -> nat -> 'F_(Z.to_nat m) := fun _ _ => 1%R.
Definition dirt_ (m : Z) : grid 'F_(Z.to_nat m) := fun i j => (i + 2 * j)%:R%R.

Example C65_case :
  DetZ 1 1 53 run1 2 A2 0 = Some 22 /\ DetZ 1 1 53 run1 3 A3 0 = Some 77 /\ DetZ 1 1 53 run1 0 A3 5 = Some 1 /\
  [seq CharPolyZ 1 53 run1 TagAuto 50 dirt_ ones_ id 3 A3 (fun _ => 0) j | j <- iota 0 4]
    = [:: Some (-77); Some 43; Some (-9); Some 1].
Proof. by vm_compute. Qed.

(** The same matrix with a variable that held something else. *)
Theorem C65_Det_reused_refuted : exists R N A det0, List.Forall Znumtheory.prime (d_draws R) /\ fair (d_in R) /\
  fair (d_out R) /\ DetZ 1 1 53 R N A det0 <> Some (\det (mx N N A)).
Proof. exact DetZ_reused. Qed.
Print Assumptions C65_Det_reused_refuted.

(** The bound leaves no room for the sign: the determinant of the matrix with
    the single entry 2^21-1 is negative, whatever the prime of 22 bits drawn
    (but the last two). *)
Theorem C65_Det_sign_refuted : (exists p, Znumtheory.prime p /\ 2 ^ 21 <= p < 2 ^ 22 - 2) /\
  forall bk thr R p, (0 < bk)%N -> fair (d_in R) -> fair (d_out R) ->
  Znumtheory.prime p -> 2 ^ 21 <= p < 2 ^ 22 - 2 -> d_draws R = [:: p] -> d_bits R 1 21 = 21 ->
  DetZ bk thr 53 R 1 (fun _ _ => 2 ^ 21 - 1) 0 = Some (2 ^ 21 - 1 - p).
Proof. exact DetZ_sign. Qed.
Print Assumptions C65_Det_sign_refuted.

(** CharPoly, with the algorithms modelled. *)
Theorem C65_CharPoly_partial : forall bk prec R N (A : nat -> nat -> Z) ms,
  (0 < bk)%N -> (0 < N)%N -> 1 <= prec <= 63 -> fair (d_in R) -> fair (d_out R) ->
  List.Forall Znumtheory.prime (d_draws R) ->
  rns_bound (d_draws R) (2 ^ d_bits R N (matbits N A)) false = Some ms ->
  matbits N A <= d_bits R N (matbits N A) ->
  room_in prec (two_roundings (d_how R)) ms (words (matbits N A)) -> room_out prec ms ->
  forall tag deg X v junk,
  (forall m, List.In m (d_draws R) -> forall n, (0 < n <= N)%N -> exists2 c, (c < n)%N & v m n c != 0%R) ->
  forall old j, (j <= N)%N ->
  (tag = TagDanilevski \/ tag = TagLUK \/ tag = TagAuto /\ (N < deg)%N) ->
  2 * Z.abs (char_poly (mx N N A))`_j < product ms ->
  CharPolyZ bk prec R tag deg X v junk N A old j = Some (old j + (char_poly (mx N N A))`_j).
Proof. exact CharPolyZ_exact. Qed.
Print Assumptions C65_CharPoly_partial.

Theorem C65_CharPoly_reused_refuted : exists R N A old, List.Forall Znumtheory.prime (d_draws R) /\ fair (d_in R) /\
  fair (d_out R) /\
  CharPolyZ 1 53 R TagDanilevski 50 dirt_ ones_ id N A old N = Some 2 /\ (char_poly (mx N N A))`_N = 1.
Proof. exact (CharPolyZ_reused dirt_ ones_). Qed.
Print Assumptions C65_CharPoly_reused_refuted.
