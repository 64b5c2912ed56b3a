(** * Properties C38, C58, C59: residue number systems *)
From Coq Require Import ZArith Znumtheory List Lia.
From Verif Require Import Delayed_model Delayed_spec Red_model Rns_model Rns_spec Rns_proofs Rns2_proofs Rns3_proofs Rns4_proofs.
Import ListNotations.
Open Scope Z_scope.

(** ** C38: conversions *)
Theorem C38_init prec ord how ms k a : fair ord -> 1 <= prec ->
  Forall (fun m => 2 <= m) ms -> room_in prec (two_roundings how) ms k ->
  (k <= ldm ms)%nat -> Z.abs a < 2 ^ (16 * Z.of_nat k) ->
  exists r, rns_init prec ord how ms k a = Some r /\ residues ms a r.
Proof. exact (init_ok prec ord how ms k a). Qed.
Print Assumptions C38_init.

(** [gamma * c + x]: the conversion accumulates into its destination. *)
Theorem C38_convert prec ord ms gamma r c : fair ord -> prec <= 63 -> basis_ok ms -> room_out prec ms ->
  length r = length ms ->
  (forall i, (i < length ms)%nat -> 0 <= nth i r 0 < nth i ms 1) ->
  exists x, rns_convert prec ord ms gamma r c = Some (gamma * c + x) /\
    residues ms x r /\ centred (product ms) x.
Proof. exact (convert_ok prec ord ms gamma r c). Qed.
Print Assumptions C38_convert.

Theorem C38_unique ms x y r : basis_ok ms -> residues ms x r -> residues ms y r ->
  centred (product ms) x -> centred (product ms) y -> x = y.
Proof. exact (residues_unique ms x y r). Qed.
Print Assumptions C38_unique.

Theorem C38_round_trip prec ord ord' how ms k a gamma c : fair ord -> fair ord' -> 1 <= prec <= 63 ->
  basis_ok ms -> room_in prec (two_roundings how) ms k -> room_out prec ms ->
  (k <= ldm ms)%nat -> Z.abs a < 2 ^ (16 * Z.of_nat k) -> centred (product ms) a ->
  exists r, rns_init prec ord how ms k a = Some r /\
    rns_convert prec ord' ms gamma r c = Some (gamma * c + a).
Proof. exact (round_trip prec ord ord' how ms k a gamma c). Qed.
Print Assumptions C38_round_trip.

Example C38_round_trip_example :
  let ms := [251; 241; 239; 233] in
  match rns_init 53 ltr None ms 2 (-123456789) with
  | Some r => residues ms (-123456789) r /\ rns_convert 53 ltr ms 3 r 5 = Some (15 - 123456789)
  | None => False
  end.
Proof.
  cbn zeta. set (o := rns_init _ _ _ _ _ _). vm_compute in o. subst o. cbv iota beta.
  split; [|vm_compute; reflexivity].
  repeat (constructor; [split; [lia|match goal with |- exists _, ?r - ?a = _ * ?m => exists ((r - a) / m); vm_compute; reflexivity end]|]).
  constructor.
Qed.

(** The construction from a bound: whatever primes are drawn, the moduli are
    pairwise coprime and their product reaches the bound. *)
Theorem C38_basis draws bound (rnsmod : bool) ms :
  Forall prime draws -> rns_bound draws bound rnsmod = Some ms ->
  basis_ok ms /\ incl ms draws /\
  bound * (1 + (if rnsmod then fold_right Z.add 0 ms else 0)) <= product ms.
Proof. exact (rns_bound_ok draws bound rnsmod ms). Qed.
Print Assumptions C38_basis.

Example C38_basis_example :
  rns_bound [1009; 1013; 1009; 1013; 1019; 1021] 200000000 false = Some [1009; 1013; 1019] /\
  rns_bound [1009; 1013; 1009; 1013; 1019; 1021] 200000000 true = Some [1009; 1013; 1019; 1021].
Proof. split; vm_compute; reflexivity. Qed.

(** The construction from a number of primes keeps repeated ones. *)
Theorem C38_repeated_prime_refuted : exists draws size a,
  let ms := rns_size draws size in
  Forall prime draws /\ centred (product ms) a /\
  exists r, rns_init 53 ltr None ms (nwords a) a = Some r /\ residues ms a r /\
    rns_convert 53 ltr ms 0 r 0 <> Some a.
Proof. exact repeated_prime_refuted. Qed.
Print Assumptions C38_repeated_prime_refuted.

(** ... and then no choice of the inverses can repair the conversion: every
    combination of the M/mi is a multiple of the repeated modulus. *)
Theorem C38_repeated_prime_any ms i j (c : nat -> Z) :
  Forall (fun m => 2 <= m) ms -> (i < j < length ms)%nat -> modulus ms i = modulus ms j ->
  (modulus ms i | Zsum (fun q => c q * Mi ms q) (length ms)).
Proof. exact (repeated_prime_any ms i j c). Qed.
Print Assumptions C38_repeated_prime_any.

Theorem C38_tail prec fma a m : 2 <= m -> 1 <= prec -> m <= 2 ^ prec ->
  Z.abs a <= 2 ^ prec -> (fma = false -> Z.abs a + m <= 2 ^ prec) ->
  is_repr m 0 a (rns_tail prec fma a m).
Proof. exact (rns_tail_ok prec fma a m). Qed.
Print Assumptions C38_tail.

Example C38_tail_example : rns_tail 24 false (-1000) 7 = 1 /\ rns_tail 24 true 16777215 4093 = 16777215 mod 4093.
Proof. split; vm_compute; reflexivity. Qed.

(** The RNS-major reduction compiled without SSE 4.1 uses the wrong modulus,
    or writes out of the array. *)
Theorem C38_major_scalar_refuted :
  (exists ms A A', basis_ok ms /\ reduce_major_scalar ms 1 A = Some A' /\ ~ (modulus ms 1 | A 1%nat - A' 1%nat)) /\
  (exists ms A, basis_ok ms /\ reduce_major_scalar ms 3 A = None).
Proof. exact major_scalar_refuted. Qed.
Print Assumptions C38_major_scalar_refuted.

(** rns_double_extended *)
Theorem C38_extended_init ms a : Forall (fun m => 2 <= m) ms -> 0 <= a -> residues ms a (ext_init ms a).
Proof. exact (ext_init_ok ms a). Qed.
Print Assumptions C38_extended_init.

Theorem C38_extended_convert ms x r : basis_ok ms -> residues ms x r -> centred (product ms) x ->
  ext_convert ms r = x.
Proof. exact (ext_convert_ok ms x r). Qed.
Print Assumptions C38_extended_convert.

Example C38_extended_example : ext_convert [101; 103; 107] (ext_init [101; 103; 107] 424242) = 424242 /\
  ext_convert [101; 103; 107] [100; 102; 106] = -1.
Proof. split; vm_compute; reflexivity. Qed.

Theorem C38_extended_negative_refuted : exists ms a, basis_ok ms /\ centred (product ms) a /\
  ~ residues ms a (ext_init ms a) /\ ext_convert ms (ext_init ms a) <> a.
Proof. exact ext_init_refuted. Qed.
Print Assumptions C38_extended_negative_refuted.

(** ** C58: products over the integers and modulo a multiprecision integer *)

(** Missing: a zero operand with [beta <> 1], refuted below; operands so large
    that the 16-bit words of their residues exceed the mantissa ([room_in],
    [room_out]). *)
Theorem C58_fgemm_integer_partial prec R m n k alpha A B beta C a b ms0 :
  let D := draws R (prime_bitsize prec k) in
  1 <= prec <= 63 ->
  fair (ord_in R) /\ fair (ord_out R) /\ (forall q i j, fair (ord_mm R q i j)) ->
  Forall prime D -> Forall (fun p => 2 < p < 2 ^ prime_bitsize prec k) D ->
  0 <= a -> 0 <= b ->
  (forall i l, (i < m)%nat -> (l < k)%nat -> Z.abs (A i l) <= a) ->
  (forall l j, (l < k)%nat -> (j < n)%nat -> Z.abs (B l j) <= b) ->
  rns_bound D (2 * Z.of_nat k * a * b * Z.abs alpha) false = Some ms0 ->
  (forall bound ms, rns_bound D bound false = Some ms ->
     room_in prec (two_roundings (red_how R)) ms (ldm ms) /\ room_out prec ms) ->
  ((exists i l, (i < m)%nat /\ (l < k)%nat /\ A i l <> 0) /\
   (exists l j, (l < k)%nat /\ (j < n)%nat /\ B l j <> 0)) \/ beta = 1 ->
  forall i j, (i < m)%nat -> (j < n)%nat ->
  fgemm_integer prec R m n k alpha A B beta C i j
    = Some (alpha * Zsum (fun l => A i l * B l j) k + beta * C i j).
Proof. exact (fgemm_integer_ok prec R m n k alpha A B beta C a b ms0). Qed.
Print Assumptions C58_fgemm_integer_partial.

Example C58_fgemm_integer_example :
  let R := mkrun (fun _ => [1009; 1013; 1013; 1019; 1021; 1031]) ltr (fun _ _ _ => ltr) ltr None in
  let A i j := match i, j with O, O => -123456 | O, _ => 3 | _, _ => 77777 end in
  fgemm_integer 32 R 2 2 2 (-5) A A 7 A 0 0 = Some (-5 * (123456 * 123456 + 3 * 77777) + 7 * -123456).
Proof. vm_compute. reflexivity. Qed.

Theorem C58_zero_operand_refuted : exists prec R m n k alpha A B beta C i j,
  (i < m)%nat /\ (j < n)%nat /\
  fgemm_integer prec R m n k alpha A B beta C i j
    <> Some (alpha * Zsum (fun l => A i l * B l j) k + beta * C i j).
Proof. exact integer_zero_refuted. Qed.
Print Assumptions C58_zero_operand_refuted.

(** Missing: operands beyond [room_in] and [room_out]. *)
Theorem C58_fgemm_modinteger_partial prec R p m n k alpha A B beta C ms :
  let D := draws R (prime_bitsize prec k) in
  1 <= prec <= 63 ->
  fair (ord_in R) /\ fair (ord_out R) /\ (forall q i j, fair (ord_mm R q i j)) ->
  2 <= p ->
  Forall prime D -> Forall (fun q => 2 < q < 2 ^ prime_bitsize prec k) D ->
  (forall i l, (i < m)%nat -> (l < k)%nat -> reduced p 0 (A i l)) ->
  (forall l j, (l < k)%nat -> (j < n)%nat -> reduced p 0 (B l j)) ->
  rns_bound D (2 * Z.of_nat k * p * p * Z.abs alpha) false = Some ms ->
  room_in prec (two_roundings (red_how R)) ms (ldm ms) -> room_out prec ms ->
  forall i j, (i < m)%nat -> (j < n)%nat ->
  exists z, fgemm_modinteger prec R p m n k alpha A B beta C i j = Some z /\
    is_repr p 0 (alpha * Zsum (fun l => A i l * B l j) k + beta * C i j) z.
Proof. exact (fgemm_modinteger_ok prec R p m n k alpha A B beta C ms). Qed.
Print Assumptions C58_fgemm_modinteger_partial.

Example C58_fgemm_modinteger_example :
  let R := mkrun (fun _ => [1009; 1013; 1013; 1019; 1021; 1031; 1033; 1039]) ltr (fun _ _ _ => ltr) ltr None in
  let A i j := 123456 - Z.of_nat (i + j) in
  let D := draws R 15 in
  fgemm_modinteger 32 R 123457 2 2 2 5 A A 7 A 0 0
    = Some ((5 * (123456 * 123456 + 123455 * 123455) + 7 * 123456) mod 123457) /\
  prime_bitsize 32 2 = 15 /\
  match rns_bound D (2 * 2 * 123457 * 123457 * 5) false with
  | Some ms => ldm ms = 3%nat /\ room_in 32 false ms (ldm ms) /\ room_out 32 ms
  | None => False
  end.
Proof.
  cbn zeta. split; [vm_compute; reflexivity|]. split; [vm_compute; reflexivity|].
  set (o := rns_bound _ _ _). vm_compute in o. subst o. cbv iota beta.
  split; [vm_compute; reflexivity|]. split.
  - repeat (constructor; [split; vm_compute; discriminate|]). constructor.
  - vm_compute. discriminate.
Qed.

(** ** C59: reduction modulo p of residues, RNSIntegerMod *)

(** Missing: values within the rounding error of a multiple of M/2 — the last
    hypothesis, which the basis built with [rnsmod = true] leaves ample room
    for. *)
Theorem C59_reduce_modp_partial prec ord how flr ms p x r d :
  1 <= prec -> fair ord -> basis_ok ms -> ms <> [] -> 2 <= p -> residues ms x r ->
  Forall (fun m => (m - 1) * sum_max ms + m <= 2 ^ prec) ms ->
  (forall l, length l = length ms -> (depth (ord (length ms) l) <= d)%nat) ->
  2 * Z.of_nat d <= 2 ^ prec ->
  2 ^ prec * (2 * Z.abs x) +
    product ms * (8 * Z.of_nat (length ms) * Z.of_nat d + 10 * Z.of_nat (length ms) + 2)
    < 2 ^ prec * product ms ->
  exists y r', reduce_modp prec ord how flr ms p r = Some r' /\ residues ms y r' /\
    (exists q, y - x = q * p) /\ - p < y <= (p - 1) * sum_max ms.
Proof. exact (reduce_modp_spec prec ord how flr ms p x r d). Qed.
Print Assumptions C59_reduce_modp_partial.

Example C59_reduce_modp_example :
  let ms := [251; 241; 239; 233] in
  match rns_init 53 ltr None ms 2 (-123456789) with
  | Some r =>
      match reduce_modp 53 ltr None false ms 1000 r with
      | Some r' => match rns_convert 53 ltr ms 0 r' 0 with Some y => y mod 1000 = (-123456789) mod 1000 /\ Z.abs y < 960 * 1000 | None => False end
      | None => False
      end
  | None => False
  end.
Proof. vm_compute. split; reflexivity. Qed.

(** Initialising an element from an integer of more words than p. *)
Theorem C59_init_truncates_refuted : exists ms p y r, basis_ok ms /\ 2 <= p /\ centred (product ms) y /\
  rnsmod_init 53 ltr None ms p y = Some r /\
  (forall x, residues ms x r -> centred (product ms) x -> ~ (exists q, x - y = q * p)).
Proof. exact rnsmod_init_refuted. Qed.
Print Assumptions C59_init_truncates_refuted.

(** [999 + 1] and [0] modulo 1000 compare different. *)
Theorem C59_areEqual_refuted : exists ms p x y z, basis_ok ms /\
  rnsmod_init 53 ltr None ms p 999 = Some x /\ rnsmod_init 53 ltr None ms p 1 = Some y /\
  rnsmod_init 53 ltr None ms p 0 = Some z /\ p = 1000 /\
  rnsmod_areEqual ms (rnsmod_add ms x y) z = false.
Proof. exact rnsmod_areEqual_refuted. Qed.
Print Assumptions C59_areEqual_refuted.
