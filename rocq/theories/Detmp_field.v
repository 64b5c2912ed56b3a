(** * Integers modulo a prime and the field 'F_p *)
From Coq Require Import ZArith Znumtheory.
From mathcomp Require Import all_ssreflect all_algebra.
From mathcomp.zify Require Import ssrZ zify.
From Verif Require Import Grid Perm_model Perm_spec Delayed_spec Api_model Api_spec Api_proofs.
From Verif Require Import Charp_model Charp_spec Charp_proofs Charp_kry Charp_luk Detmp_model.
Set Implicit Arguments.
Unset Strict Implicit.
Unset Printing Implicit Defensive.
Local Open Scope ring_scope.
Import GRing.Theory.

Lemma primeZ (m : Z) : Znumtheory.prime m -> prime.prime (Z.to_nat m).
Proof.
move=> pm; have m2 := prime_ge_2 m pm.
apply/primeP; split; first by lia.
move=> d /dvdnP [q hq].
have : (Z.of_nat d | m)%Z by exists (Z.of_nat q); nia.
move/(prime_divisors m pm) => h.
by apply/orP; case: h => [|[|[|]]] h; [lia|left; lia|right; lia|lia].
Qed.

Definition zF (m a : Z) : 'F_(Z.to_nat m) := (int_of_Z a)%:~R.

Section One.
Variable m : Z.
Hypothesis pm : Znumtheory.prime m.

Lemma zFB a b : zF m (a - b)%Z = zF m a - zF m b.
Proof. by rewrite /zF -rmorphB; congr (_%:~R); lia. Qed.

Lemma zF0 a : zF m a = 0 -> (m | a)%Z.
Proof.
have pp := primeZ pm.
have key n : (n%:R : 'F_(Z.to_nat m)) = 0 -> (m | Z.of_nat n)%Z.
  move/eqP; rewrite -(dvdn_charf (char_Fp pp)) => /dvdnP [q ->].
  by exists (Z.of_nat q); have := prime_ge_2 m pm; lia.
rewrite /zF; case E: (int_of_Z a) => [n|n].
  by move=> /key h; have -> : a = Z.of_nat n by lia.
rewrite NegzE mulrNz => /eqP; rewrite oppr_eq0 => /eqP /key [q hq].
by exists (- q)%Z; lia.
Qed.

Lemma zF_eq a q : zF m (a + q * m)%Z = zF m a.
Proof.
have pp := primeZ pm; have m2 := prime_ge_2 m pm.
rewrite /zF.
have -> : (int_of_Z (a + q * m) = int_of_Z a + int_of_Z q * (Z.to_nat m)%:Z)%R by lia.
by rewrite rmorphD rmorphM /= -[(Z.to_nat m)%:Z%:~R]/((Z.to_nat m)%:R) (charf0 (char_Fp pp)) mulr0 addr0.
Qed.

Lemma toF_repr a r : is_repr m 0 a r -> toF m r = zF m a.
Proof.
move=> [[r0 _] [q hq]].
rewrite -(zF_eq a q); have -> : (a + q * m = r)%Z by lia.
by rewrite /toF /zF; have -> : int_of_Z r = (Z.to_nat r)%:Z by lia.
Qed.

Lemma ofF_repr a : is_repr m 0 a (ofF (zF m a)).
Proof.
have pp := primeZ pm; have m2 := prime_ge_2 m pm.
split.
  have : (nat_of_ord (zF m a) < (Zp_trunc (pdiv (Z.to_nat m))).+2)%N := ltn_ord _.
  have := Fp_cast pp; rewrite /ofF.
  by set x := nat_of_ord _; move: x => x ->; lia.
have [q hq] : (m | ofF (zF m a) - a)%Z.
  apply: zF0; rewrite zFB; apply/eqP; rewrite subr_eq0; apply/eqP.
  rewrite -[RHS]natr_Zp /ofF; set x := nat_of_ord _.
  by rewrite /zF; have -> : int_of_Z (Z.of_nat x) = x%:Z by lia.
by exists q; rewrite hq.
Qed.
End One.

Lemma zFD m a b : zF m (a + b)%R = zF m a + zF m b.
Proof. by rewrite /zF -rmorphD; congr (_%:~R); lia. Qed.
Lemma zFM m a b : zF m (a * b)%R = zF m a * zF m b.
Proof. by rewrite /zF -rmorphM; congr (_%:~R); lia. Qed.
Lemma zF_additive m : additive (zF m).
Proof. by move=> a b; rewrite -zFB; congr (zF _ _); lia. Qed.
Lemma zF_mult m : multiplicative (zF m).
Proof. by split=> [a b|]; [exact: zFM|rewrite /zF]. Qed.
Canonical zF_add_ m := Additive (zF_additive m).
Canonical zF_rm_ m := AddRMorphism (zF_mult m).

Lemma zF_det m N (A : grid Z) : \det (mx N N (fun i j => zF m (A i j))) = zF m (\det (mx N N A)).
Proof. by rewrite -det_map_mx; congr (\det _); apply/matrixP => i j; rewrite !mxE. Qed.

Lemma zF_char m N (A : grid Z) j :
  (char_poly (mx N N (fun i j => zF m (A i j))))`_j = zF m ((char_poly (mx N N A))`_j).
Proof.
have -> : mx N N (fun i j => zF m (A i j)) = map_mx (zF m) (mx N N A).
  by apply/matrixP => i k; rewrite !mxE.
by rewrite -map_char_poly coef_map.
Qed.
