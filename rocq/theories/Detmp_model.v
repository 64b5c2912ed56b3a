(** * Model of the determinant and the characteristic polynomial of an integer
      matrix through a residue number system

    [None] is an undefined behaviour, or a call to an algorithm that is not
    modelled.  Elements of Modular<double>(m) are the integers of [0,m): the
    model of Det and CharPoly over a field is run over ['F_m]. *)
From Coq Require Import ZArith.
From mathcomp Require Import all_ssreflect all_algebra.
From Verif Require Import Grid Delayed_model Red_model Rns_model Api_model Charp_model.
Set Implicit Arguments.
Unset Strict Implicit.
Unset Printing Implicit Defensive.
Local Open Scope ring_scope.
Local Open Scope Z_scope.

(** A residue as an element of the field, and back. *)
Definition toF (m r : Z) : 'F_(Z.to_nat m) := (Z.to_nat r)%:R%R.
Definition ofF (m : Z) (x : 'F_(Z.to_nat m)) : Z := Z.of_nat (nat_of_ord x).

(** fflas/fflas_level2.inl:591-598 *)
Definition matbits (N : nat) (A : nat -> nat -> Z) : Z :=
  iteri N (fun i b => iteri N (fun j b => Z.max b (bitsize (A i j))) b) 1.

(** (Abs/16)+((Abs%16)?1:0), ffpack_det_mp.inl:74 and ffpack_charpoly_mp.inl:82 *)
Definition words (b : Z) : nat := Z.to_nat (b / 16 + (if b mod 16 =? 0 then 0 else 1)).

(** What a run leaves open: the primes drawn, the order of the sums of the two
    conversions, the reduction used (see [rns_red]), and the integers computed
    in double precision by ceil(N*(log2(N)/2+Abs)) and
    ceil(N/2*(log2(N)+2*Abs+0.21163275)) as functions of N and Abs. *)
Record det_run := mkdet {
  d_draws : list Z;
  d_in : order;
  d_out : order;
  d_how : option bool;
  d_bits : nat -> Z -> Z
}.

Section Detmp.
Variables (bk thr : nat) (prec : Z) (R : det_run).

(** finit_rns: entry (i,j) modulo modulus number q (rns-integer.h:172-176) *)
Definition arns (ms : list Z) (k : nat) (A : nat -> nat -> Z) (q i j : nat) : Z :=
  res_of (rns_init prec (d_in R) (d_how R) ms k (A i j)) q.
Definition amod (ms : list Z) (k : nat) (A : nat -> nat -> Z) (q : nat) : grid 'F_(Z.to_nat (modulus ms q)) :=
  fun i j => toF (modulus ms q) (arns ms k A q i j).

(** ffpack_det_mp.inl:37-51 *)
Definition Det_rns (N : nat) (ms : list Z) (k : nat) A : list Z :=
  map (fun q => ofF (Det bk thr N (amod ms k A q))) (List.seq 0 (length ms)).

(** l.54-80; the moduli have [prime_bits] = 23 in the constructor.  [det] is
    the value of the argument before the call: fconvert_rns is given gamma = 1. *)
Definition DetZ (N : nat) (A : nat -> nat -> Z) (det : Z) : option Z :=
  if N == 0%nat then Some 1 else
  let Abs := matbits N A in
  match rns_bound (d_draws R) (2 ^ d_bits R N Abs) false with
  | None => None
  | Some ms =>
      if (ldm ms < words Abs)%nat then None
      else rns_convert prec (d_out R) ms 1 (Det_rns N ms (words Abs) A) det
  end.

(** ffpack_charpoly_mp.inl:38-59: coefficient [j] of the polynomial modulo
    every modulus; [X], [v] and [junk] are the work array, the vectors drawn
    and the array P of each call. *)
Variables (tag : charpoly_tag) (deg : nat).
Variables (X : forall m : Z, grid 'F_(Z.to_nat m)) (v : forall m : Z, nat -> nat -> 'F_(Z.to_nat m)) (junk : nat -> nat).

Definition cp_mod (N : nat) ms k A (q : nat) : option (seq Z) :=
  omap (map (@ofF (modulus ms q)))
    (CharPoly bk tag (Z.to_nat (modulus ms q)) deg N (amod ms k A q) (X (modulus ms q)) (v (modulus ms q)) junk).

(** l.62-98; [old] is the contents of charp after resize: the coefficients the
    caller left there, then zeros.  For N = 0 the bound is computed from
    0 * log(0), not a number, and converted to an integer. *)
Definition CharPolyZ (N : nat) (A : nat -> nat -> Z) (old : nat -> Z) (j : nat) : option Z :=
  if N == 0%nat then None else
  let Abs := matbits N A in
  match rns_bound (d_draws R) (2 ^ d_bits R N Abs) false with
  | None => None
  | Some ms =>
      let k := words Abs in
      let cps := map (cp_mod N ms k A) (List.seq 0 (length ms)) in
      if (ldm ms < k)%nat then None
      else if has (fun c => ~~ is_some c) cps then None
      else rns_convert prec (d_out R) ms 1 (map (fun c => nth 0 (odflt [::] c) j) cps) (old j)
  end.

End Detmp.
