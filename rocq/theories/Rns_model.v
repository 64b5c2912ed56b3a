(** * Model of the residue number system and of the multiprecision product

    A basis is the list of its moduli.  Doubles holding integers are integers
    of [Z] with an explicit rounding to [prec] bits (53 in the code);
    multiprecision integers (Givaro::Integer, external) are integers of [Z].
    [None] is an access out of an array, or a conversion without a defined
    result. *)
From Coq Require Import ZArith List Bool.
From Verif Require Import Delayed_model Red_model.
Import ListNotations.
Open Scope Z_scope.

(** ** field/rns-double.h: construction *)

(** Givaro::Integer::bitsize (external) is mpz_sizeinbase(.,2): 1 for 0. *)
Definition bitsize (n : Z) : Z := if n =? 0 then 1 else Z.log2 (Z.abs n) + 1.

(** rns-double.h:149, 219; rns-integer.h:114; rns-integer-mod.h:196: number
    of 16-bit words. *)
Definition nwords (n : Z) : nat :=
  Z.to_nat (bitsize n / 16 + (if bitsize n mod 16 =? 0 then 0 else 1)).

(** l.82-105: [draws] is the stream of primes returned by random_exact_2exp
    and nextprimein (external); a prime already in the basis is drawn again.
    [None] when the stream is exhausted before the loop ends. *)
Fixpoint build_loop (draws : list Z) (bound : Z) (rnsmod : bool)
    (ms : list Z) (M mi_sum : Z) : option (list Z) :=
  if bound * mi_sum <=? M then Some ms
  else match draws with
       | [] => None
       | p :: draws =>
           if M mod p =? 0 then build_loop draws bound rnsmod ms M mi_sum
           else build_loop draws bound rnsmod (ms ++ [p]) (M * p)
                  (if rnsmod then mi_sum + p else mi_sum)
       end.
Definition rns_bound (draws : list Z) (bound : Z) (rnsmod : bool) : option (list Z) :=
  build_loop draws bound rnsmod [] 1 1.

(** l.107-125: exactly [size] draws, kept as they come. *)
Definition rns_size (draws : list Z) (size : nat) : list Z := firstn size draws.

Definition modulus (ms : list Z) (i : nat) : Z := nth i ms 1.
(** l.67: the product _M of the moduli *)
Definition Mprod (ms : list Z) : Z := fold_right Z.mul 1 ms.

(** l.145-211 precompute_cst *)
Definition ldm (ms : list Z) : nat := nwords (Mprod ms).
(** l.168 *)
Definition Mi (ms : list Z) (i : nat) : Z := Mprod ms / modulus ms i.
(** l.169-170 *)
Definition MMi (ms : list Z) (i : nat) : Z := zinv (modulus ms i) (Mi ms i mod modulus ms i).
(** Word [l] of the magnitude of [a] in base 2^16, with the sign of [a]:
    l.171-194 and rns-double.inl:65-91.  The reads beyond the limbs of [a]
    are avoided by the code, which stores zeros: same value. *)
Definition digit (a : Z) (l : nat) : Z :=
  Z.sgn a * (Z.abs a / 2 ^ (16 * Z.of_nat l) mod 2 ^ 16).
(** l.171-194 *)
Definition crt_out (ms : list Z) (i l : nat) : Z := digit (Mi ms i * MMi ms i) l.
(** l.198-203 *)
Definition crt_in (m : Z) (l : nat) : Z := Nat.iter l (fun acc => (acc * 2 ^ 16) mod m) 1.

(** ** field/rns-double.inl *)

(** l.455-536 reduce.  Not RNS_MAJOR (l.530-533): freduce over
    Modular<double>, vectorised ([None]) or not ([Some fma]).  RNS_MAJOR with
    SSE4.1 (l.462-514): the vector code (l.471-478) is that of [mod_simd],
    the scalar remainder (l.505-511) is [rns_tail] below. *)
Definition rns_red (prec : Z) (how : option bool) (a m : Z) : Z :=
  match how with
  | None => mod_simd prec a m 0 (m - 1)
  | Some fma => reduce_flt prec fma a m 0 (m - 1)
  end.

(** l.505-511 *)
Definition rns_tail (prec : Z) (fma : bool) (a m : Z) : Z :=
  let a := sub_mul prec fma a (qfloor prec a m) m in
  if m <=? a then rnd prec (a - m) else if a <? 0 then rnd prec (a + m) else a.

(** l.515-521, RNS_MAJOR without SSE4.1, on an array of [n] elements stored
    one after the other, each with its [length ms] residues: the loop over
    the elements advances by the size of the basis and takes the field of
    the element's number.  [reduce] of Modular<double> is fmod (external). *)
Fixpoint major_loop (fuel : nat) (ms : list Z) (n i : nat) (A : nat -> Z) : option (nat -> Z) :=
  match fuel with
  | O => Some A
  | S fuel =>
      if (i <? n)%nat then
        if (i <? length ms)%nat then
          major_loop fuel ms n (i + length ms)
            (fun x => if ((i * length ms <=? x) && (x <? (i + 1) * length ms))%nat
                      then A x mod modulus ms i else A x)
        else None
      else Some A
  end.
Definition reduce_major_scalar (ms : list Z) (n : nat) (A : nat -> Z) : option (nat -> Z) :=
  major_loop n ms n 0 A.

(** l.37-146 init on one integer: Kronecker substitution in base 2^16, one
    product with the table crt_in (its rows have ldm entries: a larger [k]
    reads beyond the row, l.39-42 only print a message), reduction.  [ord i]
    is the order of summation for residue [i]; the product over
    ZRing<double> is one BLAS call (its parallel and Winograd variants are
    left out). *)
Definition rns_init (prec : Z) (ord : order) (how : option bool)
    (ms : list Z) (k : nat) (a : Z) : option (list Z) :=
  if (ldm ms <? k)%nat then None
  else Some (map (fun i => let m := modulus ms i in
                  rns_red prec how (eval prec (ord i (prods (crt_in m) (digit a) 0 k))) m)
                 (seq 0 (length ms))).

(** l.243: entry [l] of the product of the residues with the table crt_out *)
Definition kron (prec : Z) (ord : order) (ms r : list Z) (l : nat) : Z :=
  eval prec (ord l (prods (fun i => nth i r 0) (fun i => crt_out ms i l) 0 (length ms))).

(** l.260: number of 64-bit limbs of the four buffers *)
Definition k4 (k : nat) : nat := (Nat.div (k + 3) 4 + (if Nat.modulo (k + 3) 4 =? 0 then 0 else 1))%nat.

(** l.282-302: word [q] of the 64-bit integer [x l] is written at index
    [l+q] of buffer [q]; the four buffers are read as integers and added. *)
Definition unkron (x : nat -> Z) (k : nat) : option Z :=
  if forallb (fun l => (0 <=? x l) && (x l <? 2 ^ 64) && (l + 3 <? 4 * k4 k)%nat) (seq 0 k)
  then
    let buf (q : nat) := fold_right (fun l s => x l / 2 ^ (16 * Z.of_nat q) mod 2 ^ 16
                                         * 2 ^ (16 * Z.of_nat (l + q)) + s) 0 (seq 0 k) in
    Some (buf 0%nat + buf 1%nat + buf 2%nat + buf 3%nat)
  else None.

(** l.303-319: reduction modulo M, choice of the sign, accumulation *)
Definition centre (M res : Z) : Z :=
  let res := res mod M in
  let hM := (M - 1) / 2 in
  if hM <? res then res - M else res.
Definition accum (gamma c res : Z) : Z :=
  if gamma =? 0 then res
  else if gamma =? 1 then c + res
  else if gamma =? -1 then res - c
  else c * gamma + res.

(** l.225-345 convert on one element; [c] is the value of the output before
    the call. *)
Definition rns_convert (prec : Z) (ord : order) (ms : list Z) (gamma : Z) (r : list Z) (c : Z)
    : option Z :=
  match unkron (kron prec ord ms r) (ldm ms) with
  | Some res => Some (accum gamma c (centre (Mprod ms) res))
  | None => None
  end.

(** l.540-546, rns_double_extended::init: Integer % is the truncated
    remainder, operator[] the magnitude of a limb (external). *)
Definition ext_init (ms : list Z) (a : Z) : list Z := map (fun m => Z.abs (Z.rem a m)) ms.

(** l.549-561, rns_double_extended::convert *)
Definition ext_convert (ms : list Z) (r : list Z) : Z :=
  let s := fold_left (fun s j => s + (nth j r 0 * MMi ms j) mod modulus ms j * Mi ms j)
             (seq 0 (length ms)) 0 in
  centre (Mprod ms) s.

(** ** field/rns-integer.h, rns-integer-mod.h *)

(** rns-integer.h:112-117 *)
Definition rnsZ_init prec ord how ms (y : Z) : option (list Z) :=
  rns_init prec ord how ms (nwords y) y.

(** rns-integer-mod.h:194-199: the number of words is that of p *)
Definition rnsmod_init prec ord how ms (p y : Z) : option (list Z) :=
  rns_init prec ord how ms (nwords p) y.

(** l.233-247 add and sub: componentwise, no reduction modulo p *)
Definition rnsmod_add (ms x y : list Z) : list Z :=
  map (fun i => (nth i x 0 + nth i y 0) mod modulus ms i) (seq 0 (length ms)).
Definition rnsmod_sub (ms x y : list Z) : list Z :=
  map (fun i => (nth i x 0 - nth i y 0) mod modulus ms i) (seq 0 (length ms)).

(** l.281-286 *)
Definition rnsmod_areEqual (ms x y : list Z) : bool :=
  forallb (fun i => nth i x 0 =? nth i y 0) (seq 0 (length ms)).

(** reduce_modp, l.305-352 ([flr] = false) and l.381-432 ([flr] = true) *)

(** l.317-319, 396-398: Gamma = residue * MMi modulo mi *)
Definition gam (ms r : list Z) (j : nat) : Z := (nth j r 0 * MMi ms j) mod modulus ms j.

(** l.126-129: the tables, entry [j] of row [i]; Mi and iM are reduced
    modulo p then modulo mi *)
Definition Mi_modp (ms : list Z) (p : Z) (i j : nat) : Z := (Mi ms j mod p) mod modulus ms i.
Definition iM_modp (ms : list Z) (p : Z) (i a : nat) : Z :=
  Nat.iter a (fun iM => (iM + Mprod ms) mod p) 0 mod modulus ms i.

(** l.321-323, 400-403 *)
Definition modp_z prec (ord : order) ms p r (i : nat) : Z :=
  eval prec (ord i (prods (Mi_modp ms p i) (gam ms r) 0 (length ms))).

(** l.327-328, 407-408: alpha = sum of Gamma_j * (1/mj), the inverses being
    rounded (rns-double.h:164).  All terms are expressed in the unit
    2^-E, E the largest exponent: rounding does not depend on the unit. *)
Definition modp_E prec (ms : list Z) : Z := fold_right (fun m e => Z.max (inv_exp prec m) e) 0 ms.
Definition modp_alpha prec (ord : order) ms r : Z :=
  eval prec (ord (length ms)
    (prods (gam ms r)
       (fun j => inv_mant prec (modulus ms j) * 2 ^ (modp_E prec ms - inv_exp prec (modulus ms j)))
       0 (length ms))).

(** l.333 rint (nearest, ties to even) and l.414 floor(alpha + 0.5) *)
Definition modp_quot prec (flr : bool) (E alpha : Z) : Z :=
  if flr then rnd prec (alpha + 2 ^ (E - 1)) / 2 ^ E
  else let q := alpha / 2 ^ E in let r := alpha mod 2 ^ E in
       if 2 * r <? 2 ^ E then q else if 2 ^ E <? 2 * r then q + 1
       else if Z.even q then q else q + 1.

(** the whole reduction of one element; the table iM_modp has size+1 columns *)
Definition reduce_modp prec (ord : order) (how : option bool) (flr : bool) (ms : list Z) (p : Z)
    (r : list Z) : option (list Z) :=
  let aa := modp_quot prec flr (modp_E prec ms) (modp_alpha prec ord ms r) in
  if (0 <=? aa) && (aa <=? Z.of_nat (length ms)) then
    Some (map (fun i =>
           rns_red prec how
             (rnd prec (modp_z prec ord ms p r i - iM_modp ms p i (Z.to_nat aa)))
             (modulus ms i))
         (seq 0 (length ms)))
  else None.

(** ** fflas_fgemm/fgemm_classical_mp.inl: product over ZRing<Integer> *)

(** fflas_bounds.inl:115-124 *)
Definition infnorm (m n : nat) (A : nat -> nat -> Z) : Z :=
  Z.abs (fold_left (fun mx i => fold_left (fun mx j =>
           if Z.abs mx <? Z.abs (A i j) then A i j else mx) (seq 0 n) mx) (seq 0 m) 0).

(** l.337-339 (53 in the code) *)
Definition prime_bitsize (prec : Z) (k : nat) : Z := (prec - (Z.log2 (Z.of_nat k) + 1)) / 2.

(** The execution: [draws] the primes drawn for a bit size, the orders of
    summation of the products of init, of the modular products (by modulus,
    row, column) and of convert, and the reduction code in use. *)
Record mp_run := mkrun {
  draws : Z -> list Z; ord_in : order; ord_mm : nat -> nat -> nat -> order;
  ord_out : order; red_how : option bool }.

(** residue [i] of a value; 0 where the code has no value *)
Definition res_of (r : option (list Z)) (i : nat) : Z :=
  match r with Some r => nth i r 0 | None => 0 end.
Definition is_some {A} (r : option A) : bool := match r with Some _ => true | None => false end.

(** l.312-426.  A and B are the operands after transposition, [normA] and
    [normB] the bounds of the helper (0: not given).  The products modulo mi
    (l.158-166) are those of [fgemm_delayed].  The result is [None] when the
    code reads beyond a table. *)
Definition fgemm_Z (prec : Z) (R : mp_run) (m n k : nat) (alpha : Z) (A B : nat -> nat -> Z)
    (beta : Z) (C : nat -> nat -> Z) (normA normB : Z) (i j : nat) : option Z :=
  if alpha =? 0 then Some (beta * C i j)
  else if (k =? 0)%nat then Some (C i j)
  else
    let nA := if normA =? 0 then infnorm m k A else normA in
    let nB := if normB =? 0 then infnorm k n B else normB in
    let mC := 2 * Z.of_nat k * nA * nB * Z.abs alpha in
    if mC =? 0 then Some (C i j)
    else match rns_bound (draws R (prime_bitsize prec k)) mC false with
    | None => None
    | Some ms =>
      let ini w x := rns_init prec (ord_in R) (red_how R) ms w x in
      let al := ini (nwords alpha) alpha in
      let Ap := fun i l => ini (nwords nA) (A i l) in
      let Bp := fun l j => ini (nwords nB) (B l j) in
      if is_some al && forallb (fun l => is_some (Ap i l) && is_some (Bp l j)) (seq 0 k) then
        let r := map (fun q =>
          fgemm_delayed (modular (modulus ms q)) prec (ord_mm R q) m n k (res_of al q)
            (fun i l => res_of (Ap i l) q) (fun l j => res_of (Bp l j) q) 0 (fun _ _ => 0) i j)
          (seq 0 (length ms)) in
        rns_convert prec (ord_out R) ms beta r (C i j)
      else None
    end.

(** fflas_fgemm.inl:336-346, the public front over ZRing<Integer> *)
Definition fgemm_integer (prec : Z) (R : mp_run) (m n k : nat) (alpha : Z) (A B : nat -> nat -> Z)
    (beta : Z) (C : nat -> nat -> Z) (i j : nat) : option Z :=
  if ((i <? m) && (j <? n))%nat then
    if (k =? 0)%nat || (alpha =? 0) then Some (beta * C i j)
    else fgemm_Z prec R m n k alpha A B beta C 0 0 i j
  else Some (C i j).

(** l.501-527, 529-555: over Modular<Integer>, with the bounds set to p *)
Definition fgemm_modinteger (prec : Z) (R : mp_run) (p : Z) (m n k : nat) (alpha : Z)
    (A B : nat -> nat -> Z) (beta : Z) (C : nat -> nat -> Z) (i j : nat) : option Z :=
  if ((i <? m) && (j <? n))%nat then
    if (k =? 0)%nat || (alpha =? 0) then Some (canon (modular p) (beta * C i j))
    else match fgemm_Z prec R m n k alpha A B beta C p p i j with
         | Some z => Some (canon (modular p) z)
         | None => None
         end
  else Some (C i j).
