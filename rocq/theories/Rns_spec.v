(** * Specification vocabulary for the residue number system *)
From Coq Require Import ZArith Znumtheory List.
From Verif Require Import Delayed_model Delayed_spec.
Import ListNotations.
Open Scope Z_scope.

(** Pairwise coprime moduli, each at least 2. *)
Fixpoint coprimes (ms : list Z) : Prop :=
  match ms with
  | [] => True
  | m :: ms => Forall (fun q => rel_prime m q) ms /\ coprimes ms
  end.
Definition basis_ok (ms : list Z) : Prop := Forall (fun m => 2 <= m) ms /\ coprimes ms.

(** The product of the moduli. *)
Fixpoint product (ms : list Z) : Z := match ms with [] => 1 | m :: ms => m * product ms end.

(** [r] lists the representatives in [0,m) of [x] modulo each modulus. *)
Definition residues (ms : list Z) (x : Z) (r : list Z) : Prop :=
  Forall2 (fun m ri => is_repr m 0 x ri) ms r.

(** Floating-point head-room on [prec] bits: for converting an integer of [k]
    words of 16 bits, and for converting back. [two]: the reduction rounds
    twice and needs room for one more modulus. *)
Definition room_in (prec : Z) (two : bool) (ms : list Z) (k : nat) : Prop :=
  Forall (fun m => m <= 2 ^ prec /\
    Z.of_nat k * ((m - 1) * (2 ^ 16 - 1)) + (if two then m else 0) <= 2 ^ prec) ms.
Definition room_out (prec : Z) (ms : list Z) : Prop :=
  fold_right (fun m s => (m - 1) * (2 ^ 16 - 1) + s) 0 ms <= 2 ^ prec.

(** The integer a tuple of residues stands for: in ((M-1)/2 - M, (M-1)/2]. *)
Definition centred (M x : Z) : Prop := (M - 1) / 2 - M < x <= (M - 1) / 2.

(** Depth of a summation tree: the number of roundings above a term. *)
Fixpoint depth (t : tree) : nat :=
  match t with
  | Nil => 0
  | Leaf _ => 1
  | Node l r => S (Nat.max (depth l) (depth r))
  | Fma _ t => S (depth t)
  end.

(** The sum of the largest residues. *)
Definition sum_max (ms : list Z) : Z := fold_right (fun m s => m - 1 + s) 0 ms.
