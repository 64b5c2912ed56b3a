(** * Parallel matrix additions: C78 *)
From mathcomp Require Import all_ssreflect ssralg ssrint.
From Verif Require Import Cuts_model Par_model Par_spec Par_props Padd_model Padd_spec Padd_proofs.
Set Implicit Arguments.
Unset Strict Implicit.
Unset Printing Implicit Defensive.
Import GRing.Theory.
Local Open Scope ring_scope.

(** Any number of threads (also none), any sizes, operands equal to C or not. *)
Theorem C78_pfadd (V : ringType) nt M N A B C (mu : mem V) :
  same_or_apart A C -> same_or_apart B C -> (N <= vld A)%N -> (N <= vld B)%N -> (N <= vld C)%N ->
  exists2 P, pfadd V nt M N A B C = Some P & every_schedule P mu (combined (fun a b => a + b) M N A B C mu).
Proof. move=> HA HB _ _ HN. exact: add_rows. Qed.
Print Assumptions C78_pfadd.

Theorem C78_pfsub (V : ringType) nt M N A B C (mu : mem V) :
  same_or_apart A C -> same_or_apart B C -> (N <= vld A)%N -> (N <= vld B)%N -> (N <= vld C)%N ->
  exists2 P, pfsub V nt M N A B C = Some P & every_schedule P mu (combined (fun a b => a - b) M N A B C mu).
Proof. move=> HA HB _ _ HN. exact: add_rows. Qed.
Print Assumptions C78_pfsub.

Theorem C78_pfaddin (V : ringType) nt M N B C (mu : mem V) : same_or_apart B C -> (N <= vld B)%N -> (N <= vld C)%N ->
  exists2 P, pfaddin V nt M N B C = Some P & every_schedule P mu (combined (fun c b => c + b) M N C B C mu).
Proof. move=> HB _ HN. exact: add_in. Qed.
Print Assumptions C78_pfaddin.

Theorem C78_pfsubin (V : ringType) nt M N B C (mu : mem V) : same_or_apart B C -> (N <= vld B)%N -> (N <= vld C)%N ->
  exists2 P, pfsubin V nt M N B C = Some P & every_schedule P mu (combined (fun c b => c - b) M N C B C mu).
Proof. move=> HB _ HN. apply: add_rows => //. by left. Qed.
Print Assumptions C78_pfsubin.

Example C78_example :
  let B := View [:: 0%N] 0 4 in let C := View [:: 2%N] 0 5 in
  (if pfsubin int_Ring 2 3 4 B C is Some P
   then tasks P = 2%N /\ [seq run P ex_mem (cell C 2 j) | j <- iota 0 5] = [:: -7; -8; -9; -10; 1] else False) /\
  (if pfaddin int_Ring 7 3 4 B C is Some P
   then tasks P = 3%N /\ [seq run P ex_mem (cell C 2 j) | j <- iota 0 5] = [:: 9; 10; 11; 12; 1] else False).
Proof. by vm_compute. Qed.
