(** * Specification of sparse products *)
From Coq Require Import ZArith List Sorting.Sorted.
From Verif Require Import Delayed_model Delayed_spec Sparse_model.
Import ListNotations.
Open Scope Z_scope.

(** Row i of the matrix defined by the triplets (repeated positions add up),
    times x. *)
Fixpoint dotrow (ts : list trip) (i : nat) (x : nat -> Z) : Z :=
  match ts with
  | [] => 0
  | T3 r c v :: ts => (if Nat.eqb r i then v * x c else 0) + dotrow ts i x
  end.

(** Number of triplets in row i. *)
Fixpoint rowlen (ts : list trip) (i : nat) : nat :=
  match ts with
  | [] => 0
  | T3 r _ _ :: ts => ((if Nat.eqb r i then 1 else 0) + rowlen ts i)%nat
  end.

(** The triplets come row by row. *)
Definition row_sorted (ts : list trip) : Prop := StronglySorted (fun a b => (ro a <= ro b)%nat) ts.

(** Entries of an m x n matrix over F. *)
Definition in_matrix (F : fld) (m n : nat) (ts : list trip) : Prop :=
  Forall (fun t => (ro t < m)%nat /\ (co t < n)%nat /\ flo F <= va t <= fhi F) ts.

(** The modulus fits the mantissa: one product plus one element is exact; the
    factor (p-1)/2 is only used for odd balanced moduli. *)
Definition fits (half : bool) (F : fld) (prec : Z) : Prop :=
  wf F /\ 0 < prec /\
  (half = true -> 3 <= fp F /\ - ((fp F - 1) / 2) <= flo F /\ fhi F <= (fp F - 1) / 2) /\
  let c := if half then (fp F - 1) / 2 else fp F - 1 in c * c + c <= 2 ^ prec.

(** [r] is A x + beta y on the first m entries and y elsewhere. *)
Definition spmv_ok (F : fld) (m : nat) (ts : list trip) (k : Z) (x : nat -> Z) (beta : Z)
    (y r : nat -> Z) : Prop :=
  (forall i, (i < m)%nat -> is_repr (fp F) (flo F) (k * dotrow ts i x + beta * y i) (r i)) /\
  (forall i, (m <= i)%nat -> r i = y i).

(** A zero-one matrix: the values of the triplets are ignored. *)
Definition pattern (ts : list trip) : list trip := map (fun t => T3 (ro t) (co t) 1) ts.

(** Cells of the m x b window with leading dimension ld. *)
Definition inside (m b ld q : nat) : Prop := exists i k, (i < m)%nat /\ (k < b)%nat /\ q = (i * ld + k)%nat.

(** [r] is k A X + beta Y on the m x b window of leading dimension ldy, and Y
    elsewhere. *)
Definition spmm_ok (F : fld) (m : nat) (ts : list trip) (k : Z) (b : nat) (x : nat -> Z) (ldx : nat)
    (beta : Z) (y : nat -> Z) (ldy : nat) (r : nat -> Z) : Prop :=
  (forall i j, (i < m)%nat -> (j < b)%nat ->
     is_repr (fp F) (flo F) (k * dotrow ts i (fun c => x (c * ldx + j)%nat) + beta * y (i * ldy + j)%nat)
             (r (i * ldy + j)%nat)) /\
  (forall q, ~ inside m b ldy q -> r q = y q).

(** The entries of the window are reduced elements. *)
Definition win_in (F : fld) (m b ld : nat) (y : nat -> Z) : Prop :=
  forall i j, (i < m)%nat -> (j < b)%nat -> flo F <= y (i * ld + j)%nat <= fhi F.

(** Preconditions of fspmv: y is only read when beta is not 0. *)
Definition setting (half : bool) (F : fld) (prec : Z) (m n : nat) (ts : list trip) (x : nat -> Z)
    (beta : Z) (y : nat -> Z) : Prop :=
  fits half F prec /\ row_sorted ts /\ in_matrix F m n ts /\ vin F n x /\
  flo F <= beta <= fhi F /\ (beta = 0 \/ vin F m y) /\ (0 < m)%nat.

(** Preconditions of fspmm. *)
Definition setting2 (half : bool) (F : fld) (prec : Z) (m n : nat) (ts : list trip) (b : nat) (x : nat -> Z) (ldx : nat)
    (beta : Z) (y : nat -> Z) (ldy : nat) : Prop :=
  fits half F prec /\ row_sorted ts /\ in_matrix F m n ts /\ win_in F n b ldx x /\ (b <= ldy)%nat /\
  flo F <= beta <= fhi F /\ (beta = 0 \/ win_in F m b ldy y) /\ (0 < m)%nat.

(** The cases where init_y on a block is right. *)
Definition good_beta (F : fld) (m : nat) (beta : Z) (ldy : nat) : Prop :=
  beta = 0 \/ beta = canon F 1 \/ ldy = 1%nat \/ (m <= 1)%nat.
