(** * C66: Bruhat generators of quasi-separable matrices *)
From mathcomp Require Import all_ssreflect all_algebra.
From Verif Require Import Grid Lit Perm_spec Tri_model Tri_spec Bruhat_model Bruhat_spec Bruhat_ex.
Set Implicit Arguments.
Unset Strict Implicit.
Unset Printing Implicit Defensive.
Import GRing.Theory.
Local Open Scope ring_scope.

(** C66. LTBruhatGen terminates, writes inside of the matrix and of arrays of N
    entries only, and its pivots and in-place factors multiply back to the part
    of A strictly left of the antidiagonal. *)
Theorem C66_LTBruhatGen : forall (F : fieldType) bk d thr N (A : grid F) P Q, (0 < bk)%N -> (0 < N)%N ->
  exists X P' Q' r, [/\ LTBruhatGen bk d thr N A P Q = Some (Bruhat X P' Q' r), frame N N X A,
    forall x, (N <= x)%N -> P' x = P x /\ Q' x = Q x, lt_pivots N r P' Q' &
    forall i j, (i + j + 1 < N)%N -> A i j = \sum_(k < r) Lb (odiag d) N P' Q' X i k * Ub d N P' Q' X k j].
Proof. exact LTBruhatGen_ok. Qed.
Print Assumptions C66_LTBruhatGen.

(** The three matrices handed out by getLTBruhatGen, into arrays of leading
    dimension N with any contents: L R^T U and A agree strictly left of the
    antidiagonal. *)
Theorem C66_getLTBruhatGen_partial : forall (F : fieldType) bk d thr N (A : grid F) P Q X P' Q' r (R0 : grid F) (TL TU : nat -> F),
  (0 < bk)%N -> (0 < N)%N ->
  LTBruhatGen bk d thr N A P Q = Some (Bruhat X P' Q' r) ->
  let L := mx N N (fun i j => getLT_L (odiag d) N r P' Q' X N TL (i * N + j)%N) in
  let U := mx N N (fun i j => getLT_U d N r P' Q' X N TU (i * N + j)%N) in
  let R := mx N N (getLTBruhatGenR N r P' Q' R0) in
  forall i j : 'I_N, (i + j + 1 < N)%N -> (L *m R^T *m U) i j = A i j.
Proof. exact LTBruhatGen_mx. Qed.
Print Assumptions C66_getLTBruhatGen_partial.

(** The number of pivots in a leading block that does not cross the antidiagonal
    is its rank. *)
Theorem C66_rank : forall (F : fieldType) bk d thr N (A : grid F) P Q X P' Q' r, (0 < bk)%N -> (0 < N)%N ->
  LTBruhatGen bk d thr N A P Q = Some (Bruhat X P' Q' r) ->
  forall m n, (m + n <= N)%N -> \rank (mx m n A) = nlead P' Q' r m n.
Proof. exact LTBruhatGen_rank. Qed.
Print Assumptions C66_rank.

(** LTQSorder is the quasi-separability order. *)
Theorem C66_LTQSorder : forall (F : fieldType) bk d thr N (A : grid F) P Q X P' Q' r, (0 < bk)%N -> (0 < N)%N ->
  LTBruhatGen bk d thr N A P Q = Some (Bruhat X P' Q' r) -> LTQSorder N r P' Q' = Some (qs_order N A).
Proof. exact LTBruhatGen_order. Qed.
Print Assumptions C66_LTQSorder.

(** Of order 0, the recursion never ends. *)
Theorem C66_LTBruhatGen_zero : forall (F : fieldType) fuel bk d thr (A : grid F) P Q,
  ltbruhat fuel bk d thr 0 A P Q = None.
Proof. exact ltbruhat0. Qed.
Print Assumptions C66_LTBruhatGen_zero.

(** With a leading dimension other than N, getLTBruhatGen leaves earlier contents
    of the array in the factors. *)
Theorem C66_getLTBruhatGen_refuted : exists (P Q : nat -> nat) (T : nat -> 'F_7) i j,
  [/\ (i < 4)%N, (j < 4)%N, lt_pivots 4 1 P Q &
      getLT_U NonUnit 4 1 P Q B5 5 T (i * 5 + j)%N != Umat NonUnit 4 1 P Q B5 i j].
Proof. exact getLT_ldt_witness. Qed.
Print Assumptions C66_getLTBruhatGen_refuted.
