(** * C62 - C64: minimal and characteristic polynomials *)
From mathcomp Require Import all_ssreflect all_algebra.
From Verif Require Import Grid Lit Perm_spec Perm_model Tri_model Tri_spec Pluq_model Ludiv_model.
From Verif Require Import Charp_model Charp_spec Charp_proofs Charp_kry Charp_luk.
Set Implicit Arguments.
Unset Strict Implicit.
Unset Printing Implicit Defensive.
Import GRing.Theory.
Local Open Scope ring_scope.

(** C62. MatVecMinPoly returns the monic polynomial of least degree with
    p(A) v = 0, whatever its work arrays contained. *)
Theorem C62_MatVecMinPoly : forall (F : fieldType) bk, (0 < bk)%N -> forall N (A : grid F) v K P, (0 < N)%N ->
  vec_minpoly N A v (MatVecMinPoly bk N A v K P).
Proof. exact MatVecMinPoly_ok. Qed.
Print Assumptions C62_MatVecMinPoly.

(** Its multiples are the polynomials annihilating v. *)
Theorem C62_ideal : forall (F : fieldType) bk, (0 < bk)%N -> forall N (A : grid F) v K P q, (0 < N)%N ->
  (annuls N A v q <-> Poly (MatVecMinPoly bk N A v K P) %| Poly q).
Proof. exact MatVecMinPoly_ideal. Qed.
Print Assumptions C62_ideal.

(** C64. MinPoly returns a divisor of the minimal polynomial; that it is the
    minimal polynomial depends on the vector drawn. *)
Theorem C64_MinPoly_partial : forall (F : fieldType) bk, (0 < bk)%N -> forall n (A : grid F) v K P,
  Poly (MinPoly bk n.+1 A v K P) %| mxminpoly (mx n.+1 n.+1 A).
Proof. exact MinPoly_dvd. Qed.
Print Assumptions C64_MinPoly_partial.

Definition M3 : grid 'F_7 := gl 7 [:: [:: 1; 2; 3]; [:: 0; 0; 5]; [:: 0; 2; 6]]%N.
Definition vl (l : seq nat) : nat -> 'F_7 := fun i => (nth 0%N l i)%:R.
Definition shp (l : seq 'F_7) : seq nat := [seq nat_of_ord x | x <- l].

Example C62_case :
  shp (MinPoly 1 3 M3 (vl [:: 0; 0; 1])%N dirt dirtP) = [:: 3; 3; 0; 1]%N /\
  shp (MinPoly 1 3 M3 (vl [:: 1; 0; 0])%N dirt dirtP) = [:: 6; 1]%N /\
  shp (MinPoly 1 3 (fun _ _ => 0) (vl [:: 1; 5; 0])%N dirt dirtP) = [:: 0; 1]%N.
Proof. by vm_compute. Qed.

(** A nonzero vector for which the result does not annihilate A. *)
Theorem C64_MinPoly_refuted : exists v w, v 0%N != 0 /\
  ~ annuls 2 D2 w (MinPoly 1 2 D2 v dirt dirtP).
Proof. exact MinPoly_one_vector. Qed.
Print Assumptions C64_MinPoly_refuted.

(** C63. Danilevski's algorithm returns factors of the characteristic polynomial. *)
Theorem C63_Danilevski : forall (F : fieldType) N (A : grid F),
  \prod_(p <- Danilevski N A) Poly p = char_poly (mx N N A).
Proof. exact Danilevski_ok. Qed.
Print Assumptions C63_Danilevski.

(** LUKrylov does, for every sequence of nonzero vectors drawn and every
    contents of its work arrays. *)
Theorem C63_LUKrylov : forall (F : fieldType) bk, (0 < bk)%N -> forall N (A : grid F) X v junk,
  (forall m, (0 < m <= N)%N -> exists2 c, (c < m)%N & v m c != 0) ->
  \prod_(p <- LUKrylov bk N N A X v junk [::]) Poly p = char_poly (mx N N A).
Proof. exact LUKrylov_prod. Qed.
Print Assumptions C63_LUKrylov.

(** CharPoly returns the coefficients of det (X - A). *)
Theorem C63_CharPoly : forall (F : fieldType) bk, (0 < bk)%N -> forall tag p deg N (A : grid F) X v junk s,
  (forall m, (0 < m <= N)%N -> exists2 c, (c < m)%N & v m c != 0) ->
  CharPoly bk tag p deg N A X v junk = Some s -> s = char_poly (mx N N A).
Proof. exact CharPoly_ok. Qed.
Print Assumptions C63_CharPoly.

(** It returns for every tag and size but those that call ArithProg. *)
Theorem C63_CharPoly_defined : forall (F : fieldType) bk, (0 < bk)%N -> forall tag p deg N (A : grid F) X v junk,
  (forall m, (0 < m <= N)%N -> exists2 c, (c < m)%N & v m c != 0) ->
  CharPoly bk tag p deg N A X v junk = None ->
  (p >= N)%N /\ (tag = TagArithProgKrylovPrecond \/ tag = TagAuto /\ (deg <= N)%N).
Proof. exact CharPoly_none. Qed.
Print Assumptions C63_CharPoly_defined.

Example C63_case :
  [seq shp p | p <- Danilevski 3 M3] = [:: [:: 4; 1; 1]; [:: 6; 1]]%N /\
  [seq shp p | p <- LUKrylov 1 3 3 M3 dirt (fun m i => (i == 0%N)%:R) dirtP [::]] = [:: [:: 4; 1; 1]; [:: 6; 1]]%N /\
  omap shp (CharPoly 1 TagAuto 7 50 3 M3 dirt (fun m i => 1) dirtP) = Some [:: 3; 3; 0; 1]%N /\
  omap shp (CharPoly 1 TagLUK 7 50 3 M3 dirt (fun m i => (i == 0%N)%:R) dirtP) = Some [:: 3; 3; 0; 1]%N.
Proof. by vm_compute. Qed.
