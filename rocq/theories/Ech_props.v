(** * C27, C28: echelon forms and inverse *)
From mathcomp Require Import all_ssreflect all_algebra.
From Verif Require Import Grid Lit Perm_model Perm_spec Tri_model Tri_spec Pluq_model Pluq_spec.
From Verif Require Import Api_model Api_props Ludiv_model Ludiv_props Ech_model Ech_spec Ech_thm Inv_proofs Gj_proofs.
Set Implicit Arguments.
Unset Strict Implicit.
Unset Printing Implicit Defensive.
Local Open Scope ring_scope.
Import GRing.Theory.

(** C27. For the recursive tags, whatever P, Q, E0 and T0 contained: the number
    returned is the rank of A, the accessor reads a matrix E in row echelon
    form from the array, and an invertible T with T A = E.  Without the
    transformation such a T exists.  The in-place accessor, and the one
    restricted to the nonzero rows, read the same E. *)
Theorem C27_row : forall (F : fieldType) bk thr tthr, (0 < bk)%N -> (0 < tthr)%N ->
  forall tag, tag = Slab \/ tag = Tile -> forall M N (A : grid F) P Q E0,
  [/\ forall T0, let: Pluq X P' Q' R := RowEchelonForm bk thr tthr tag true M N A P Q in
      row_answer M N A R (getEchelonForm bk Upper Unit M N R Q' X E0 false tag)
        (getEchelonTransform bk Upper Unit M N R P' Q' X T0 tag),
    let: Pluq X P' Q' R := RowEchelonForm bk thr tthr tag false M N A P Q in
      exists T, row_answer M N A R (getEchelonForm bk Upper Unit M N R Q' X E0 false tag) T &
    forall tf, let: Pluq X P' Q' R := RowEchelonForm bk thr tthr tag tf M N A P Q in
      forall i j, (i < M)%N -> (j < N)%N ->
      let E := getEchelonForm bk Upper Unit M N R Q' X E0 false tag i j in
      getEchelonForm_in bk Upper Unit M N R Q' X tag i j = E /\
      ((i < R)%N -> getEchelonForm bk Upper Unit M N R Q' X E0 true tag i j = E)].
Proof. exact row_all. Qed.
Print Assumptions C27_row.

Theorem C27_col : forall (F : fieldType) bk thr tthr, (0 < bk)%N -> (0 < tthr)%N ->
  forall tag, tag = Slab \/ tag = Tile -> forall M N (A : grid F) P Q E0,
  [/\ forall T0, let: Pluq X P' Q' R := ColumnEchelonForm bk thr tthr tag true M N A P Q in
      col_answer M N A R (getEchelonForm bk Lower Unit M N R Q' X E0 false tag)
        (getEchelonTransform bk Lower Unit M N R P' Q' X T0 tag),
    let: Pluq X P' Q' R := ColumnEchelonForm bk thr tthr tag false M N A P Q in
      exists T, col_answer M N A R (getEchelonForm bk Lower Unit M N R Q' X E0 false tag) T &
    forall tf, let: Pluq X P' Q' R := ColumnEchelonForm bk thr tthr tag tf M N A P Q in
      forall i j, (i < M)%N -> (j < N)%N ->
      let E := getEchelonForm bk Lower Unit M N R Q' X E0 false tag i j in
      getEchelonForm_in bk Lower Unit M N R Q' X tag i j = E /\
      ((j < R)%N -> getEchelonForm bk Lower Unit M N R Q' X E0 true tag i j = E)].
Proof. exact col_all. Qed.
Print Assumptions C27_col.

Theorem C27_reduced_row : forall (F : fieldType) bk thr tthr bc, (0 < bk)%N -> (0 < tthr)%N ->
  forall tag, tag = Slab \/ tag = Tile -> forall M N (A : grid F) P Q E0,
  [/\ forall T0, let: Pluq X P' Q' R := ReducedRowEchelonForm bk thr tthr bc tag true M N A P Q in
      rrow_answer M N A R (getReducedEchelonForm bk Upper M N R Q' X E0 false tag)
        (getReducedEchelonTransform bk Upper M N R P' Q' X T0 tag),
    let: Pluq X P' Q' R := ReducedRowEchelonForm bk thr tthr bc tag false M N A P Q in
      exists T, rrow_answer M N A R (getReducedEchelonForm bk Upper M N R Q' X E0 false tag) T &
    forall tf, let: Pluq X P' Q' R := ReducedRowEchelonForm bk thr tthr bc tag tf M N A P Q in
      forall i j, (i < M)%N -> (j < N)%N ->
      let E := getReducedEchelonForm bk Upper M N R Q' X E0 false tag i j in
      getReducedEchelonForm_in bk Upper M N R Q' X tag i j = E /\
      ((i < R)%N -> getReducedEchelonForm bk Upper M N R Q' X E0 true tag i j = E)].
Proof. exact rref_all. Qed.
Print Assumptions C27_reduced_row.

Theorem C27_reduced_col : forall (F : fieldType) bk thr tthr, (0 < bk)%N -> (0 < tthr)%N ->
  forall tag, tag = Slab \/ tag = Tile -> forall M N (A : grid F) P Q E0,
  [/\ forall T0, let: Pluq X P' Q' R := ReducedColumnEchelonForm bk thr tthr tag true M N A P Q in
      rcol_answer M N A R (getReducedEchelonForm bk Lower M N R Q' X E0 false tag)
        (getReducedEchelonTransform bk Lower M N R P' Q' X T0 tag),
    let: Pluq X P' Q' R := ReducedColumnEchelonForm bk thr tthr tag false M N A P Q in
      exists T, rcol_answer M N A R (getReducedEchelonForm bk Lower M N R Q' X E0 false tag) T &
    forall tf, let: Pluq X P' Q' R := ReducedColumnEchelonForm bk thr tthr tag tf M N A P Q in
      forall i j, (i < M)%N -> (j < N)%N ->
      let E := getReducedEchelonForm bk Lower M N R Q' X E0 false tag i j in
      getReducedEchelonForm_in bk Lower M N R Q' X tag i j = E /\
      ((j < R)%N -> getReducedEchelonForm bk Lower M N R Q' X E0 true tag i j = E)].
Proof. exact redcol_all. Qed.
Print Assumptions C27_reduced_col.

(** The Gauss-Jordan tags, for every positive base case size: the elimination
    by column slices gives the rank, the reduced form and the transformation;
    the in-place accessor and the one restricted to the nonzero rows agree. *)
Theorem C27_gauss_jordan : forall (F : fieldType) bk thr tthr bc, (0 < bk)%N -> (0 < tthr)%N -> (0 < bc)%N ->
  forall tag M N (A : grid F) P Q T0 E0, tag = GJSlab \/ tag = GJTile ->
  let: Pluq X P' Q' R := ReducedRowEchelonForm bk thr tthr bc tag true M N A P Q in
  rrow_answer M N A R (getReducedEchelonForm bk Upper M N R Q' X E0 false tag)
    (getReducedEchelonTransform bk Upper M N R P' Q' X T0 tag) /\
  forall i j, (i < M)%N -> (j < N)%N ->
    let E := getReducedEchelonForm bk Upper M N R Q' X E0 false tag i j in
    getReducedEchelonForm_in bk Upper M N R Q' X tag i j = E /\
    ((i < R)%N -> getReducedEchelonForm bk Upper M N R Q' X E0 true tag i j = E).
Proof. exact gj_answer. Qed.
Print Assumptions C27_gauss_jordan.

(** Without the transformation these tags run PLUQ.  The tile variant is right;
    with the slab variant the rows are not put in order. *)
Theorem C27_gauss_jordan_form : forall (F : fieldType) bk thr tthr bc, (0 < bk)%N -> (0 < tthr)%N ->
  forall M N (A : grid F) P Q E0,
  let: Pluq X P' Q' R := ReducedRowEchelonForm bk thr tthr bc GJTile false M N A P Q in
  exists T, rrow_answer M N A R (getReducedEchelonForm bk Upper M N R Q' X E0 false GJTile) T.
Proof. exact gj_nt. Qed.
Print Assumptions C27_gauss_jordan_form.

Definition J2 : grid 'F_7 := gl 7 [:: [:: 0; 1]; [:: 1; 0]]%N.
Theorem C27_gauss_jordan_slab_form_refuted : exists M N (A : grid 'F_7) P Q E0,
  let r := @ReducedRowEchelonForm [fieldType of 'F_7] 1 1 1 1 GJSlab false M N A P Q in
  ~ row_echelon M N (resR r) (getReducedEchelonForm 1 Upper M N (resR r) (resQ r) (resA r) E0 false GJSlab).
Proof.
exists 2%N, 2%N, J2, junk, junk, J2.
apply: not_echelon2; vm_compute; reflexivity.
Qed.
Print Assumptions C27_gauss_jordan_slab_form_refuted.

(** E0 and T0 hold 6 everywhere. *)
Definition six : grid 'F_7 := fun _ _ => 6%:R.
Definition reduced_case (tag : lutag) :=
  let r : pluq_res [fieldType of 'F_7] := ReducedRowEchelonForm 1 1 1 1 tag true 4 5 E4 junk junk in
  let: Pluq X P Q R := r in
  (R, out 4 5 (getReducedEchelonForm 1 Upper 4 5 R Q X six false tag),
   out 4 4 (getReducedEchelonTransform 1 Upper 4 5 R P Q X six tag)).
Example C27_case :
  reduced_case Tile =
    (3, [:: [:: 1; 0; 5; 0; 3]; [:: 0; 1; 5; 0; 6]; [:: 0; 0; 0; 1; 4]; [:: 0; 0; 0; 0; 0]],
     [:: [:: 0; 0; 0; 1]; [:: 0; 5; 0; 0]; [:: 4; 0; 0; 0]; [:: 6; 5; 1; 0]])%N /\
  reduced_case Slab =
    (3, [:: [:: 1; 0; 5; 0; 3]; [:: 0; 1; 5; 0; 6]; [:: 0; 0; 0; 1; 4]; [:: 0; 0; 0; 0; 0]],
     [:: [:: 0; 0; 0; 1]; [:: 0; 5; 0; 0]; [:: 0; 6; 4; 0]; [:: 1; 2; 6; 0]])%N /\
  reduced_case GJTile = reduced_case Tile /\ reduced_case GJSlab = reduced_case Slab.
Proof. by vm_compute. Qed.

(** C28. Invert2 returns the nullity, and the inverse when it is zero. *)
Theorem C28_Invert2 : forall (F : fieldType) bk tthr, (0 < bk)%N -> (0 < tthr)%N -> forall M (A X : grid F) P Q,
  let: (nu, r) := Invert2 bk tthr M A X P Q in
  nu = (M - \rank (mx M M A))%N /\
  (if (nu == 0%N) && (0 < M)%N then exists B, r = Some B /\ mx M M A *m mx M M B = 1%:M else r = None).
Proof. exact Invert2_ok. Qed.
Print Assumptions C28_Invert2.

Example C28_Invert2_case :
  (let: (nu, r) := Invert2 1 1 3 E3 six junk junk in (nu, omap (out 3 3) r)) =
  (0, Some [:: [:: 4; 6; 4]; [:: 2; 3; 5]; [:: 4; 1; 4]])%N.
Proof. by vm_compute. Qed.

(** Invert, for every positive base case size of the Gauss-Jordan elimination:
    the nullity is right, but when it is zero the array holds the inverse with
    its rows in some other order: the column permutation is not applied. *)
Theorem C28_Invert_partial : forall (F : fieldType) bk thr tthr bc, (0 < bk)%N -> (0 < tthr)%N -> (0 < bc)%N ->
  forall M (A : grid F) P Q,
  let: (nu, B) := Invert bk thr tthr bc M A P Q in
  nu = (M - \rank (mx M M A))%N /\
  (nu = 0%N -> exists u, is_perm M u /\ mx M M B *m mx M M A = mx M M (fun i j => (u i == j)%:R)).
Proof. exact Invert_any. Qed.
Print Assumptions C28_Invert_partial.

(** The inverse of [[0,1],[1,0]] is itself; Invert returns the identity. *)
Theorem C28_Invert_refuted : exists M (A : grid 'F_7) P Q,
  let r := @Invert [fieldType of 'F_7] 1 1 1 256 M A P Q in r.1 = 0%N /\ mx M M r.2 *m mx M M A != 1%:M.
Proof.
exists 2%N, J2, junk, junk; split; first (vm_compute; reflexivity).
apply: (@not_inverse _ 2 J2 _ 0 0 isT isT); vm_compute; reflexivity.
Qed.
Print Assumptions C28_Invert_refuted.

Example C28_case :
  (let: (nu, B) := @Invert [fieldType of 'F_7] 1 1 1 256 2 J2 junk junk in (nu, out 2 2 B)) =
    (0, [:: [:: 1; 0]; [:: 0; 1]])%N.
Proof. by vm_compute. Qed.
