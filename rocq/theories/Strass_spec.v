(** * What the recursive symmetric product is for

    Sym_spec.tri_update and Sym_spec.gram say what the result is. *)
From mathcomp Require Import all_ssreflect all_algebra.
From Verif Require Import Grid Perm_model Perm_spec Tri_model Tri_spec Sym_model Sym_spec Strass_model.
Set Implicit Arguments.
Unset Strict Implicit.
Unset Printing Implicit Defensive.
Import GRing.Theory.
Local Open Scope ring_scope.

Section Spec.
Variable F : fieldType.

(** A routine computing alpha op(A) op(A)^T + beta C on the triangle, whatever
    it does to the rest of the N x N block. *)
Definition syrk_right (base : syrk F) : Prop := forall u t N K al A be C,
  tri_update u N al (gram t K A) be C (base u t N K al A be C) /\ frame N N (base u t N K al A be C) C.

(** The same of a result that may be an access outside of the arrays. *)
Definition syrk_result u t N K al A be (C : grid F) (res : option (grid F)) : Prop :=
  exists2 X, res = Some X & tri_update u N al (gram t K A) be C X /\ frame N N X C.

End Spec.
