(** * Property C61: the symmetric product with five recursive products *)
From mathcomp Require Import all_ssreflect all_algebra.
From Verif Require Import Grid Lit Perm_model Perm_spec Tri_model Tri_spec Sym_model Sym_spec Strass_model Strass_spec
  Strass_proofs Strass2_proofs Strass3_proofs Strass4_proofs.
Set Implicit Arguments.
Unset Strict Implicit.
Unset Printing Implicit Defensive.
Import GRing.Theory.
Local Open Scope ring_scope.

(** The recursion, on dimensions that 2^(r+1) divides. *)
Theorem C61_strassen (F : fieldType) (base : syrk F) junk (x y : F) : syrk_right base -> x * x + y * y = -1 ->
  forall r u t N K al A be C, (2 ^ r.+1 %| N)%N -> (2 ^ r.+1 %| K)%N -> be = 0 \/ (0 < N)%N ->
  syrk_result u t N K al A be C (fsyrk_strassen base junk r u t N K x y al A be C).
Proof. exact (fun Hb Hxy => @strassen_ok F base junk Hb x y Hxy). Qed.
Print Assumptions C61_strassen.

(** The driver, any dimensions.  Missing: beta nonzero with 0 < N < 2^(r+1),
    refuted below; the opposite triangle, refuted below. *)
Theorem C61_driver_partial (F : fieldType) (base : syrk F) junk (x y : F) : syrk_right base -> x * x + y * y = -1 ->
  forall r u t N K al A be C, [\/ r = 0%N, be = 0 | (2 ^ r.+1 <= N)%N] ->
  syrk_result u t N K al A be C (fsyrk_winograd base junk r u t N K x y al A be C).
Proof. exact (fun Hb Hxy => @winograd_ok F base junk Hb x y Hxy). Qed.
Print Assumptions C61_driver_partial.

(** The same with alpha factored out (delayed mode). *)
Theorem C61_delayed_partial (F : fieldType) (base : syrk F) junk (x y : F) : syrk_right base -> x * x + y * y = -1 ->
  forall r u t N K al A be C, [\/ r = 0%N, be = 0 | (2 ^ r.+1 <= N)%N] ->
  syrk_result u t N K al A be C (fsyrk_winograd_delayed base junk r u t N K x y al A be C).
Proof. exact (fun Hb Hxy => @winograd_delayed_ok F base junk Hb x y Hxy). Qed.
Print Assumptions C61_delayed_partial.

(** The hypotheses can be met: over every finite field there are x and y, and
    both models of the classical routine qualify. *)
Theorem C61_two_squares (F : finFieldType) : exists x y : F, x * x + y * y = -1.
Proof. exact: two_squares. Qed.
Print Assumptions C61_two_squares.

Theorem C61_bases (F : fieldType) : syrk_right (@fsyrk F) /\ syrk_right (@fsyrk_delayed F).
Proof. exact: (conj (@fsyrk_right F) (@fsyrk_delayed_right F)). Qed.
Print Assumptions C61_bases.

(** A 5 x 6 matrix, one level: the 4 x 4 part by the recursion. *)
Definition Ta : grid 'F_7 := gl 7 [:: [:: 1; 2; 0; 3; 1; 4]; [:: 3; 4; 1; 0; 2; 2]; [:: 5; 6; 2; 2; 0; 1];
  [:: 1; 1; 6; 3; 5; 0]; [:: 2; 0; 4; 1; 1; 3]]%N.
Definition Tc : grid 'F_7 := gl 7 [:: [:: 1; 2; 3; 1; 2; 6]; [:: 4; 5; 6; 1; 0; 6]; [:: 3; 2; 1; 1; 5; 6]; [:: 0; 1; 2; 3; 4; 6];
  [:: 6; 5; 4; 3; 2; 6]]%N.
Definition T5 : grid 'F_7 := fun _ _ => 5%:R.
Definition low n (o : option (grid 'F_7)) : option (seq (seq nat)) :=
  omap (fun X => [seq [seq (nat_of_ord (X i j)) | j <- iota 0 i.+1] | i <- iota 0 n]) o.

Example C61_example :
  (2%:R * 2%:R + 3%:R * 3%:R = -1 :> 'F_7) /\
  low 5 (fsyrk_winograd (@fsyrk _) T5 1 Lower NoTrans 5 6 2%:R 3%:R 3%:R Ta 2%:R Tc) =
    low 5 (Some (fsyrk Lower NoTrans 5 6 3%:R Ta 2%:R Tc)) /\
  low 5 (fsyrk_winograd (@fsyrk _) T5 1 Lower Trans 5 5 2%:R 3%:R 3%:R Ta 0 Tc) =
    low 5 (Some (fsyrk Lower Trans 5 5 3%:R Ta 0 Tc)) /\
  low 5 (Some (fsyrk Lower NoTrans 5 6 3%:R Ta 2%:R Tc)) <> low 5 (Some Tc).
Proof. by split; [apply/eqP; vm_compute | vm_compute]. Qed.

(** One level, beta nonzero and N < 4: C22[(N2-1)*(ldc+1)] is accessed with
    N2 = 0. *)
Theorem C61_small_refuted : exists r u t N K (x y al : 'F_7) A be C,
  x * x + y * y = -1 /\ (0 < N)%N /\
  ~ syrk_result u t N K al A be C (fsyrk_winograd (@fsyrk _) T5 r u t N K x y al A be C).
Proof.
exists 1%N, Lower, NoTrans, 3%N, 4%N, 2%:R, 3%:R, 1, Ta, 1, Tc; split; first by apply/eqP; vm_compute.
by split=> //; rewrite strassen_oob // => -[].
Qed.
Print Assumptions C61_small_refuted.

(** The opposite triangle is used as a workspace. *)
Theorem C61_other_triangle_refuted : exists r u t N K (x y al : 'F_7) A be C X,
  x * x + y * y = -1 /\ al = 1 /\ (2 ^ r.+1 <= N)%N /\ (0 < K)%N /\
  fsyrk_winograd (@fsyrk _) T5 r u t N K x y al A be C = Some X /\ ~ tri_only u N C X.
Proof.
pose o := fsyrk_winograd (@fsyrk _) T5 1 Lower NoTrans 4 4 2%:R 3%:R 1 Ta 1 Tc.
have : (if o is Some X then X 0%N 2%N != Tc 0%N 2%N else false) by vm_compute.
case E: o => [X|] // ne.
exists 1%N, Lower, NoTrans, 4%N, 4%N, 2%:R, 3%:R, 1, Ta, 1, Tc, X.
do 5 (split; first by [apply/eqP; vm_compute | exact: E | by []]).
by move=> /(_ 0%N 2%N isT)/eqP; rewrite (negbTE ne).
Qed.
Print Assumptions C61_other_triangle_refuted.
