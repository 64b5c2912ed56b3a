(** * Modular reductions and vector additions: C29, C30, C31, C32, C52 *)
From Coq Require Import ZArith List Bool.
From Verif Require Import Delayed_model Delayed_spec Red_model Red_spec Red_proofs.
Import ListNotations.
Open Scope Z_scope.

(** ** C29 *)

(** Without a fused multiply-add, the scalar reduction of a double just below
    2^53 in absolute value is wrong: the product Q*p is rounded. *)
Theorem C29_reduce_refuted :
  exists A p, 2 <= p /\ Z.abs A < 2 ^ 53 /\ let F := modular p in
    ~ is_repr p 0 A (reduce_flt 53 false A p (flo F) (fhi F)).
Proof.
  exists (-9007199254740991), 7. split; [discriminate|]. split; [reflexivity|].
  cbv zeta.
  replace (reduce_flt _ _ _ _ _ _) with 5 by (vm_compute; reflexivity).
  intros [_ [q H]]. Lia.lia.
Qed.
Print Assumptions C29_reduce_refuted.

(** Every exactly representable integer is reduced to its representative, on
    the scalar path and on the SIMD path, in every position of the vector, for
    every length, alignment and vector width; nothing else is written.  When
    the compiler does not contract A - Q*p into a fused operation the inputs
    must satisfy |A| + p <= 2^prec (the case refuted above is excluded). *)
Theorem C29_modp_partial : forall F prec fma vs t u n m,
  wf F -> 1 <= prec -> fp F <= 2 ^ prec ->
  (0 < vs)%nat -> same_or_disjoint t u n ->
  (forall i, (i < n)%nat -> Z.abs (m (u + i)%nat) <= 2 ^ prec) ->
  (fma = false -> forall i, (i < n)%nat -> Z.abs (m (u + i)%nat) + fp F <= 2 ^ prec) ->
  elementwise (fun x _ y => is_repr (fp F) (flo F) x y) t u u n m
    (modp_flt prec fma (fp F) (flo F) (fhi F) vs t u n m).
Proof. exact modp_flt_ok. Qed.
Print Assumptions C29_modp_partial.

(** Nine elements at an address which is 3 modulo 4, source equally aligned:
    prologue of one element, two vectors, no epilogue. *)
Example C29_case :
  let F := balanced 101 in
  map (modp_flt 53 false 101 (flo F) (fhi F) 4 3 23 9 (fun x => Z.of_nat x * 1000003)) (seq 2 12)
  = [2000006; 46; 48; 50; -49; -47; -45; -43; -41; -39; 12000036; 13000039].
Proof. vm_compute. reflexivity. Qed.

(** ** C30 *)
Theorem C30_int64_reduce : forall F fma vs t u n m,
  wf F -> fp F < 2 ^ 33 ->
  (0 < vs)%nat -> same_or_disjoint t u n ->
  (forall i, (i < n)%nat -> - 2 ^ 63 <= m (u + i)%nat < 2 ^ 63) ->
  elementwise (fun x _ y => is_repr (fp F) (flo F) x y) t u u n m
    (modp_int64 fma (fp F) (flo F) (fhi F) vs t u n m).
Proof. exact modp_int64_ok. Qed.
Print Assumptions C30_int64_reduce.

Example C30_case :
  reduce_int64 false false (- 2 ^ 63) (2 ^ 33 - 9) 0 (2 ^ 33 - 10) = 7516192750 /\
  reduce_int64 false true (- 2 ^ 63) (2 ^ 33 - 9) 0 (2 ^ 33 - 10) = 7516192750 /\
  (- 2 ^ 63) mod (2 ^ 33 - 9) = 7516192750.
Proof. vm_compute. repeat split. Qed.

(** ** C31 *)

(** The two-argument sub of FieldSimd adds p when the difference exceeds the
    maximum instead of when it is below the minimum: 1 - 2 mod 7 stays -1. *)
Theorem C31_sub2_refuted :
  exists p a b, reduced p 0 a /\ reduced p 0 b /\
    ~ is_repr p 0 (a - b) (fs_sub2 (Flt 53) p (fhi (modular p)) a b) /\
    is_repr p 0 (a - b) (fs_sub3 (Flt 53) p 0 a b).
Proof.
  exists 7, 1, 2. split; [easy|]. split; [easy|]. vm_compute. split.
  - intros [[H _] _]. apply H. reflexivity.
  - split; [easy|]. exists 1. reflexivity.
Qed.
Print Assumptions C31_sub2_refuted.

(** With balanced representatives neither add nor the three-argument sub stays
    in the interval: mod 7, -3 + -3 gives -6 and 3 - -3 gives 6. *)
Theorem C31_balanced_refuted :
  exists p a b, let F := balanced p in reduced p (flo F) a /\ reduced p (flo F) b /\
    ~ is_repr p (flo F) (a + a) (fs_add (Flt 53) p (fhi F) a a) /\
    ~ is_repr p (flo F) (b - a) (fs_sub3 (Flt 53) p (flo F) b a).
Proof.
  exists 7, (-3), 3. vm_compute. repeat split; try discriminate; intros [[H1 H2] _].
  - apply H1. reflexivity.
  - apply H2. reflexivity.
Qed.
Print Assumptions C31_balanced_refuted.

(** maxpy(c,a,b) is a*b-c; over every field of the library it is c-a*b
    (Fi.maxpyin in ffpack_pluq.inl:125). *)
Theorem C31_maxpy_refuted :
  exists p a b c, reduced p 0 a /\ reduced p 0 b /\ reduced p 0 c /\
    ~ is_repr p 0 (c - a * b) (fs_maxpy 53 p 0 (fhi (modular p)) a b c).
Proof.
  exists 7, 1, 1, 0. 
  replace (fs_maxpy _ _ _ _ _ _ _) with 1 by (vm_compute; reflexivity).
  repeat split; try discriminate. intros [_ [q H]]. Lia.lia.
Qed.
Print Assumptions C31_maxpy_refuted.

(** What does hold: with positive representatives add and the three-argument
    sub are correct on every lane, for floating-point and integer lanes; *)
Theorem C31_addsub_partial : forall F s a b,
  wf F -> flo F = 0 -> holds s (2 * fp F) ->
  reduced (fp F) (flo F) a -> reduced (fp F) (flo F) b ->
  is_repr (fp F) (flo F) (a + b) (fs_add s (fp F) (fhi F) a b) /\
  is_repr (fp F) (flo F) (a - b) (fs_sub3 s (fp F) (flo F) a b).
Proof. exact fieldsimd_ok. Qed.
Print Assumptions C31_addsub_partial.

(** and in both representations mul and axpy are correct, maxpy being the
    opposite of the field operation, whenever a*b+c is exactly representable. *)
Theorem C31_mul_axpy : forall F prec a b c,
  wf F -> 2 <= prec -> absmax F * absmax F + absmax F <= 2 ^ prec ->
  reduced (fp F) (flo F) a -> reduced (fp F) (flo F) b -> reduced (fp F) (flo F) c ->
  is_repr (fp F) (flo F) (a * b) (fs_mul prec (fp F) (flo F) (fhi F) a b) /\
  is_repr (fp F) (flo F) (a * b + c) (fs_axpy prec (fp F) (flo F) (fhi F) a b c) /\
  is_repr (fp F) (flo F) (a * b - c) (fs_maxpy prec (fp F) (flo F) (fhi F) a b c).
Proof. exact fieldsimd_mul_ok. Qed.
Print Assumptions C31_mul_axpy.

Example C31_case :
  let F := balanced 94906265 in
  fs_axpy 53 (fp F) (flo F) (fhi F) 47453132 (-47453132) (-5) = 23726561 /\
  canon F (47453132 * -47453132 - 5) = 23726561.
Proof. vm_compute. repeat split. Qed.

(** ** C32 *)
Theorem C32_fadd_fsub_vectorised : forall F s positive vs t a b n m,
  wf F -> holds s (2 * fp F) -> (positive = true -> flo F = 0) -> (0 < vs)%nat ->
  same_or_disjoint t a n -> same_or_disjoint t b n ->
  (forall i, (i < n)%nat ->
     reduced (fp F) (flo F) (m (a + i)%nat) /\ reduced (fp F) (flo F) (m (b + i)%nat)) ->
  elementwise (fun x y z => is_repr (fp F) (flo F) (x + y) z) t a b n m
    (addp s positive (fp F) (flo F) (fhi F) vs t a b n m) /\
  elementwise (fun x y z => is_repr (fp F) (flo F) (x - y) z) t a b n m
    (subp s positive (fp F) (flo F) (fhi F) vs t a b n m).
Proof. exact addsub_ok. Qed.
Print Assumptions C32_fadd_fsub_vectorised.

Example C32_case :
  let F := balanced 101 in
  map (addp (SInt 32) false 101 (flo F) (fhi F) 4 3 23 27 9 (fun x => Z.of_nat x mod 101 - 50)) (seq 2 12)
  = [-48; -50; -48; -46; -44; -42; -40; -38; -36; -34; -38; -37] /\
  map (subp (Flt 24) true 101 0 100 4 3 23 27 9 (fun x => Z.of_nat x mod 101)) (seq 2 12)
  = [2; 97; 97; 97; 97; 97; 97; 97; 97; 97; 12; 13].
Proof. vm_compute. repeat split. Qed.

(** ** C52 *)

(** Over a field without vectorised additions, fsub with a stride different
    from one computes the sum: the else branch calls F.add in both cases. *)
Theorem C52_fsub_strided_refuted :
  exists n a inca b incb c incc m, strided_safe n c incc a inca b incb /\
    ~ strided_result Z.sub n c incc a inca b incb m
        (fadd_generic Z.add Z.sub false n a inca b incb c incc m).
Proof.
  exists 2%nat, 0%nat, 2%nat, 4%nat, 2%nat, 8%nat, 2%nat, Z.of_nat. split.
  - split; [auto|]. intros i j. Lia.lia.
  - intros [H _]. specialize (H 0%nat ltac:(auto)). vm_compute in H. discriminate.
Qed.
Print Assumptions C52_fsub_strided_refuted.

(** Addition with any strides and subtraction of contiguous vectors are right,
    whatever the field operations. *)
Theorem C52_generic_partial : forall fa fs ADD n a inca b incb c incc m,
  strided_safe n c incc a inca b incb ->
  (ADD = true \/ (inca = 1 /\ incb = 1 /\ incc = 1)%nat) ->
  strided_result (if ADD then fa else fs) n c incc a inca b incb m
    (fadd_generic fa fs ADD n a inca b incb c incc m).
Proof. exact fadd_generic_ok. Qed.
Print Assumptions C52_generic_partial.

Example C52_case :
  map (fadd_generic Z.add Z.sub true 2 0 2 4 2 8 2 Z.of_nat) (seq 0 12)
  = [0; 1; 2; 3; 4; 5; 6; 7; 4; 9; 8; 11].
Proof. vm_compute. reflexivity. Qed.
