(** * C40, C41, C51: probabilistic certificates *)
From mathcomp Require Import all_ssreflect all_algebra.
From Verif Require Import Grid Lit Perm_model Perm_spec Tri_model Tri_spec Pluq_model Pluq_spec Api_model
  Check_model Check_spec Check_proofs.
Set Implicit Arguments.
Unset Strict Implicit.
Unset Printing Implicit Defensive.
Local Open Scope ring_scope.
Import GRing.Theory.

(** C40. A right product is accepted for every vector (and whatever the work
    buffers contained), a wrong one for at most one vector in q.  Missing:
    k = 0 with op(A) = A^T, n = 0 with op(B) = B^T (refuted below). *)
Theorem C40_freivalds_partial : forall (F : finFieldType) ta tb m n k alpha (A B C : grid F) jy jx,
  (ta = Trans -> (0 < k)%N) -> (tb = Trans -> (0 < n)%N) ->
  let right := mx m n C = alpha *: (mx m k (optr ta A) *m mx k n (optr tb B)) in
  let test v := freivalds ta tb m n k alpha A B C v jy jx in
  (right -> forall v, test v) /\ (~ right -> rarely #|F| (fun v : 'cV[F]_n => test (vec v))).
Proof. exact freivalds_test. Qed.
Print Assumptions C40_freivalds_partial.

(** C40. With an empty inner dimension and A transposed, fgemv returns before
    clearing its output: the right product 0 is rejected. *)
Theorem C40_freivalds_refuted : exists m n k alpha (A B C : grid [finFieldType of 'F_7]) v jy jx,
  mx m n C = alpha *: (mx m k (optr Trans A) *m mx k n (optr NoTrans B)) /\
  freivalds Trans NoTrans m n k alpha A B C v jy jx = false.
Proof.
exists 1%N, 1%N, 0%N, 1, (fun _ _ => 0), (fun _ _ => 0), (fun _ _ => 0), (fun=> 1), (fun=> 0), (fun=> 3%:R); split.
  by apply/matrixP => i j; rewrite !mxE big_ord0 mulr0.
by vm_compute.
Qed.
Print Assumptions C40_freivalds_refuted.

Definition KA : grid 'F_7 := gl 7 [:: [:: 1; 2; 3]; [:: 4; 5; 6]]%N.
Definition KB : grid 'F_7 := gl 7 [:: [:: 1; 1]; [:: 0; 2]; [:: 3; 5]]%N.
Definition kv (i : nat) : 'F_7 := nth 0 [:: 2%:R; 3%:R; 5%:R] i.
Example C40_case :
  let C : grid 'F_7 := fgemm NoTrans NoTrans 2 2 3 1 KA KB 0 KA in
  freivalds NoTrans NoTrans 2 2 3 1 KA KB C kv kv kv = true /\
  freivalds NoTrans NoTrans 2 2 3 1 KA KB (upd C 1 0 3%:R) kv kv kv = false.
Proof. by vm_compute. Qed.

(** C41. The four checkers; a certificate for a result which is right always
    passes, one for a wrong result passes for at most one vector in q. *)
Theorem C41_fgemm : forall (F : finFieldType) ta tb m n k alpha (A B : grid F) beta Cold C,
  let right := mx m n C = alpha *: (mx m k (optr ta A) *m mx k n (optr tb B)) + beta *: mx m n Cold in
  let test v := check_fgemm ta tb m n k alpha A B beta Cold C v in
  (right -> forall v, test v) /\ (~ right -> rarely #|F| (fun v : 'cV[F]_n => test (vec v))).
Proof. exact check_fgemm_test. Qed.
Print Assumptions C41_fgemm.

Theorem C41_ftrsm : forall (F : finFieldType) s u t d m n alpha (A B X : grid F),
  let right := match s with
     | SLeft => opmx t (trimx u d m A) *m mx m n X
     | SRight => mx m n X *m opmx t (trimx u d n A) end = alpha *: mx m n B in
  let test v := check_ftrsm s u t d m n alpha A B X v in
  (right -> forall v, test v) /\ (~ right -> rarely #|F| (fun v : 'cV[F]_n => test (vec v))).
Proof. exact check_ftrsm_test. Qed.
Print Assumptions C41_ftrsm.

Theorem C41_invert : forall (F : finFieldType) m (A X : grid F),
  let right := mx m m X *m mx m m A = 1%:M in
  let test v := check_invert m A X 0 v in
  (right -> forall v, test v) /\ (~ right -> rarely #|F| (fun v : 'cV[F]_m => test (vec v))).
Proof. exact check_invert_test. Qed.
Print Assumptions C41_invert.

Theorem C41_PLUQ : forall (F : finFieldType) bk d m n (A X : grid F) r P Q junk,
  (0 < bk)%N -> is_lapack m P -> is_lapack n Q -> (r <= m)%N -> (r <= n)%N ->
  let right := mx m n A = (Pmx F m P 0 m)^T *m Lmx d m r X *m Umx d r n X *m Pmx F n Q 0 n in
  let test v := check_PLUQ bk d m n A X r P Q v junk in
  (right -> forall v, test v) /\ (~ right -> rarely #|F| (fun v : 'cV[F]_n => test (vec v))).
Proof. exact check_PLUQ_test. Qed.
Print Assumptions C41_PLUQ.

Example C41_case :
  let: Pluq X P Q R := PLUQ 1 NonUnit 1 2 3 KA in
  check_PLUQ 1 NonUnit 2 3 KA X R P Q kv kv = true /\
  check_PLUQ 1 NonUnit 2 3 KA (upd X 1 2 3%:R) R P Q kv kv = false.
Proof. by vm_compute. Qed.

(** C51. Determinant checker: never rejects what PLUQ and Det return; accepts
    a wrong determinant, whatever the factors given, for at most (q+1)/q^2 of
    the draws. *)
Theorem C51_Det_complete : forall (F : finFieldType) bk thr n (A : grid F) uv w, (0 < bk)%N ->
  let: Pluq X P Q R := PLUQ bk NonUnit thr n n A in
  check_Det bk n A (\det (mx n n A)) X P Q uv w.
Proof. exact check_Det_complete. Qed.
Print Assumptions C51_Det_complete.

Theorem C51_Det_sound : forall (F : finFieldType) bk n (A : grid F) det X P Q,
  (0 < bk)%N -> is_lapack n P -> is_lapack n Q -> det <> \det (mx n n A) ->
  rarely2 #|F| (fun x : 'M[F]_(n, 2) * 'cV[F]_n => check_Det bk n A det X P Q (vec2 x.1) (vec x.2)).
Proof. exact check_Det_sound. Qed.
Print Assumptions C51_Det_sound.

(** C51. Characteristic polynomial checker.  Missing: n = 0 (refuted below). *)
Theorem C51_charpoly_partial : forall (F : finFieldType) bk thr n (A : grid F) (g : seq F) v junk,
  (0 < bk)%N -> (0 < n)%N ->
  (Poly g = char_poly (mx n n A) -> forall a, check_charpoly bk thr n A g a v junk = Some true) /\
  (Poly g <> char_poly (mx n n A) ->
   (#|[pred a | check_charpoly bk thr n A g a v junk == Some true]| <= maxn (size g).-1 n)%N).
Proof. exact check_charpoly_test. Qed.
Print Assumptions C51_charpoly_partial.

(** An empty matrix: the checker reads outside its allocation. *)
Theorem C51_charpoly_refuted : exists (A : grid [finFieldType of 'F_7]) g a v junk,
  Poly g = char_poly (mx 0 0 A) /\ check_charpoly 1 1 0 A g a v junk = None.
Proof.
exists (fun _ _ => 0), [:: 1], 0, (fun=> 0), (fun=> 0); split; last by vm_compute.
by rewrite /char_poly det_mx00; apply/polyP => i; rewrite coef_Poly coef1; case: i => [|[|i]].
Qed.
Print Assumptions C51_charpoly_refuted.

Example C51_case :
  let A : grid 'F_7 := gl 7 [:: [:: 0; 2]; [:: 3; 5]]%N in
  let: Pluq X P Q R := PLUQ 1 NonUnit 1 2 2 A in
  check_Det 1 2 A 1 X P Q KB kv = true /\
  check_Det 1 2 A 2%:R X P Q KB kv = false /\
  check_charpoly 1 1 2 A [:: 1; 2%:R; 1] 4%:R kv kv = Some true /\
  check_charpoly 1 1 2 A [:: 1; 3%:R; 1] 4%:R kv kv = Some false.
Proof. by vm_compute. Qed.
