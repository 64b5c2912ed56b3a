(** * faxpy and fscal on strided vectors: C77 *)
From Coq Require Import ZArith List Bool.
From Verif Require Import Delayed_model Delayed_spec Red_model Axpy_model Axpy_spec Axpy_proofs.
Import ListNotations.
Open Scope Z_scope.

(** y <- a x + y over a prime field stored in floating point: every entry is the
    representative, whatever the increments, the length, the alignment, the vector
    width, the path taken and the use of fused operations. *)
Theorem C77_faxpy_floating F prec fma fmav vs cr a n x incx y incy xc yc m :
  wf F -> 1 <= prec -> absmax F * absmax F + absmax F + fp F <= 2 ^ prec -> (0 < vs)%nat ->
  reduced (fp F) (flo F) a ->
  (forall i, (i < n)%nat -> reduced (fp F) (flo F) (m (x + i * incx)%nat) /\ reduced (fp F) (flo F) (m (y + i * incy)%nat)) ->
  apart n x incx y incy -> fresh n x incx y incy xc yc ->
  updated (fun u v r => is_repr (fp F) (flo F) (a * u + v) r) (buffers n xc yc) n x incx y incy m
    (faxpy_modular vs cr (axpy_flt prec fma (fp F) (flo F) (fhi F) a) (axpy_flt_lane prec fmav (fp F) (flo F) (fhi F) a)
       n x incx y incy xc yc m).
Proof. exact (faxpy_flt_ok F prec fma fmav vs cr a n x incx y incy xc yc m). Qed.
Print Assumptions C77_faxpy_floating.

(** The same for int64_t. *)
Theorem C77_faxpy_int64 F fma vs cr a n x incx y incy xc yc m :
  wf F -> fp F < 2 ^ 33 -> absmax F * absmax F + absmax F < 2 ^ 63 -> (0 < vs)%nat ->
  reduced (fp F) (flo F) a ->
  (forall i, (i < n)%nat -> reduced (fp F) (flo F) (m (x + i * incx)%nat) /\ reduced (fp F) (flo F) (m (y + i * incy)%nat)) ->
  apart n x incx y incy -> fresh n x incx y incy xc yc ->
  updated (fun u v r => is_repr (fp F) (flo F) (a * u + v) r) (buffers n xc yc) n x incx y incy m
    (faxpy_modular vs cr (axpy_int64 fma false (fp F) (flo F) (fhi F) a) (axpy_int64 fma true (fp F) (flo F) (fhi F) a)
       n x incx y incy xc yc m).
Proof. exact (faxpy_int64_ok F fma vs cr a n x incx y incy xc yc m). Qed.
Print Assumptions C77_faxpy_int64.

(** Nine entries with increments 2 and 3, through the copies (cr = 4) and
    through the strided loop (cr = 32); contiguous, Y not aligned. *)
Example C77_faxpy_example :
  let F := modular 101 in let m := (fun z => (Z.of_nat z * 7) mod 101) in
  let fs := axpy_flt 53 false 101 0 100 5 in let fv := axpy_flt_lane 53 true 101 0 100 5 in
  let want i := (5 * m (0 + i * 2)%nat + m (20 + i * 3)%nat) mod 101 in
  let at_ i := (20 + i * 3)%nat in
  map (fun i => faxpy_modular 4 4 fs fv 9 0 2 20 3 60 70 m (at_ i)) (seq 0 9) = map want (seq 0 9) /\
  map (fun i => faxpy_modular 4 32 fs fv 9 0 2 20 3 60 70 m (at_ i)) (seq 0 9) = map want (seq 0 9) /\
  map (faxpy_modular 4 32 fs fv 9 0 1 21 1 60 70 m) (seq 20 11) =
    m 20%nat :: map (fun i => (5 * m i + m (21 + i)%nat) mod 101) (seq 0 9) ++ [m 30%nat] /\
  map want (seq 0 9) = [39; 29; 19; 9; 100; 90; 80; 70; 60].
Proof. vm_compute. repeat split. Qed.

(** The other fields: right except for a = -1 with an increment different from one; *)
Theorem C77_faxpy_generic_partial add sub axpyin one mone a n x incx y incy m tmp :
  (forall u v, axpyin v one u = add u v) -> (forall u v, axpyin v mone u = sub v u) -> (forall u v, axpyin v 0 u = v) ->
  apart n x incx y incy -> (a <> mone \/ (incx = 1 /\ incy = 1)%nat) ->
  updated (fun u v r => r = axpyin v a u) tmp n x incx y incy m (faxpy_generic add sub axpyin one mone a n x incx y incy m).
Proof. exact (faxpy_generic_ok add sub axpyin one mone a n x incx y incy m tmp). Qed.
Print Assumptions C77_faxpy_generic_partial.

(** there it adds x to y instead of subtracting it, fsubin on strided vectors
    calling F.add: over the integers, 8 - 2 becomes 10. *)
Theorem C77_faxpy_generic_refuted :
  exists n x incx y incy m, apart n x incx y incy /\
    ~ updated (fun u v r => r = v - u) (fun _ => False) n x incx y incy m
        (faxpy_generic Z.add Z.sub (fun v a u => a * u + v) 1 (-1) (-1) n x incx y incy m).
Proof.
  exists 2%nat, 0%nat, 2%nat, 4%nat, 4%nat, Z.of_nat. split.
  - split; [auto|]. split; [auto|]. intros i j. Lia.lia.
  - intros [H _]. specialize (H 1%nat ltac:(auto)). vm_compute in H. discriminate.
Qed.
Print Assumptions C77_faxpy_generic_refuted.

Example C77_faxpy_generic_example :
  map (faxpy_generic Z.add Z.sub (fun v a u => a * u + v) 1 (-1) 3 2 0 2 4 4 Z.of_nat) (seq 0 10) = [0; 1; 2; 3; 4; 5; 6; 7; 14; 9] /\
  faxpy_generic Z.add Z.sub (fun v a u => a * u + v) 1 (-1) (-1) 2 0 2 4 4 Z.of_nat 8%nat = 10.
Proof. vm_compute. repeat split. Qed.

(** With incx = 0 (one value added to all the entries, as in the BLAS) the strided
    loop does nothing. *)
Theorem C77_faxpy_broadcast_refuted :
  exists a m, forall z, faxpy_generic Z.add Z.sub (fun v a u => a * u + v) 1 (-1) a 2 0 0 1 2 m z = m z /\
    a * m 0%nat + m 1%nat <> m 1%nat.
Proof. exists 2, (fun _ => 1). intro z. split; [reflexivity|discriminate]. Qed.
Print Assumptions C77_faxpy_broadcast_refuted.

(** y <- a x. *)
Theorem C77_fscal_floating F prec fma vs cr neg one mone a n x incx y incy xc yc m :
  wf F -> 1 <= prec -> absmax F * absmax F + fp F <= 2 ^ prec -> (0 < vs)%nat ->
  is_repr (fp F) (flo F) 1 one -> is_repr (fp F) (flo F) (-1) mone ->
  (forall v, reduced (fp F) (flo F) v -> is_repr (fp F) (flo F) (- v) (neg v)) ->
  reduced (fp F) (flo F) a ->
  (forall i, (i < n)%nat -> reduced (fp F) (flo F) (m (x + i * incx)%nat)) ->
  apart n x incx y incy -> fresh n x incx y incy xc yc ->
  updated (fun u _ r => is_repr (fp F) (flo F) (a * u) r) (buffers n xc yc) n x incx y incy m
    (fscal_modular vs cr (scal_flt prec fma (fp F) (flo F) (fhi F) a) (scal_flt_lane prec (fp F) (flo F) (fhi F) a)
       neg one mone a n x incx y incy xc yc m).
Proof. exact (fscal_flt_ok F prec fma vs cr neg one mone a n x incx y incy xc yc m). Qed.
Print Assumptions C77_fscal_floating.

Example C77_fscal_example :
  let m := (fun z => (Z.of_nat z * 7) mod 101) in let neg v := (- v) mod 101 in
  let sc a := fscal_modular 4 4 (scal_flt 53 false 101 0 100 a) (scal_flt_lane 53 101 0 100 a) neg 1 100 a 9 0 2 20 3 60 70 m in
  forall a, In a [0; 1; 5; 100] -> map (fun i => sc a (20 + i * 3)%nat) (seq 0 9) = map (fun i => (a * m (i * 2)%nat) mod 101) (seq 0 9).
Proof. cbv zeta. intros a [<-|[<-|[<-|[<-|[]]]]]; vm_compute; reflexivity. Qed.

(** Over DoubleDomain and FloatDomain x is read with the increment of y: right
    when they are equal only. *)
Theorem C77_fscal_domain_partial mul a n x y inc m tmp : apart n x inc y inc ->
  updated (fun u _ r => r = mul a u) tmp n x inc y inc m (fscal_domain mul a n x inc y inc m).
Proof. exact (fscal_domain_ok mul a n x y inc m tmp). Qed.
Print Assumptions C77_fscal_domain_partial.

Theorem C77_fscal_domain_refuted :
  exists a n x incx y incy m, apart n x incx y incy /\
    ~ updated (fun u _ r => r = a * u) (fun _ => False) n x incx y incy m (fscal_domain Z.mul a n x incx y incy m).
Proof.
  exists 2, 2%nat, 0%nat, 2%nat, 4%nat, 1%nat, Z.of_nat. split.
  - split; [auto|]. split; [auto|]. intros i j. Lia.lia.
  - intros [H _]. specialize (H 1%nat ltac:(auto)). vm_compute in H. discriminate.
Qed.
Print Assumptions C77_fscal_domain_refuted.

Example C77_fscal_domain_example :
  map (fscal_domain Z.mul 2 2 0 3 9 3 Z.of_nat) (seq 0 14) = [0; 1; 2; 3; 4; 5; 6; 7; 8; 0; 10; 11; 6; 13] /\
  map (fscal_domain Z.mul 2 2 0 2 4 1 Z.of_nat) (seq 0 7) = [0; 1; 2; 3; 0; 2; 6].
Proof. vm_compute. repeat split. Qed.

(** Matrices: Y <- a X + Y with leading dimensions. *)
Theorem C77_faxpy_matrix F prec fma fmav positive vs one mone a M n x ldx y ldy m :
  wf F -> 1 <= prec -> absmax F * absmax F + absmax F + fp F <= 2 ^ prec -> 2 * fp F <= 2 ^ prec -> (0 < vs)%nat ->
  (positive = true -> flo F = 0) ->
  is_repr (fp F) (flo F) 1 one -> is_repr (fp F) (flo F) (-1) mone ->
  reduced (fp F) (flo F) a ->
  (forall i j, (i < M)%nat -> (j < n)%nat -> reduced (fp F) (flo F) (m (x + i * ldx + j)%nat) /\ reduced (fp F) (flo F) (m (y + i * ldy + j)%nat)) ->
  apart2 M n x ldx y ldy ->
  updated2 (fun u v r => is_repr (fp F) (flo F) (a * u + v) r) M n x ldx y ldy m
    (faxpy2_flt prec fma fmav positive (fp F) (flo F) (fhi F) one mone vs a M n x ldx y ldy m).
Proof. exact (faxpy2_ok F prec fma fmav positive vs one mone a M n x ldx y ldy m). Qed.
Print Assumptions C77_faxpy_matrix.

Example C77_faxpy_matrix_example :
  let m := (fun z => (Z.of_nat z * 7) mod 101) in
  let run a := faxpy2_flt 53 false true true 101 0 100 1 100 4 a 3 5 0 6 20 8 m in
  forall a, In a [0; 1; 5; 100] ->
    map (run a) (seq 27 10) = map (fun z => if (28 <=? z)%nat && (z <? 33)%nat || (36 <=? z)%nat then
       (a * m (if (z <? 36)%nat then z - 28 + 6 else z - 36 + 12)%nat + m z) mod 101 else m z) (seq 27 10).
Proof. cbv zeta. intros a [<-|[<-|[<-|[<-|[]]]]]; vm_compute; reflexivity. Qed.
