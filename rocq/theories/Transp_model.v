(** * Model of ftranspose on a flat memory: fflas/fflas_transpose.h *)
From Coq Require Import Arith List Bool.
Import ListNotations.

Section Transp.
Context {T : Type}.

(** One flat memory; pointers are addresses.  The temporaries (stack arrays,
    fflas_new) live at addresses chosen by the caller of the model. *)
Definition mem := nat -> T.
Definition put (x : nat) (v : T) (M : mem) : mem := fun y => if y =? x then v else M y.

(** for (k = 0; k < n; ++k) *)
Fixpoint loop (n : nat) (f : nat -> mem -> mem) (M : mem) : mem :=
  match n with O => M | S n => f n (loop n f M) end.

(** for (i = lo; i < n; i += s) *)
Fixpoint for_lt (fuel lo n s : nat) (f : nat -> mem -> mem) (M : mem) : mem :=
  match fuel with
  | O => M
  | S fuel => if lo <? n then for_lt fuel (lo + s) n s f (f lo M) else M
  end.

(** for (i = lo; i + s <= n; i += s); also returns the final value of i *)
Fixpoint for_le (fuel lo n s : nat) (f : nat -> mem -> mem) (M : mem) : nat * mem :=
  match fuel with
  | O => (lo, M)
  | S fuel => if lo + s <=? n then for_le fuel (lo + s) n s f (f lo M) else (lo, M)
  end.

(** fflas_fassign.inl:46-64: X <- Y on vectors. *)
Definition fassign1 (N y incy x incx : nat) : mem -> mem :=
  loop N (fun k M => put (x + k * incx) (M (y + k * incy)) M).

(** fflas_fassign.inl:162-180: B <- A on matrices. *)
Definition fassign2 (m n a lda b ldb : nat) (M : mem) : mem :=
  if (n =? lda) && (n =? ldb) then fassign1 (m * n) a 1 b 1 M
  else loop m (fun i => fassign1 n (a + i * lda) 1 (b + i * ldb) 1) M.

Section Impl.
Variables (bs vs : nat).

(** BlockTransposeSIMD::transpose, l.68-122: vs loads, the transposition of the
    registers (see Shuf_model), vs stores. *)
Definition bts (a lda b ldb : nat) (M : mem) : mem :=
  let R i j := M (a + lda * i + j) in
  loop vs (fun i => loop vs (fun k => put (b + ldb * i + k) (R k i))) M.

(** l.142-172 *)
Definition not_inplace (m n a lda b ldb : nat) (M : mem) : mem :=
  let M :=
    for_lt (S m) 0 m bs (fun ib =>
      let ibend := Nat.min m (ib + bs) in
      for_lt (S n) 0 n bs (fun jb =>
        let jbend := Nat.min n (jb + bs) in
        fun M => snd (for_le (S m) ib ibend vs (fun iv M =>
          snd (for_le (S n) jb jbend vs (fun jv =>
            bts (a + iv * lda + jv) lda (b + jv * ldb + iv) ldb) M)) M))) M in
  let last_i := m / vs * vs in
  let M := for_lt (S n) (n / vs * vs) n 1 (fun j => fassign1 last_i (a + j) lda (b + j * ldb) 1) M in
  for_lt (S m) last_i m 1 (fun i => fassign1 n (a + i * lda) 1 (b + i) ldb) M.

(** l.180-227; the arrays TMP1 and TMP2 of bs*bs elements are at t1 and t2. *)
Definition square_inplace (t1 t2 m a lda : nat) (M : mem) : mem :=
  for_lt (S m) 0 m bs (fun ib =>
    let l := Nat.min bs (m - ib) in
    let ibend := Nat.min m (ib + bs) in
    for_lt (S m) ib m bs (fun jb M =>
      let k := Nat.min bs (m - jb) in
      let jbend := Nat.min m (jb + bs) in
      let M := fassign2 l k (a + ib * lda + jb) lda t1 bs M in
      let M := fassign2 k l (a + jb * lda + ib) lda t2 bs M in
      let '(iv, M) := for_le (S m) ib ibend vs (fun iv M =>
        let '(jv, M) := for_le (S m) jb jbend vs (fun jv M =>
          let M := bts (t2 + (jv - jb) * bs + (iv - ib)) bs (a + iv * lda + jv) lda M in
          bts (t1 + (iv - ib) * bs + (jv - jb)) bs (a + jv * lda + iv) lda M) M in
        for_lt (S m) jv jbend 1 (fun j M =>
          let M := fassign1 vs (t2 + (j - jb) * bs + (iv - ib)) 1 (a + iv * lda + j) lda M in
          fassign1 vs (t1 + (iv - ib) * bs + (j - jb)) bs (a + j * lda + iv) 1 M) M) M in
      for_lt (S m) iv ibend 1 (fun i M =>
        fassign1 (jbend - iv) (t2 + (iv - jb) * bs + (i - ib)) bs (a + i * lda + iv) 1 M) M)) M.

(** l.236-247; TMP is allocated at t *)
Definition nonsquare_inplace (t m n a : nat) (M : mem) : mem :=
  let M := fassign2 m n a n t n M in
  not_inplace m n t n a m M.

(** l.318-353; [None] when a FFLASFFPACK_check fails. *)
Definition ftranspose (t1 t2 m n a lda b ldb : nat) (M : mem) : option mem :=
  if negb ((n <=? lda) && (m <=? ldb)) then None
  else if negb (a =? b) then Some (not_inplace m n a lda b ldb M)
  else if m =? n then
    if lda =? ldb then Some (square_inplace t1 t2 m b ldb M) else None
  else if (n =? lda) && (m =? ldb) then Some (nonsquare_inplace t1 m n b M) else None.
End Impl.
End Transp.
