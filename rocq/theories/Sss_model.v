(** * Sequentially semi-separable matrices: ffpack/ffpack_sss.inl

    The temporaries Temp1 and Temp2 are fresh arrays; their first contents T1
    and T2 are arguments of the model.  None: the code divides by s = 0 or
    leaves its arrays. *)
From mathcomp Require Import all_ssreflect all_algebra.
From Verif Require Import Grid Perm_model Tri_model Pluq_model.
Set Implicit Arguments.
Unset Strict Implicit.
Unset Printing Implicit Defensive.
Import GRing.Theory.
Local Open Scope ring_scope.

Section Sss.
Variable F : fieldType.
Implicit Types A B C D P Q R U V W T : grid F.

(** ffpack_sss.inl:57-60 (and 231-234, 382-385): number of blocks, order of the
    last one. *)
Definition sss_k (N s : nat) : nat := (if N %% s != 0 then (N %/ s).+1 else N %/ s)%N.
Definition sss_ls (N s : nat) : nat := (if N %% s != 0 then N %% s else s)%N.

(** l.82-93: C <- beta C + alpha diag(D) B. *)
Definition sss_diag (N t s : nat) (alpha : F) D B (beta : F) C : grid F :=
  let kf := (N %/ s)%N in let rs := (N %% s)%N in
  let C := iteri kf (fun b C => at_ (b * s) 0 (fgemm NoTrans NoTrans s t s alpha (sub (b * s) 0 D) (sub (b * s) 0 B) beta) C) C in
  if rs != 0%N then at_ (kf * s) 0 (fgemm NoTrans NoTrans rs t rs alpha (sub (kf * s) 0 D) (sub (kf * s) 0 B) beta) C
  else C.

Record sss_state := Sss { ssC : grid F; ssT1 : grid F; ssT2 : grid F; ssbs : nat }.

(** l.104-150, one turn, block = 2 i. *)
Definition sss_low_step (N t s : nat) (alpha : F) P Q R B (i : nat) (st : sss_state) : sss_state :=
  let kf := (N %/ s)%N in let rs := (N %% s != 0)%N in let k := sss_k N s in let ls := sss_ls N s in
  let block := i.*2 in
  let: Sss C T1 T2 bs := st in
  let bs := if (block + 2 == k)%N then ls else bs in
  let C := if [|| block + 2 < kf, kf %% 2 == 0 | rs]%N then
      at_ ((block + 1) * s) 0 (fgemm NoTrans NoTrans bs t s 1 (sub (block * s) 0 P) T1 1) C else C in
  let: (C, T2, bs) := if (block + 2 < kf)%N || rs && (kf %% 2 == 0)%N then
      let T2 := fgemm NoTrans NoTrans s t s alpha (sub ((block + 1) * s) 0 Q) (sub ((block + 1) * s) 0 B) 0 T2 in
      let T2 := fgemm NoTrans NoTrans s t s 1 (sub (block * s) 0 R) T1 1 T2 in
      let bs := if (block + 3 == k)%N then ls else bs in
      (at_ ((block + 2) * s) 0 (fgemm NoTrans NoTrans bs t s 1 (sub ((block + 1) * s) 0 P) T2 1) C, T2, bs)
    else (C, T2, bs) in
  let T1 := if (block + 2 < kf)%N && [|| block + 4 < kf, kf %% 2 == 0 | rs]%N then
      let T1 := fgemm NoTrans NoTrans s t s alpha (sub ((block + 2) * s) 0 Q) (sub ((block + 2) * s) 0 B) 0 T1 in
      fgemm NoTrans NoTrans s t s 1 (sub ((block + 1) * s) 0 R) T2 1 T1
    else T1 in
  Sss C T1 T2 bs.

(** l.95-150: the lower triangular part. *)
Definition sss_low (N t s : nat) (alpha : F) P Q R B C T1 T2 : sss_state :=
  let T1 := if (1 < sss_k N s)%N then fgemm NoTrans NoTrans s t s alpha Q B 0 T1 else T1 in
  iteri (uphalf (N %/ s)) (sss_low_step N t s alpha P Q R B) (Sss C T1 T2 s).

(** l.160-197, one turn, block = 2 i. *)
Definition sss_up_step (N t s : nat) (alpha : F) U V W B (i : nat) (st : sss_state) : sss_state :=
  let k := sss_k N s in let block := i.*2 in
  let: Sss C T1 T2 bs := st in
  let C := at_ ((k - 2 - block) * s) 0 (fgemm NoTrans NoTrans s t s 1 (sub ((k - 2 - block) * s) 0 U) T1 1) C in
  let T2 := fgemm NoTrans NoTrans s t s alpha (sub ((k - 3 - block) * s) 0 V) (sub ((k - 2 - block) * s) 0 B) 0 T2 in
  let T2 := fgemm NoTrans NoTrans s t s 1 (sub ((k - 3 - block) * s) 0 W) T1 1 T2 in
  let C := at_ ((k - 3 - block) * s) 0 (fgemm NoTrans NoTrans s t s 1 (sub ((k - 3 - block) * s) 0 U) T2 1) C in
  let T1 := if (block + 4 < k)%N || odd (k - 1) then
      let T1 := fgemm NoTrans NoTrans s t s alpha (sub ((k - 4 - block) * s) 0 V) (sub ((k - 3 - block) * s) 0 B) 0 T1 in
      fgemm NoTrans NoTrans s t s 1 (sub ((k - 4 - block) * s) 0 W) T2 1 T1
    else T1 in
  Sss C T1 T2 bs.

(** l.151-201: the upper triangular part.  The first product reads V + (k-2)*s*ldv
    also when there is only the partial block (N < s, k = 1), which is before
    the start of V; with N = 0, k - 1 is the largest size_t, odd, and s lines
    of C are written. *)
Definition sss_up (N t s : nat) (alpha : F) U V W B (st : sss_state) : option (grid F) :=
  let k := sss_k N s in let ls := sss_ls N s in
  let: Sss C T1 T2 bs := st in
  if (k == 0)%N || (k == 1)%N && ((1 < N %/ s)%N || (N %% s != 0)%N) then None else
  let T1 := if (1 < N %/ s)%N || (N %% s != 0)%N then
      fgemm NoTrans NoTrans s t ls alpha (sub ((k - 2) * s) 0 V) (sub ((k - 1) * s) 0 B) 0 T1 else T1 in
  let st := iteri (uphalf (k - 2)) (sss_up_step N t s alpha U V W B) (Sss C T1 T2 bs) in
  Some (if odd (k - 1) then fgemm NoTrans NoTrans s t s 1 U (ssT1 st) 1 (ssC st) else ssC st).

(** l.32-205 [productSSSxTS]. *)
Definition productSSSxTS (N t s : nat) (alpha : F) P Q R U V W D B (beta : F) C T1 T2 : option (grid F) :=
  if s == 0%N then None else
  sss_up N t s alpha U V W B (sss_low N t s alpha P Q R B (sss_diag N t s alpha D B beta C) T1 T2).

(** State of SSSToDense: A, Temp1, Temp2. *)
Record ssd_state := Ssd { sdA : grid F; sdT1 : grid F; sdT2 : grid F }.

(** l.282-303, one turn, block = 1 + 2 i. *)
Definition ssd_low_in (s bsize row : nat) Q R (i : nat) (st : ssd_state) : ssd_state :=
  let block := i.*2.+1 in
  let: Ssd A T1 T2 := st in
  let A := at_ ((row + 1) * s) ((row - block) * s) (fgemm NoTrans NoTrans bsize s s 1 T1 (sub ((row - block) * s) 0 Q) 0) A in
  let T2 := fgemm NoTrans NoTrans bsize s s 1 T1 (sub ((row - 1 - block) * s) 0 R) 0 T2 in
  let A := at_ ((row + 1) * s) ((row - block - 1) * s) (fgemm NoTrans NoTrans bsize s s 1 T2 (sub ((row - block - 1) * s) 0 Q) 0) A in
  let T1 := if (block + 1 < row)%N then fgemm NoTrans NoTrans bsize s s 1 T2 (sub ((row - block - 2) * s) 0 R) 0 T1 else T1 in
  Ssd A T1 T2.

(** l.268-309, one row. *)
Definition ssd_low_row (N s : nat) P Q R (row : nat) (st : ssd_state) : ssd_state :=
  let bsize := if row == (sss_k N s - 2)%N then sss_ls N s else s in
  let: Ssd A T1 T2 := st in
  let A := at_ ((row + 1) * s) (row * s) (fgemm NoTrans NoTrans bsize s s 1 (sub (row * s) 0 P) (sub (row * s) 0 Q) 0) A in
  let T1 := if (0 < row)%N then fgemm NoTrans NoTrans bsize s s 1 (sub (row * s) 0 P) (sub ((row - 1) * s) 0 R) 0 T1 else T1 in
  let: Ssd A T1 T2 := iteri (uphalf row.-1) (ssd_low_in s bsize row Q R) (Ssd A T1 T2) in
  Ssd (if odd row then at_ ((row + 1) * s) 0 (fgemm NoTrans NoTrans bsize s s 1 T1 Q 0) A else A) T1 T2.

(** l.327-348, one turn, block = 1 + 2 i. *)
Definition ssd_up_in (s bsize col : nat) U W (i : nat) (st : ssd_state) : ssd_state :=
  let block := i.*2.+1 in
  let: Ssd A T1 T2 := st in
  let A := at_ ((col - block) * s) ((col + 1) * s) (fgemm NoTrans NoTrans s bsize s 1 (sub ((col - block) * s) 0 U) T1 0) A in
  let T2 := fgemm NoTrans NoTrans s bsize s 1 (sub ((col - 1 - block) * s) 0 W) T1 0 T2 in
  let A := at_ ((col - block - 1) * s) ((col + 1) * s) (fgemm NoTrans NoTrans s bsize s 1 (sub ((col - block - 1) * s) 0 U) T2 0) A in
  let T1 := if (block + 1 < col)%N then fgemm NoTrans NoTrans s bsize s 1 (sub ((col - block - 2) * s) 0 W) T2 0 T1 else T1 in
  Ssd A T1 T2.

(** l.312-354, one column. *)
Definition ssd_up_col (N s : nat) U V W (col : nat) (st : ssd_state) : ssd_state :=
  let bsize := if col == (sss_k N s - 2)%N then sss_ls N s else s in
  let: Ssd A T1 T2 := st in
  let A := at_ (col * s) ((col + 1) * s) (fgemm NoTrans NoTrans s bsize s 1 (sub (col * s) 0 U) (sub (col * s) 0 V) 0) A in
  let T1 := if (0 < col)%N then fgemm NoTrans NoTrans s bsize s 1 (sub ((col - 1) * s) 0 W) (sub (col * s) 0 V) 0 T1 else T1 in
  let: Ssd A T1 T2 := iteri (uphalf col.-1) (ssd_up_in s bsize col U W) (Ssd A T1 T2) in
  Ssd (if odd col then at_ 0 ((col + 1) * s) (fgemm NoTrans NoTrans s bsize s 1 U T1 0) A else A) T1 T2.

(** l.208-357 [SSSToDense]; for N = 0 the loops run to k - 1 = 2^64 - 1. *)
Definition SSSToDense (N s : nat) P Q R U V W D A T1 T2 : option (grid F) :=
  if (s == 0)%N || (N == 0)%N then None else
  let kf := (N %/ s)%N in let rs := (N %% s)%N in let k := sss_k N s in
  let A := iteri kf (fun b A => at_ (b * s) (b * s) (fassign s s (sub (b * s) 0 D)) A) A in
  let A := if rs != 0%N then at_ (kf * s) (kf * s) (fassign rs rs (sub (kf * s) 0 D)) A else A in
  let st := iteri (k - 1) (ssd_low_row N s P Q R) (Ssd A T1 T2) in
  Some (sdA (iteri (k - 1) (ssd_up_col N s U V W) st)).

End Sss.
