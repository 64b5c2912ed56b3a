(** * Permutations: ffpack/ffpack_permutation.inl

    Permutation arrays are functions [nat -> nat]; cells outside [0,N) exist
    and are left alone. *)
From mathcomp Require Import all_ssreflect.
From Verif Require Import Grid.
Set Implicit Arguments.
Unset Strict Implicit.
Unset Printing Implicit Defensive.

Inductive side := SLeft | SRight.
Inductive transp := NoTrans | Trans.

(** [std::swap(a[i], a[j])]. *)
Definition swap1 (T : Type) (a : nat -> T) (i j : nat) : nat -> T :=
  let ai := a i in let aj := a j in upd1 (upd1 a i aj) j ai.

Section Apply.
Variable T : Type.
Implicit Type A : grid T.

(** fflas_level1.inl:376-391, one iteration of [fswap]. *)
Definition swap_cell A (i1 j1 i2 j2 : nat) : grid T :=
  let x := A i1 j1 in let y := A i2 j2 in upd (upd A i1 j1 y) i2 j2 x.

(** [fswap(F, M, A + a*lda, 1, A + b*lda, 1)]: exchange rows a and b, M columns. *)
Definition fswap_row (M a b : nat) A : grid T :=
  iteri M (fun k A => swap_cell A a k b k) A.

(** [fswap(F, M, A + a, lda, A + b, lda)]: exchange columns a and b, M rows. *)
Definition fswap_col (M a b : nat) A : grid T :=
  iteri M (fun k A => swap_cell A k a k b) A.

(** ffpack_permutation.inl:294-322 [applyP_block].  The ascending loop
    [for i=ibeg; i<iend] is [iteri (iend-ibeg)] shifted by [ibeg]; the
    descending one is [iterd]. *)
Definition applyP_block (s : side) (t : transp) (M ibeg iend : nat)
    (P : nat -> nat) A : grid T :=
  let step i A :=
    if P i != i then
      if s is SRight then fswap_col M (P i) i A else fswap_row M (P i) i A
    else A in
  let up := iteri (iend - ibeg) (fun k => step (ibeg + k)) in
  let down := iterd (iend - ibeg) (fun k => step (ibeg + k)) in
  match s, t with
  | SRight, Trans => up A
  | SRight, NoTrans => down A
  | SLeft, NoTrans => up A
  | SLeft, Trans => down A
  end.

(** ffpack_permutation.inl:324-343 [applyP]; [bk] is FFLASFFPACK_PERM_BKSIZE
    (32 at line 35), kept symbolic. *)
Definition applyP (bk : nat) (s : side) (t : transp) (M ibeg iend : nat)
    (P : nat -> nat) A : grid T :=
  let NB := M %/ bk in let last := M %% bk in
  let blk i := if s is SLeft then at_ 0 (i * bk) else at_ (i * bk) 0 in
  blk NB (applyP_block s t last ibeg iend P)
   (iteri NB (fun i => blk i (applyP_block s t bk ibeg iend P)) A).

(** ffpack_permutation.inl:780-797 [applyP] on several tasks: each block
    (begin, size) of a decomposition of [0,m) is treated by [applyP]; the
    list gives the order in which the tasks happen to run. *)
Definition applyP_tasks (bk : nat) (s : side) (t : transp) (ibeg iend : nat)
    (P : nat -> nat) (blocks : seq (nat * nat)) A : grid T :=
  foldl (fun A b =>
     (if s is SLeft then at_ 0 b.1 else at_ b.1 0) (applyP bk s t b.2 ibeg iend P) A) A blocks.

(** [fassign(F, m, n, X, ldx, Y, ldy)], non overlapping operands (fflas_fassign.inl):
    Y's m x n window receives X's. *)
Definition fassign (m n : nat) (X : grid T) A : grid T := fill m n X A.

(** ffpack_permutation.inl:345-355 [doApplyS].  The destination of the second
    copy may overlap its source; rows are copied in increasing order (the
    row-wise copy of fflas_fassign.inl), each row to a smaller index. *)
Definition doApplyS (width M2 R1 R2 R3 R4 : nat) A : grid T :=
  let d := M2 - R1 - R2 in
  let tmp := memo d width (sub (R1 + R2) 0 A) in
  let A1 := iteri (R3 + R4) (fun k A => at_ (R1 + R2 + k) 0 (fassign 1 width (sub (M2 + k) 0 A)) A) A in
  at_ (R1 + R2 + R3 + R4) 0 (fassign d width tmp) A1.

(** ffpack_permutation.inl:403-416 [doApplyT]; the element copies of the
    second and fourth [fassign] run in increasing column order. *)
Definition doApplyT_row (N2 R1 R2 R3 R4 : nat) A : grid T :=
  let d := N2 - R1 in
  let tmp := memo 1 d (sub 0 R1 A) in
  let A1 := iteri R2 (fun c A => upd A 0 (R1 + c) (A 0 (N2 + c))) A in
  let A2 := at_ 0 (R1 + R2) (fassign 1 R3 tmp) A1 in
  let A3 := iteri R4 (fun c A => upd A 0 (R1 + R2 + R3 + c) (A 0 (N2 + R2 + c))) A2 in
  at_ 0 (R1 + R2 + R3 + R4) (fassign 1 (d - R3) (sub 0 R3 tmp)) A3.

Definition doApplyT (width N2 R1 R2 R3 R4 : nat) A : grid T :=
  iteri width (fun k => at_ k 0 (doApplyT_row N2 R1 R2 R3 R4)) A.

End Apply.

(** ffpack_permutation.inl:468-478 *)
Definition lapack2math (MathP LapackP : nat -> nat) (N : nat) : nat -> nat :=
  let M0 := iteri N (fun i m => upd1 m i i) MathP in
  iteri N (fun i m => if LapackP i != i then swap1 m i (LapackP i) else m) M0.

(** ffpack_permutation.inl:483-503; state (LapackP, T, Tinv). *)
Definition math2lapack_step (MathP : nat -> nat) (i : nat)
    (s : (nat -> nat) * (nat -> nat) * (nat -> nat)) :=
  let: (P, T, Ti) := s in
  let j := Ti (MathP i) in
  let P := upd1 P i j in
  let tmp := T j in
  let T := upd1 T j (T i) in
  let Ti := upd1 Ti (T i) j in
  let T := upd1 T i tmp in
  let Ti := upd1 Ti tmp i in
  (P, T, Ti).

Definition math2lapack (LapackP MathP : nat -> nat) (N : nat) : nat -> nat :=
  (iteri N (math2lapack_step MathP) (LapackP, id, id)).1.1.

(** ffpack_permutation.inl:543-554 *)
Definition composeMLM (MathP1 P2 : nat -> nat) (R N : nat) : nat -> nat :=
  iteri (N - R) (fun k m =>
    let i := R + k in
    if P2 (i - R) != i - R then
      let tmp := m i in
      let m := upd1 m i (m (P2 (i - R) + R)) in
      upd1 m (P2 (i - R) + R) tmp
    else m) MathP1.

(** ffpack_permutation.inl:526-535 *)
Definition composeLLM (MathP P1 P2 : nat -> nat) (R N : nat) : nat -> nat :=
  composeMLM (lapack2math MathP P1 N) P2 R N.

(** ffpack_permutation.inl:511-518; [MathP0] is the uninitialised buffer. *)
Definition composeLLL (MathP0 P1 P2 : nat -> nat) (R N : nat) : nat -> nat :=
  math2lapack P1 (composeLLM MathP0 P1 P2 R N) N.

(** ffpack_permutation.inl:556-567: [P[0..s-1]] rotated right by one.
    std::copy on overlapping ranges with the destination inside the source is
    outside the C++ contract; modelled as the memmove all implementations
    perform for trivially copyable elements. *)
Definition cyclic_shift_mathPerm (P : nat -> nat) (s : nat) : nat -> nat :=
  let tmp := P s.-1 in
  fun x => if x == 0 then tmp else if x < s then P x.-1 else P x.

(** ffpack_permutation.inl:389-399 and 453-463: a vector as a one-column
    (PermApplyS, lda = 1, width = 1) or one-row (PermApplyT) matrix. *)
Definition PermApplyS (P : nat -> nat) (M2 R1 R2 R3 R4 : nat) : nat -> nat :=
  fun i => doApplyS 1 M2 R1 R2 R3 R4 (fun i _ => P i) i 0.
Definition PermApplyT (P : nat -> nat) (N2 R1 R2 R3 R4 : nat) : nat -> nat :=
  fun j => doApplyT 1 N2 R1 R2 R3 R4 (fun _ j => P j) 0 j.

Section Shift.
Variable T : Type.
Implicit Type A : grid T.

(** ffpack_permutation.inl:673-712 [cyclic_shift_row]: rows 0..m-1, n columns,
    rotated down by one. *)
Definition cyclic_shift_row (m n : nat) A : grid T :=
  if m > 1 then
    let b := memo 1 n (sub m.-1 0 A) in
    let A1 := iterd m.-1 (fun k A => at_ k.+1 0 (fassign 1 n (sub k 0 A)) A) A in
    fassign 1 n b A1
  else A.

(** ffpack_permutation.inl:734-749 [cyclic_shift_col]; copy_backward copies
    from the last element down. *)
Definition cyclic_shift_col (m n : nat) A : grid T :=
  if n > 1 then
    iteri m (fun i A =>
      let tmp := A i n.-1 in
      upd (iterd n.-1 (fun j A => upd A i j.+1 (A i j)) A) i 0 tmp) A
  else A.
End Shift.
