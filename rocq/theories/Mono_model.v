(** * Monotonic permutations: ffpack_permutation.inl:38-106, 108-140, 259-292

    Simplifications: the early return of MonotonicApplyP leaks MathP (no effect
    on the contents); [int dest], [int src] are unbounded; the variants under
    MONOTONIC_MOREPIVOTS and MONOTONIC_CYCLES are not modelled. *)
From mathcomp Require Import all_ssreflect.
From Verif Require Import Grid Perm_model.
Set Implicit Arguments.
Unset Strict Implicit.
Unset Printing Implicit Defensive.

Section Mono.
Variable T : Type.
Implicit Type A : grid T.

(** [fassign(F, M, row, inc, A + i*lda, incA)]. *)
Definition setrow (M i : nat) (row : nat -> T) A : grid T :=
  fun x y => if (x == i) && (y < M) then row y else A x y.

(** The rows in temp, in order, copied to the rows [dst]. *)
Definition setrows (M : nat) (dst : seq nat) (temp : seq (nat -> T)) A : grid T :=
  foldl (fun X ir => setrow M ir.1 ir.2 X) A (zip dst temp).

(** ffpack_permutation.inl:125-133, the loop of [MonotonicCompress]: [s] is
    src + 1; None is an access before the matrix, or [fuel] exhausted. *)
Fixpoint compress_loop (fuel M R : nat) (ispiv : nat -> bool) (dest s : nat) A : option (grid T) :=
  if dest < R then Some A
  else if fuel is fuel'.+1 then
    if s is src.+1 then
      if ispiv src then compress_loop fuel' M R ispiv dest src A
      else
        let A := setrow M dest (A src) A in
        (* dest = 0 with R = 0 would make dest negative *)
        if dest is d.+1 then compress_loop fuel' M R ispiv d src A else Some A
    else None
  else None.

(** ffpack_permutation.inl:108-140. *)
Definition MonotonicCompress (M : nat) (MathP : nat -> nat) (R maxpiv : nat) (ispiv : nat -> bool) A :
    option (grid T) :=
  let moved := [seq i <- iota 0 R | MathP i != i] in
  let temp := [seq A (MathP i) | i <- moved] in
  if compress_loop (maxpiv + maxpiv).+2 M R ispiv maxpiv maxpiv A is Some A then Some (setrows M moved temp A)
  else None.

(** ffpack_permutation.inl:278-286; None: [ispiv] read at [lenP] or beyond, or fuel. *)
Fixpoint expand_loop (fuel M lenP maxpiv : nat) (ispiv : nat -> bool) (src dest : nat) A : option (grid T) :=
  if maxpiv < src then Some A
  else if fuel is fuel'.+1 then
    if lenP <= dest then None
    else if ispiv dest then expand_loop fuel' M lenP maxpiv ispiv src dest.+1 A
    else expand_loop fuel' M lenP maxpiv ispiv src.+1 dest.+1 (setrow M dest (A src) A)
  else None.

(** ffpack_permutation.inl:259-292. *)
Definition MonotonicExpand (M : nat) (lenP : nat) (MathP : nat -> nat) (R maxpiv : nat) (ispiv : nat -> bool) A :
    option (grid T) :=
  let moved := [seq i <- iota 0 R | MathP i != i] in
  let temp := [seq A i | i <- moved] in
  if expand_loop (maxpiv + maxpiv).+2 M lenP maxpiv ispiv R 0 A is Some A then
    Some (setrows M [seq MathP i | i <- moved] temp A)
  else None.

(** The blocks of [bk] columns, then the last M % bk ones. *)
Definition by_blocks (bk M : nat) (f : nat -> grid T -> option (grid T)) A : option (grid T) :=
  let step b i oA := if oA is Some A then
      (if f b (sub 0 (i * bk) A) is Some B then Some (at_ 0 (i * bk) (fun=> B) A) else None) else None in
  step (M %% bk) (M %/ bk) (iteri (M %/ bk) (step bk) (Some A)).

(** ffpack_permutation.inl:38-106; [bk] is FFLASFFPACK_PERM_BKSIZE.  With Side
    = FflasRight the strides lda and 1 are exchanged: the transpose.  When R = 0
    the value of maxpiv (R - 1, wrapped) is not used. *)
Definition MonotonicApplyP (bk : nat) (s : side) (t : transp) (M ibeg iend : nat) (P : nat -> nat) (R : nat) A :
    option (grid T) :=
  let lenP := iend - ibeg in
  let MathP := memo1 lenP (lapack2math id P lenP) in
  let ispiv := fun x => has (fun i => MathP i == x) (iota 0 R) in
  let maxpiv := foldl (fun m i => if (MathP i != i) && (m < MathP i) then MathP i else m) R.-1 (iota 0 R) in
  if ~~ has (fun i => MathP i != i) (iota 0 R) then Some A
  else
    let compress := match s, t with SLeft, NoTrans | SRight, Trans => true | _, _ => false end in
    let f := fun b => if compress then MonotonicCompress b MathP R maxpiv ispiv
                      else MonotonicExpand b lenP MathP R maxpiv ispiv in
    match s with
    | SLeft => by_blocks bk M f A
    | SRight => if by_blocks bk M f (tr A) is Some B then Some (tr B) else None
    end.

End Mono.
