(** * The other monotonic compressions: ffpack_permutation.inl:142-257

    Chosen with the macros MONOTONIC_CYCLES and MONOTONIC_MOREPIVOTS
    (ffpack_permutation.inl:85-97).  The tracing under VERBOSE is left out. *)
From mathcomp Require Import all_ssreflect.
From Verif Require Import Grid Perm_model Mono_model.
Set Implicit Arguments.
Unset Strict Implicit.
Unset Printing Implicit Defensive.

Section Mono.
Variable T : Type.
Implicit Type A : grid T.

(** [done[x] = true]. *)
Definition mark (x : nat) (D : nat -> bool) : nat -> bool := fun y => (y == x) || D y.

(** The do-while loop of ffpack_permutation.inl:193-200 and 243-250: the last
    row reached, the matrix and [done]; None when [fuel] is exhausted. *)
Fixpoint cyc_walk (fuel M : nat) (mp : nat -> nat) (j : nat) A (D : nat -> bool) :
    option (nat * grid T * (nat -> bool)) :=
  if fuel is fuel'.+1 then
    let A := setrow M j (A (mp j)) A in
    let D := mark (mp j) D in
    let j := mp j in
    if D (mp j) then Some (j, A, D) else cyc_walk fuel' M mp j A D
  else None.

(** ffpack_permutation.inl:184-205 and 234-255: the cycles entered from the
    rows 0..R-1, through one temporary row. *)
Definition cycles (n M R : nat) (mp : nat -> nat) A (D : nat -> bool) : option (grid T * (nat -> bool)) :=
  iteri R (fun i o => if o is Some (A, D) then
    if (mp i != i) && ~~ D (mp i) then
      let tmprow := A i in
      if cyc_walk n M mp i A (mark i D) is Some (j, A, D) then Some (setrow M j tmprow A, D) else None
    else Some (A, D)
  else None) (Some (A, D)).

(** ffpack_permutation.inl:220-257. *)
Definition MonotonicCompressCycles (n M : nat) (mp : nat -> nat) A : option (grid T) :=
  if cycles n M n mp A (fun=> false) is Some (A, _) then Some A else None.

(** ffpack_permutation.inl:171-179, the while loop. *)
Fixpoint piv_walk (fuel M : nat) (mp : nat -> nat) (j : nat) A (D : nat -> bool) : option (grid T * (nat -> bool)) :=
  if (mp j == j) || D (mp j) then Some (A, D)
  else if fuel is fuel'.+1 then
    piv_walk fuel' M mp (mp j) (setrow M j (A (mp j)) A) (mark (mp j) D)
  else None.

(** ffpack_permutation.inl:143-218. *)
Definition MonotonicCompressMorePivots (n M R : nat) (mp : nat -> nat) A : option (grid T) :=
  let moved := [seq i <- iota R (n - R) | mp i != i] in
  let temp := [seq A (mp i) | i <- moved] in
  let D := foldl (fun D i => mark (mp i) D) (fun=> false) moved in
  let o := foldl (fun o i => if o is Some (A, D) then piv_walk n M mp (mp i) A D else None)
             (Some (A, D)) (iota R (n - R)) in
  if o is Some (A, D) then
    if cycles n M R mp A D is Some (A, _) then Some (setrows M moved temp A) else None
  else None.

Inductive mono_variant := MCycles | MMorePivots.

(** ffpack_permutation.inl:38-106, with one of the two macros. *)
Definition MonotonicApplyP_v (v : mono_variant) (bk : nat) (s : side) (t : transp) (M ibeg iend : nat)
    (P : nat -> nat) (R : nat) A : option (grid T) :=
  let lenP := iend - ibeg in
  let MathP := memo1 lenP (lapack2math id P lenP) in
  let ispiv := fun x => has (fun i => MathP i == x) (iota 0 R) in
  let maxpiv := foldl (fun m i => if (MathP i != i) && (m < MathP i) then MathP i else m) R.-1 (iota 0 R) in
  if ~~ has (fun i => MathP i != i) (iota 0 R) then Some A
  else
    let compress := match s, t with SLeft, NoTrans | SRight, Trans => true | _, _ => false end in
    let f := fun b => if compress then
                        (if v is MCycles then MonotonicCompressCycles lenP b MathP
                         else MonotonicCompressMorePivots lenP b R MathP)
                      else MonotonicExpand b lenP MathP R maxpiv ispiv in
    match s with
    | SLeft => by_blocks bk M f A
    | SRight => if by_blocks bk M f (tr A) is Some B then Some (tr B) else None
    end.

End Mono.
