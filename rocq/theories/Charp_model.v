(** * Characteristic and minimal polynomials: ffpack/ffpack_charpoly_danilevski.inl,
    ffpack_minpoly.inl, ffpack_charpoly.inl, LUdivine_construct of
    ffpack_ludivine.inl

    A polynomial is the sequence of its coefficients, constant term first.
    The vectors drawn at random are parameters. *)
From mathcomp Require Import all_ssreflect all_algebra.
From Verif Require Import Grid Perm_model Tri_model Pluq_model Ludiv_model.
Set Implicit Arguments.
Unset Strict Implicit.
Unset Printing Implicit Defensive.
Import GRing.Theory.
Local Open Scope ring_scope.

Section Charp.
Variable F : fieldType.
Implicit Types A X : grid F.

(** ** Danilevski, ffpack_charpoly_danilevski.inl:36-91 *)

(** l.49: the row of the pivot of column k, N when there is none. *)
Definition dani_row (N k : nat) A : nat :=
  (k.+1 + find (fun r => A r k != 0%R) (iota k.+1 (N - k.+1)))%N.

(** l.51-54; row i is exchanged with row k+1 from column k on, then the
    columns on all rows. *)
Definition dani_swap (N k i : nat) A : grid F :=
  if (k.+1 < i)%N then fswap_col N i k.+1 (at_ 0 k (fswap_row (N - k) i k.+1) A) else A.

(** l.55-77.  [l.62: k < N-2] is k+2 < N, since N >= 2 here. *)
Definition dani_elim (N k dtot : nat) A : grid F :=
  let p := A k.+1 k in
  let A := at_ k.+1 k.+1 (fscalin 1 (N - k.+1) p^-1) A in
  let A := at_ dtot k.+1 (fscalin (N - dtot) 1 p) A in
  let A := at_ dtot k.+1 (fger (k.+1 - dtot) (N - k.+1) (-1) (fun i => A (dtot + i)%N k) (fun j => A k.+1 (k.+1 + j)%N)) A in
  let A := memo N N A in
  let A := if (k.+2 < N)%N then
      let A := at_ k.+2 k.+1 (fger (N - k.+2) (N - k.+1) (-1) (fun i => A (k.+2 + i)%N k) (fun j => A k.+1 (k.+1 + j)%N)) A in
      let A := memo N N A in
      let x := fun l (_ : nat) => A (k.+2 + l)%N k in
      at_ dtot k.+1 (fgemm NoTrans NoTrans (N - dtot) 1 (N - k.+2) 1 (sub dtot k.+2 A) x 1) A
    else A in
  memo N N (iteri (k.+1 - dtot) (fun s A => let i := (dtot + s)%N in upd A i.+1 k.+1 (A i.+1 k.+1 + A i k)) A).

(** l.79-88: the companion block of rows and columns dtot..k *)
Definition dani_block (k dtot : nat) A : seq F :=
  rcons [seq - A (dtot + i)%N k | i <- iota 0 (k.+1 - dtot)] 1.

(** l.46-89, iteration k; the variable i is N after l.77 only when k = N-1,
    where no pivot exists. *)
Definition dani_step (N k : nat) (s : grid F * nat * seq (seq F)) :=
  let: (A, dtot, charp) := s in
  let i := dani_row N k A in
  if (i < N)%N then (dani_elim N k dtot (dani_swap N k i A), dtot, charp)
  else (A, k.+1, dani_block k dtot A :: charp).

Definition Danilevski (N : nat) A : seq (seq F) :=
  (iteri N (dani_step N) (A, 0%N, [::])).2.

(** ** Elimination of a Krylov basis, ffpack_ludivine.inl:632-733 *)
Variable bk : nat.

(** l.651-676, MN = 1 *)
Definition con_base (computeX : bool) (M N : nat) A X (P : nat -> nat) : grid F * (nat -> nat) * nat :=
  let ip := find (fun c => X 0%N c != 0) (iota 0 N) in
  if ip == N then (X, upd1 P 0 0%N, 0%N)
  else
    let P := upd1 P 0 ip in
    let X := if ip != 0%N then upd (upd X 0 0 (X 0%N ip)) 0 ip 0 else X in
    let X := at_ 0 1 (fscalin 1 (N - 1) (X 0%N 0%N)^-1) X in
    let X := if [&& N == 1%N, (1 < M)%N & computeX] then upd X 1 0 (X 0%N 0%N * A 0%N 0%N) else X in
    (X, P, 1%N).

(** l.689-694: the next Krylov vectors, with FfpackDense *)
Definition con_rows (Nup Ndown N : nat) A (s : grid F * (nat -> F)) : grid F * (nat -> F) :=
  iteri Ndown (fun i s => let: (X, u) := s in
    let w := memo1 N (fun r => rsum N (fun c => A r c * u c)) in
    (memo (Nup + Ndown) N (fun x y => if (x == Nup + i)%N && (y < N)%N then w y else X x y),
     fun y => if (y < N)%N then w y else u y)) s.

(** l.632-733 with Diag = FflasUnit.  [n] is fuel.  The elimination of l.703-715
    is that of LUdivine ([lud_elim]). *)
Fixpoint construct (n : nat) (computeX : bool) (M N : nat) A X (u : nat -> F) (P : nat -> nat)
    : grid F * (nat -> F) * (nat -> nat) * nat :=
  if n is n'.+1 then
    if minn M N == 1%N then
      let: (X, P, R) := con_base computeX M N A X P in (memo M N X, u, P, R)
    else
      let Nup := (minn M N)./2 in let Ndown := (M - Nup)%N in
      let: (X, u, P, R) := construct n' computeX Nup N A X u P in
      if R == Nup then
        let: (X, u) := if computeX then con_rows Nup Ndown N A (X, u) else (X, u) in
        let X := lud_elim bk NoTrans Unit Nup Ndown N R P X in
        let X := memo M N X in
        let: (W, u, P2, R2) := construct n' false Ndown (N - Nup) A (sub Nup Nup X) u (fun x => P (Nup + x)%N) in
        let X := at_ Nup Nup (fun=> W) X in
        let P := at1 Nup (fun=> P2) P in
        let P := iteri R2 (fun k p => upd1 p (R + k) (p (R + k) + R)%N) P in
        let X := applyP bk SRight Trans Nup R (R + R2) P X in
        (memo M N X, u, P, R + R2)%N
      else (X, u, P, R)
  else (X, u, P, 0%N).

(** ** ffpack_minpoly.inl:86-117 (Protected); returns minP, the Krylov basis
    and the permutation.  K and P come with arbitrary contents. *)
Definition MatVecMinPoly_ (N : nat) A (v : nat -> F) (K : grid F) (P : nat -> nat) : seq F * grid F * (nat -> nat) :=
  let K := fun i j => if (i == 0%N) && (j < N)%N then v j else K i j in
  let: (K, u, P, k) := construct N.+2 true N.+1 N A K v P in
  if (k == 1%N) && (K 1%N 0%N == 0) then ([:: 0; 1], K, P)
  else
    let x := ftrsv Lower Trans NonUnit k K (K k) in
    let K := fun i j => if (i == k) && (j < k)%N then x j else K i j in
    (rcons [seq - x j | j <- iota 0 k] 1, K, P).

(** l.63-83: a copy of v is iterated *)
Definition MatVecMinPoly (N : nat) A (v : nat -> F) K P : seq F := (MatVecMinPoly_ N A v K P).1.1.

(** l.39-60; v is the vector drawn. *)
Definition MinPoly (N : nat) A (v : nat -> F) K P : seq F :=
  if N == 0%N then [:: 1] else MatVecMinPoly N A v K P.

(** ** ffpack_charpoly.inl:176-251, LUKrylov.  [v m] is the vector drawn when Ncurr = m
    (NonZeroRandomMatrix, not zero), [junk] the contents of the arrays P.  X is at the pointer X2. *)
Definition luk_rest (Ncurr k : nat) A X (P : nat -> nat) : grid F * grid F :=
  let Nrest := (Ncurr - k)%N in
  let AP := applyP bk SRight Trans Ncurr 0 k P A in
  let X := at_ k 0 (fill Nrest Ncurr (fun i j => AP j (k + i)%N)) X in
  let A := applyP bk SRight NoTrans Ncurr 0 k P AP in
  let X := at_ k 0 (applyP bk SRight Trans Nrest 0 k P) X in
  let X := memo Ncurr Ncurr X in
  let X := at_ k 0 (ftrsm SRight Upper NoTrans Unit Nrest k 1 X) X in
  let A := fill Nrest Nrest (sub k k X) A in
  (memo Nrest Nrest (fgemm NoTrans NoTrans Nrest Nrest k (-1) (sub k 0 X) (sub 0 k X) 1 A), sub k k X).

Fixpoint LUKrylov (n Ncurr : nat) A X (v : nat -> nat -> F) (junk : nat -> nat) (charp : seq (seq F)) : seq (seq F) :=
  if n is n'.+1 then
    if Ncurr == 0%N then charp else
    let: (minP, X, P) := MatVecMinPoly_ Ncurr A (v Ncurr) X junk in
    let k := (size minP).-1 in
    let zero := [&& k == 1%N, nth 0 minP 0 == 0 & all (fun i => all (fun j => A i j == 0) (iota 0 Ncurr)) (iota 0 Ncurr)] in
    let minP := if zero then rcons (nseq Ncurr 0) 1 else minP in
    let k := if zero then Ncurr else k in
    if k == Ncurr then minP :: charp
    else
      let: (A, X) := luk_rest Ncurr k A X P in
      LUKrylov n' (Ncurr - k) A X v junk (minP :: charp)
  else charp.

(** ** ffpack_charpoly.inl:51-138: the tags whose algorithm is modelled; [deg]
    is the argument degree and [p] the characteristic.  The other tags, and
    FfpackArithProgKrylovPrecond when the characteristic is at least N, give
    [None]. *)
Inductive charpoly_tag := TagAuto | TagDanilevski | TagLUK | TagArithProgKrylovPrecond.
Definition CharPoly_list (tag : charpoly_tag) (p deg N : nat) A X v junk : option (seq (seq F)) :=
  let tag := if tag is TagAuto then if (N < deg)%N then TagDanilevski else TagArithProgKrylovPrecond else tag in
  match tag with
  | TagDanilevski => Some (Danilevski N A)
  | TagLUK => Some (LUKrylov N N A X v junk [::])
  | _ => if (p < N)%N then Some (LUKrylov N N A X v junk [::]) else None
  end.

(** Product of polynomials (Givaro, external) *)
Definition mulp (p q : seq F) : seq F :=
  [seq rsum i.+1 (fun l => nth 0 p l * nth 0 q (i - l)%N) | i <- iota 0 (size p + size q).-1].

(** l.141-172 without the checker *)
Definition CharPoly (tag : charpoly_tag) (p deg N : nat) A X v junk : option (seq F) :=
  if N == 0%N then Some [:: 1]
  else if CharPoly_list tag p deg N A X v junk is Some (f :: l) then Some (foldl mulp f l) else None.

End Charp.
