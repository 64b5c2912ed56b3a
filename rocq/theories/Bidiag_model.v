(** * Compact (block bidiagonal) Bruhat generators: ffpack/ffpack_bruhatgen.inl:194-393 *)
From mathcomp Require Import all_ssreflect all_algebra.
From Verif Require Import Grid Perm_model Tri_model Pluq_model.
Set Implicit Arguments.
Unset Strict Implicit.
Unset Printing Implicit Defensive.
Import GRing.Theory.
Local Open Scope ring_scope.

(** ffpack_bruhatgen.inl:368-393 [Bruhat2EchelonPermutation].  [std::sort] is
    a sorted rearrangement; the fresh array Pinv starts at 0. *)
Definition bruhat2echelon (N R : nat) (P Q M : nat -> nat) : nat -> nat :=
  let Pinv := iteri R (fun i p => upd1 p (P i) i) (fun=> 0%N) in
  let Ps := sort leq [seq P i | i <- iota 0 R] in
  let st := iteri R (fun i st =>
    let piv := Q (Pinv (nth 0%N Ps i)) in
    (upd1 st.1 piv i, upd1 st.2 piv true)) (M, fun=> false) in
  let st' := iteri N (fun i s => if st.2 i then s else (upd1 s.1 i s.2, s.2.+1)) (st.1, R) in
  st'.1.

Section Bidiag.
Variable F : fieldType.
Implicit Types A C X : grid F.

(** ffpack_bruhatgen.inl:228: applyP on the N x N copy C, whose leading
    dimension is N, called with the leading dimension lda of A.  None when a
    swap leaves the N*N allocated cells; otherwise the cells are swapped where
    the call finds them.  Only lda >= N occurs (lda is that of an N x N
    matrix). *)
Definition bd_applyP (up : bool) (bk N lda : nat) (p : nat -> nat) C : option (grid F) :=
  if has (fun i => (p i != i) && (if up then N * N < p i * lda + N else N * N <= (N - 1) * lda + p i)%N) (iota 0 N)
  then None else
  let G : grid F := fun i j => let x := (i * lda + j)%N in C (x %/ N)%N (x %% N)%N in
  let G' := if up then applyP bk SLeft Trans N 0 N p G else applyP bk SRight NoTrans N 0 N p G in
  Some (fun i j => let x := (i * N + j)%N in G' (x %/ lda)%N (x %% lda)%N).

(** ffpack_bruhatgen.inl:242-268: the blocks of s pivots.  From here on, the
    two branches (Upper, Lower) of the code do the same with rows and columns
    exchanged: the model is that of Upper, applied to the transposed matrices
    for Lower.  None when the loop does not end (s = 0). *)
Fixpoint bd_blocks (fuel N s r : nat) (pos : nat -> nat) C X (K : nat -> nat) (cur nb bp : nat) :
    option (grid F * (nat -> nat) * nat) :=
  if (bp < r)%N then
    if fuel is n.+1 then
      let K := upd1 K nb cur in
      let last := (r <= bp + s)%N in
      let bs := if last then (r - bp)%N else s in
      let nxt := if last then N else pos (bp + bs)%N in
      let X := at_ 0 cur (fill bs (nxt - cur) (fun i c => C (bp + i)%N (cur + c)%N)) X in
      bd_blocks n N s r pos C X K nxt nb.+1 (bp + bs)
    else None
  else Some (X, upd1 K nb N, nb).

(** State of the folding: C, T, last_coeff. *)
Record bd_state := BdS { bdC : grid F; bdT : nat -> nat; bdL : nat -> nat }.

(** ffpack_bruhatgen.inl:280-295, one t: line (j-1)s+t moves into the first line of
    block j which is finished.  None when the search leaves the r entries of
    last_coeff. *)
Definition bd_fold (s r : nat) (K : nat -> nat) (j t : nat) (st : bd_state) : option bd_state :=
  let x := (j.-1 * s + t)%N in
  if (K j.+1 <= bdL st x)%N then
    let l := find (fun l => bdL st (j * s + l) < K j.+1)%N (iota 0 (r - j * s)) in
    if (l < r - j * s)%N then
      let C := bdC st in
      Some (BdS (at_ (j * s + l) (K j.+1) (fill 1 (bdL st x - K j.+1 + 1) (fun _ c => C x (K j.+1 + c)%N)) C)
                (upd1 (bdT st) x (j * s + l)%N) (upd1 (bdL st) (j * s + l)%N (bdL st x)))
    else None
  else Some st.

(** ffpack_bruhatgen.inl:273-296, one j. *)
Definition bd_S (N s r : nat) (K : nat -> nat) (j : nat) (sx : bd_state * grid F) : option (bd_state * grid F) :=
  let C := bdC sx.1 in
  let X := at_ s (K j) (fill s (K j.+1 - K j) (fun i c => C (j.-1 * s + i)%N (K j + c)%N)) sx.2 in
  omap (fun st => (st, X)) (iteri s (fun t o => obind (bd_fold s r K j t) o) (Some sx.1)).

(** X, K, M, T and the number of blocks handed back. *)
Record bidiag := Bidiag { bdgX : grid F; bdgK : nat -> nat; bdgM : nat -> nat; bdgT : nat -> nat; bdgN : nat }.

(** ffpack_bruhatgen.inl:195-302 [CompressToBlockBiDiagonal]; up is Uplo ==
    FflasUpper.  Inv is never read. *)
Definition bd_compress (up : bool) (bk N s r : nat) (P Q : nat -> nat) A (lda : nat) X (K M T : nat -> nat) : option bidiag :=
  let outer := if up then Q else P in
  let inner := if up then P else Q in
  let M := memo1 N (bruhat2echelon N r outer inner M) in
  let mlap := math2lapack id M N in
  obind (fun C =>
    let C := memo N N (if up then C else tr C) in
    let pos := iteri r (fun i p => upd1 p (M (inner i)) (outer i)) (fun=> 0%N) in
    let last := iteri r (fun i p => upd1 p (M (inner i)) (N - 2 - inner i)%N) (fun=> 0%N) in
    let X := fzero (2 * s) N (if up then X else tr X) in
    obind (fun bl : grid F * (nat -> nat) * nat =>
      let: (X, K, nb) := bl in
      let T := iteri r (fun i t => upd1 t i i) T in
      omap (fun sx : bd_state * grid F => Bidiag (if up then sx.2 else tr sx.2) K M (bdT sx.1) nb)
        (iteri (nb - 1) (fun j o => obind (bd_S N s r K j.+1) o) (Some (BdS C T last, X))))
      (bd_blocks r N s r pos C X K 0 0 0))
    (bd_applyP up bk N lda mlap A).

(** ffpack_bruhatgen.inl:305-363 [ExpandBlockBiDiagonalToBruhat].  Without
    blocks, NbBlocks - 1 is 2^64 - 1 and K and T are read outside of their
    bounds: None. *)
Definition bd_expand (up : bool) (bk N s r : nat) A X (nb : nat) (K M T : nat -> nat) : option (grid F) :=
  if nb == 0%N then None else
  let X := if up then X else tr X in
  let A := fzero N N (if up then A else tr A) in
  let A := memo N N (iteri (nb - 1) (fun j' A => let j := j'.+1 in
    at_ (j.-1 * s) (K j) (fill s (K j.+1 - K j) (fun i c => X (s + i)%N (K j + c)%N)) A) A) in
  let A := iteri (nb - 2) (fun i' A => let i := i'.+1 in
    memo N N (iteri s (fun l A =>
      let x := ((nb - i - 2) * s + l)%N in let k := K (nb - i)%N in
      if T x != x then
        let A := memo N N (at_ x k (fill 1 (N - k) (fun _ c => A (T x) (k + c)%N)) A) in
        at_ (T x) k (fzero 1 (N - k)) A
      else A) A)) A in
  let A := iteri (nb - 1) (fun i A =>
    at_ (i * s) (K i) (fill s (K i.+1 - K i) (fun l c => X l (K i + c)%N)) A) A in
  let A := at_ ((nb - 1) * s) (K (nb - 1)%N) (fill (r - (nb - 1) * s) (N - K (nb - 1)%N)
    (fun l c => X l (K (nb - 1) + c)%N)) A in
  let mlap := math2lapack id M N in
  Some (if up then applyP bk SLeft NoTrans N 0 N mlap A else applyP bk SRight Trans N 0 N mlap (tr A)).

End Bidiag.
