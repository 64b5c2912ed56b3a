(** * Symmetric updates and factorisations: fflas/fflas_fsyrk.inl,
    fflas/fflas_fsyr2k.inl, ffpack/ffpack_ftrstr.inl,
    ffpack/ffpack_ftrssyr2k.inl, ffpack/ffpack_fsytrf.inl

    Level of the mathematical field, conventions of Tri_model.  The delayed
    reductions of fsyrk are in Syrkd_model.  Parallel overloads only differ by
    the helper they pass and are left out, as is the factorisation revealing
    the rank profile matrix (fsytrf_RPM). *)
From mathcomp Require Import all_ssreflect all_algebra.
From Verif Require Import Grid Perm_model Tri_model.
Set Implicit Arguments.
Unset Strict Implicit.
Unset Printing Implicit Defensive.
Import GRing.Theory.
Local Open Scope ring_scope.

(** Is (i,j) in the triangle designated by UpLo? *)
Definition in_tri (u : uplo) (i j : nat) : bool := if u is Upper then (i <= j)%N else (j <= i)%N.

(** Outcomes: the return value true with the memory, the return value false
    (the memory is then not modelled further), no result. *)
Inductive outcome (T : Type) := Done of T | Not_generic | No_result.
Arguments Not_generic {T}.
Arguments No_result {T}.

Section Sym.
Variable F : fieldType.
Implicit Types A B C D : grid F.

(** ** fsyrk *)

(** fflas_fsyrk.inl:117-168, DefaultTag: mulin by beta, then axpyin of alpha
    and the dot product. *)
Definition fsyrk_default (u : uplo) (t : transp) (N K : nat) (alpha : F) A (beta : F) C : grid F :=
  memo N N (iteri N (fun i C =>
    iteri (if u is Upper then N - i else i.+1)%N (fun x C =>
      let j := (if u is Upper then i + x else x)%N in
      upd C i j (beta * C i j + alpha * rsum K (fun l => optr t A i l * optr t A j l))) C) C).

(** fflas_fsyrk.inl:78-98 *)
Definition fsyrk (u : uplo) (t : transp) (N K : nat) (alpha : F) A (beta : F) C : grid F :=
  if (N == 0)%N then C
  else if (K == 0)%N || (alpha == 0) then fscalin N N beta C
  else fsyrk_default u t N K alpha A beta C.

(** fflas_fsyrk.inl:224-261, DelayedTag, with 201-222 (ScalAndReduce): freduce
    does not change the element, fscalin runs over the whole N x N block.  The
    lazy product is exact (Syrkd_model), here by its result. *)
Definition fsyrk_delayed (u : uplo) (t : transp) (N K : nat) (alpha : F) A (beta : F) C : grid F :=
  if (N == 0)%N then C
  else if (K == 0)%N || (alpha == 0) then fscalin N N beta C
  else
    let general := (alpha != 1) && (alpha != -1) in
    let alpha_ := if general then 1 else alpha in
    let beta_ := if general then beta / alpha else beta in
    let C1 := fsyrk_default u t N K alpha_ A beta_ C in
    if general then fscalin N N alpha C1 else C1.

(** fflas_fsyrk.inl:30-74 (fsyrk_convert), called by 169-198 and 78-116: [junk]
    is the content of the freshly allocated Cf; converting to the other field
    and back does not change an element. *)
Definition fsyrk_convert (u : uplo) (t : transp) (N K : nat) (alpha : F) A (beta : F) (junk C : grid F) : grid F :=
  if (N == 0)%N then C
  else if (K == 0)%N || (alpha == 0) then fscalin N N beta C
  else
    let Cf := if beta != 0 then fill N N C junk else junk in
    fill N N (fsyrk_delayed u t N K alpha A beta Cf) C.

(** fflas_fsyrk.inl:392-440, divide and conquer on [r] levels. *)
Fixpoint fsyrk_dc (r : nat) (u : uplo) (t : transp) (N K : nat) (alpha : F) A (beta : F) C : grid F :=
  if r is r'.+1 then
    let N1 := N./2 in
    let N2 := (N - N1)%N in
    let A2 := subop t N1 0 A in
    let C1 := fsyrk_dc r' u t N1 K alpha A beta C in
    let C2 := at_ N1 N1 (fsyrk_dc r' u t N2 K alpha A2 beta) C1 in
    match u with
    | Upper => at_ 0 N1 (fgemm t (flip t) N1 N2 K alpha A A2 beta) C2
    | Lower => at_ N1 0 (fgemm t (flip t) N2 N1 K alpha A2 A beta) C2
    end
  else fsyrk_default u t N K alpha A beta C.

(** ** fsyrk with a diagonal *)

(** A pointer moved by i*incRow + j*incCol (fflas_fsyrk.inl:522-525) and an
    operation there; op(A) is N x K. *)
Definition atop (t : transp) (i j : nat) (f : grid F -> grid F) A : grid F :=
  if t is Trans then at_ j i f A else at_ i j f A.

(** op(R)[i,l] = g i l on N x K, the rest of R unchanged: the writes of a
    sequence of calls on the columns of op(R), each cell written once. *)
Definition fillop (t : transp) (N K : nat) (g : nat -> nat -> F) R : grid F :=
  if t is Trans then memo K N (fill K N (fun l i => g i l) R) else memo N K (fill N K g R).

(** fflas_fsyrk.inl:508-583.  Returns the new A and C; [junk]: fresh temp. *)
Fixpoint fsyrk_d (n : nat) (u : uplo) (t : transp) (N K : nat) (alpha : F) A (D : nat -> F) (beta : F)
    (junk C : grid F) (threshold : nat) : option (grid F * grid F) :=
  if n is n'.+1 then
    if (N <= threshold)%N then
      let temp := fillop t N K (optr t A) junk in
      let A' := fillop t N K (fun i l => D l * optr t A i l) A in
      Some (A', fgemm t (flip t) N N K alpha A' temp beta C)
    else
      let N1 := N./2 in
      let N2 := (N - N1)%N in
      let A2 := subop t N1 0 A in
      let temp := fillop t N2 K (fun i l => D l * optr t A2 i l) junk in
      let C1 := match u with
        | Upper => at_ 0 N1 (fgemm t (flip t) N1 N2 K alpha A temp beta) C
        | Lower => at_ N1 0 (fgemm t (flip t) N2 N1 K alpha temp A beta) C end in
      match fsyrk_d n' u t N1 K alpha A D beta junk C1 threshold with
      | None => None
      | Some (A', C2) =>
        match fsyrk_d n' u t N2 K alpha (subop t N1 0 A') D beta junk (sub N1 N1 C2) threshold with
        | None => None
        | Some (A2', C22) => Some (atop t N1 0 (fun _ => A2') A', at_ N1 N1 (fun _ => C22) C2)
        end
      end
  else None.

(** fflas_fsyrk.inl:711-719 and 743-752: walking over 1x1 and 2x2 blocks.
    twoBlocks[i] is read for i < K; [None] beyond its size, or if a block
    starts in the last column (column K is then read and written). *)
Fixpoint two_cols (n : nat) (tb : seq bool) (D : nat -> F) (K i : nat) (X : grid F) (Y : grid F) : option (grid F) :=
  if n is n'.+1 then
    if (K <= i)%N then Some Y
    else if (size tb <= i)%N then None
    else if ~~ nth false tb i then
      two_cols n' tb D K i.+1 X (fun r c => if c == i then D i * X r i else Y r c)
    else if (K <= i.+1)%N then None
    else two_cols n' tb D K i.+2 X
      (fun r c => if c == i then D i * X r i.+1 else if c == i.+1 then D i * X r i else Y r c)
  else None.

(** fflas_fsyrk.inl:677-769.  The split l.726 reads twoBlocks[N1-1], a vector
    describing the columns of op(A), although it splits its rows. *)
Fixpoint fsyrk_2 (n : nat) (u : uplo) (t : transp) (N K : nat) (alpha : F) A (D : nat -> F) (tb : seq bool) (beta : F)
    (junk C : grid F) (threshold : nat) : option (grid F * grid F) :=
  if n is n'.+1 then
    if (N <= threshold)%N then
      match two_cols K.+1 tb D K 0 (optr t A) (optr t A) with
      | None => None
      | Some X =>
        let temp := fillop t N K (optr t A) junk in
        let A' := fillop t N K X A in
        Some (A', fgemm t (flip t) N N K alpha A' temp beta C)
      end
    else
      let N1 := N./2 in
      if (N1 == 0)%N || (size tb < N1)%N then None else
      let N1 := (if nth false tb N1.-1 then N1.+1 else N1) in
      let N2 := (N - N1)%N in
      let A2 := subop t N1 0 A in
      match two_cols K.+1 tb D K 0 (optr t A2) (optr t junk) with
      | None => None
      | Some X =>
        let temp := fillop t N2 K X junk in
        let C1 := match u with
          | Upper => at_ 0 N1 (fgemm t (flip t) N1 N2 K alpha A temp beta) C
          | Lower => at_ N1 0 (fgemm t (flip t) N2 N1 K alpha temp A beta) C end in
        match fsyrk_2 n' u t N1 K alpha A D tb beta junk C1 threshold with
        | None => None
        | Some (A', C2) =>
          match fsyrk_2 n' u t N2 K alpha (subop t N1 0 A') D tb beta junk (sub N1 N1 C2) threshold with
          | None => None
          | Some (A2', C22) => Some (atop t N1 0 (fun _ => A2') A', at_ N1 N1 (fun _ => C22) C2)
          end
        end
      end
  else None.

(** ** fsyr2k: fflas_fsyr2k.inl:32-102 *)

(** faddin(F, n, R + ..., C + ...) of one row onto one column, l.80-96: rows
    and columns i of C, [i0] first and [n] cells. *)
Definition add_row_col (i i0 n : nat) C : grid F :=
  iteri n (fun x C =>
    let c := (i0 + x)%N in
    upd C c i (C c i + C i c)) C.

Definition fsyr2k (u : uplo) (t : transp) (N K : nat) (alpha : F) A B (beta : F) C : grid F :=
  if (N == 0)%N then C else
  let C := if (K == 0)%N then fscalin N N beta C else C in
  let char2 := (1 + 1 == 0 :> F) in
  let diagC := fun i => beta * C i i in
  let C1 := if ~~ char2 then memo N N (iteri N (fun i C => upd C i i ((1 + 1)^-1 * C i i)) C) else C in
  (* the strict opposite triangle is cleared, l.60-68 *)
  let C2 := memo N N (fill N N (fun i j => if in_tri u i j then C1 i j else 0) C1) in
  let C3 := fgemm t (flip t) N N K alpha A B beta C2 in
  let C4 := memo N N (match u, char2 with
    | Upper, false => iteri N (fun i => add_row_col i 0 i.+1) C3
    | Lower, false => iteri N (fun i => add_row_col i i (N - i)) C3
    | Upper, true => iteri N (fun i => add_row_col i 0 i) C3
    | Lower, true => iteri N (fun i => add_row_col i i.+1 (N - i - 1)) C3 end) in
  if char2 then memo N N (iteri N (fun i C => upd C i i (diagC i)) C4) else C4.

(** ** ftrstr: ffpack_ftrstr.inl:31-83 *)
Definition diag_eq (d e : diag) : bool :=
  match d, e with Unit, Unit | NonUnit, NonUnit => true | _, _ => false end.
Definition oppside (s : side) : side := if s is SLeft then SRight else SLeft.

Fixpoint ftrstr (n : nat) (s : side) (u : uplo) (dA dB : diag) (N : nat) A B : grid F :=
  if n is n'.+1 then
    if (N == 0)%N then B
    else if (N <= 1)%N then
      if dA is Unit then B
      else upd B 0 0 (if dB is Unit then (A 0%N 0%N)^-1 else B 0%N 0%N / A 0%N 0%N)
    else
      let N1 := N./2 in
      let N2 := (N - N1)%N in
      let dX := if diag_eq dA dB then dA else NonUnit in
      let: (ri, ci) := (if u is Upper then (0, N1) else (N1, 0))%N in
      let: (rd, cd) := (if u is Upper then (N1, N2) else (N2, N1)) in
      let A2 := sub ri ci A in
      let A3 := sub N1 N1 A in
      let B1 := ftrstr n' s u dA dB N1 A B in
      let B2 := at_ N1 N1 (ftrstr n' s u dA dB N2 A3) B1 in
      match u, s with
      | Upper, SLeft | Lower, SRight =>
        let B3 := at_ ri ci (ftrmm3 (oppside s) u NoTrans dX rd cd (-1) (sub N1 N1 B2) A2 1) B2 in
        at_ ri ci (ftrsm s u NoTrans dA rd cd 1 A) B3
      | _, _ =>
        let B3 := at_ ri ci (ftrmm3 (oppside s) u NoTrans dX rd cd (-1) B2 A2 1) B2 in
        at_ ri ci (ftrsm s u NoTrans dA rd cd 1 A3) B3
      end
  else B.

(** ** ftrssyr2k: ffpack_ftrssyr2k.inl:31-82 *)
Fixpoint ftrssyr2k (n : nat) (u : uplo) (dA : diag) (N : nat) A B : grid F :=
  if n is n'.+1 then
    if (N == 0)%N then B
    else if (N <= 1)%N then
      upd B 0 0 (B 0%N 0%N / (if dA is NonUnit then (1 + 1) * A 0%N 0%N else 1 + 1))
    else
      let N1 := N./2 in
      let N2 := (N - N1)%N in
      let: (ri, ci) := (if u is Upper then (0, N1) else (N1, 0))%N in
      let: (rd, cd) := (if u is Upper then (N1, N2) else (N2, N1)) in
      let s := if u is Upper then SLeft else SRight in
      let A2 := sub ri ci A in
      let B1 := ftrssyr2k n' u dA N1 A B in
      let B2 := at_ ri ci (ftrmm3 s u Trans NonUnit rd cd (-1) B1 A2 1) B1 in
      let B3 := at_ ri ci (ftrsm s u Trans dA rd cd 1 A) B2 in
      let B4 := at_ N1 N1 (fsyr2k u (if u is Upper then Trans else NoTrans) N2 N1 (-1) A2 (sub ri ci B3) 1) B3 in
      at_ N1 N1 (ftrssyr2k n' u dA N2 (sub N1 N1 A)) B4
  else B.

(** ** fsytrf *)

(** [V u A] is A for Upper and its transpose for Lower: the row stride is lda
    for Upper and 1 for Lower in the loops below. *)
Definition st (u : uplo) : transp := if u is Upper then NoTrans else Trans.

(** ffpack_fsytrf.inl:67-107, right-looking base case. *)
Fixpoint sytrf_RL_loop (n : nat) (u : uplo) (N i : nat) A (Dinv : nat -> F) (inc : nat) : outcome (grid F * (nat -> F)) :=
  if n is n'.+1 then
    let V := optr (st u) in
    if A i i == 0 then Not_generic else
    let di := (A i i)^-1 in
    let Dinv1 := upd1 Dinv (i * inc)%N di in
    (* tmp[j-i-1] = - di * A[i,j]; row j from column j += tmp[j-i-1] * row i *)
    let A1 := memo N N (fun r c =>
      let: (j, k) := opcell (st u) r c in
      if [&& i < j, j <= k & k < N]%N then V A j k + (- di * V A i j) * V A i k else A r c) in
    sytrf_RL_loop n' u N i.+1 A1 Dinv1 inc
  else Done (A, Dinv).

Definition sytrf_RL (u : uplo) (N : nat) A (Dinv : nat -> F) (inc : nat) := sytrf_RL_loop N u N 0 A Dinv inc.

(** ffpack_fsytrf.inl:31-65, Crout base case (compiled in with a macro). *)
Fixpoint sytrf_Crout_loop (n : nat) (u : uplo) (N i : nat) A (Dinv : nat -> F) (inc : nat) : outcome (grid F * (nat -> F)) :=
  if n is n'.+1 then
    let V := optr (st u) in
    (* tmp[j] = A[j,i] * Dinv[j]; row i from column i -= sum_j A[j,c] tmp[j] *)
    let A1 := memo N N (fun r c =>
      let: (j, k) := opcell (st u) r c in
      if [&& j == i, i <= k & k < N]%N
      then V A i k - rsum i (fun l => V A l k * (V A l i * Dinv (l * inc)%N)) else A r c) in
    if A1 i i == 0 then Not_generic else
    sytrf_Crout_loop n' u N i.+1 A1 (upd1 Dinv (i * inc)%N (A1 i i)^-1) inc
  else Done (A, Dinv).

Definition sytrf_Crout (u : uplo) (N : nat) A (Dinv : nat -> F) (inc : nat) := sytrf_Crout_loop N u N 0 A Dinv inc.

(** ffpack_fsytrf.inl:581-627; [crout] for __FFPACK_FSYTRF_BC_CROUT.  The
    second half receives Dinv+N1 whatever incDinv. *)
Fixpoint fsytrf_nonunit (n : nat) (crout : bool) (u : uplo) (N : nat) A (Dinv : nat -> F) (inc : nat)
    (junk : grid F) (threshold : nat) : outcome (grid F * (nat -> F)) :=
  if n is n'.+1 then
    if (N <= threshold)%N then (if crout then sytrf_Crout else sytrf_RL) u N A Dinv inc
    else
      let N1 := N./2 in
      let N2 := (N - N1)%N in
      let: (ri, ci) := (if u is Upper then (0, N1) else (N1, 0))%N in
      let: (rd, cd) := (if u is Upper then (N1, N2) else (N2, N1)) in
      let s := if u is Upper then SLeft else SRight in
      let t := if u is Upper then Trans else NoTrans in
      match fsytrf_nonunit n' crout u N1 A Dinv inc junk threshold with
      | Not_generic => Not_generic
      | No_result => No_result
      | Done (A1, Dinv1) =>
        let A2 := at_ ri ci (ftrsm s u Trans NonUnit rd cd 1 A1) A1 in
        match fsyrk_d N2.+1 u t N2 N1 (-1) (sub ri ci A2) (fun i => A2 i i) 1 junk (sub N1 N1 A2) 3000 with
        | None => No_result
        | Some (A12, A22) =>
          let A3 := at_ N1 N1 (fun _ => A22) (at_ ri ci (fill rd cd A12) A2) in
          match fsytrf_nonunit n' crout u N2 (sub N1 N1 A3) (fun i => Dinv1 (N1 + i)%N) inc junk threshold with
          | Not_generic => Not_generic
          | No_result => No_result
          | Done (A22', D2) =>
            Done (at_ N1 N1 (fun _ => A22') A3, fun i => if (i < N1)%N then Dinv1 i else D2 (i - N1)%N)
          end
        end
      end
  else No_result.

(** ffpack_fsytrf.inl:688-701 *)
Definition fsytrf (crout : bool) (u : uplo) (N : nat) A (junk : grid F) (threshold : nat) : outcome (grid F) :=
  match fsytrf_nonunit N.+1 crout u N A (fun i => junk i 0%N) 1 junk threshold with
  | Not_generic => Not_generic
  | No_result => No_result
  | Done (A1, Dinv) =>
    Done (memo N N (fun r c =>
      let: (i, j) := opcell (st u) r c in
      if (i < j < N)%N then Dinv i * A1 r c else A1 r c))
  end.
End Sym.
