(** * Triangular kernels: fflas/fflas_ftrsm*.inl, fflas_ftrmm*.inl,
    fflas_ftrsv.inl, fflas_fger.inl, ffpack/ffpack_ftrtr.inl

    Elements are those of a field [F]; this is the level of the mathematical
    field, the delayed reductions over machine numbers are in Delayed_model.
    Operands read by a product are taken from the memory before the call: a
    product whose destination overlaps its sources would not be represented,
    in the code below they are always disjoint blocks. *)
From mathcomp Require Import all_ssreflect all_algebra.
From Verif Require Import Grid Perm_model.
Set Implicit Arguments.
Unset Strict Implicit.
Unset Printing Implicit Defensive.
Import GRing.Theory.
Local Open Scope ring_scope.

Inductive uplo := Upper | Lower.
Inductive diag := Unit | NonUnit.

Definition flip (t : transp) : transp := if t is Trans then NoTrans else Trans.

(** op(A): entry (i,j) of the matrix the routine works with. *)
Definition optr (T : Type) (t : transp) (A : grid T) : grid T :=
  if t is Trans then tr A else A.

(** The pointer [A + i*__FFLAS__Arowinc + j*__FFLAS__Acolinc] (ftrsm_src.inl:25-27
    and 40-41: Arowinc = 1, Acolinc = lda when transposed). *)
Definition subop (T : Type) (t : transp) (i j : nat) (A : grid T) : grid T :=
  if t is Trans then sub j i A else sub i j A.

(** fflas_ftrsm_src.inl:25-41, fflas_ftrmm_src.inl:28-44: is __FFLAS__LOWER
    (as opposed to __FFLAS__UPPER) defined? *)
Definition eff_lower (u : uplo) (t : transp) : bool :=
  match t, u with
  | Trans, Lower => false | Trans, Upper => true
  | NoTrans, Lower => true | NoTrans, Upper => false
  end.

Section Tri.
Variable F : fieldType.
Implicit Types A B C : grid F.

(** Sum of f(0), ..., f(k-1), computable. *)
Fixpoint rsum (k : nat) (f : nat -> F) : F := if k is k'.+1 then rsum k' f + f k' else 0.

(** [fgemm(F, ta, tb, m, n, k, alpha, A, lda, B, ldb, beta, C, ldc)], by its
    result; its algorithms are modelled in Delayed_model and Winograd_model.
    (memo is the identity, Grid.memoE.) *)
Definition fgemm (ta tb : transp) (m n k : nat) (alpha : F) A B (beta : F) C : grid F :=
  memo m n (fill m n (fun i j =>
    alpha * rsum k (fun t => optr ta A i t * optr tb B t j) + beta * C i j) C).

(** [fscalin(F, m, n, a, A, lda)] (fflas_fscal.inl). *)
Definition fscalin (m n : nat) (a : F) A : grid F :=
  memo m n (fill m n (fun i j => a * A i j) A).

(** [faddin(F, m, n, B, ldb, C, ldc)]. *)
Definition faddin (m n : nat) B C : grid F :=
  memo m n (fill m n (fun i j => C i j + B i j) C).

(** [faxpy(F, m, n, a, B, ldb, C, ldc)]: C += a B. *)
Definition faxpy (m n : nat) (a : F) B C : grid F :=
  memo m n (fill m n (fun i j => a * B i j + C i j) C).

(** ** ftrsm *)

(** fflas_ftrsm_src.inl:399-440, generic elements: recursion down to
    dimension 1.  The window of the base case is 1 x N (left) or M x 1
    (right).  [n] is fuel; dimension 0 is excluded by the caller. *)
Fixpoint ftrsm_rec (n : nat) (s : side) (u : uplo) (t : transp) (d : diag)
    (M N : nat) A B : grid F :=
  if n is n'.+1 then
    let Na := if s is SLeft then M else N in
    if Na == 1%N then (if d is NonUnit then fscalin M N (A 0%N 0%N)^-1 B else B)
    else
      let ns := Na./2 in
      match s, eff_lower u t with
      | SLeft, true =>
        let B1 := ftrsm_rec n' s u t d ns N A B in
        let B2 := at_ ns 0 (fgemm t NoTrans (M - ns) N ns (-1) (subop t ns 0 A) B1 1) B1 in
        at_ ns 0 (ftrsm_rec n' s u t d (M - ns) N (sub ns ns A)) B2
      | SLeft, false =>
        let B1 := at_ (M - ns) 0 (ftrsm_rec n' s u t d ns N (sub (M - ns) (M - ns) A)) B in
        let B2 := fgemm t NoTrans (M - ns) N ns (-1) (subop t 0 (M - ns) A) (sub (M - ns) 0 B1) 1 B1 in
        ftrsm_rec n' s u t d (M - ns) N A B2
      | SRight, false =>
        let B1 := ftrsm_rec n' s u t d M ns A B in
        let B2 := at_ 0 ns (fgemm NoTrans t M (N - ns) ns (-1) B1 (subop t 0 ns A) 1) B1 in
        at_ 0 ns (ftrsm_rec n' s u t d M (N - ns) (sub ns ns A)) B2
      | SRight, true =>
        let B1 := at_ 0 (N - ns) (ftrsm_rec n' s u t d M ns (sub (N - ns) (N - ns) A)) B in
        let B2 := fgemm NoTrans t M (N - ns) ns (-1) (sub 0 (N - ns) B1) (subop t (N - ns) 0 A) 1 B1 in
        ftrsm_rec n' s u t d M (N - ns) A B2
      end
  else B.

(** fflas_ftrsm.inl:99-169: dispatch on the variant, then multiply by alpha
    (the test [isOne(alpha)] is an optimisation).  Generic elements. *)
Definition ftrsm (s : side) (u : uplo) (t : transp) (d : diag) (M N : nat)
    (alpha : F) A B : grid F :=
  if (M == 0)%N || (N == 0)%N then B else
  let B1 := ftrsm_rec (if s is SLeft then M else N) s u t d M N A B in
  if alpha == 1 then B1 else fscalin M N alpha B1.

(** Cell (row, column) number x of row/column i that the normalisation loop
    reads in A and writes in its copy Acop: fflas_ftrsm_src.inl:237-273.
    [Ai] starts at A, moved by Acolinc if LEFT and UP, by Arowinc if RIGHT and
    LOW (lines 241-254: the declared triangle is tested, not the effective
    one); it moves by __FFLAS__Anormnext between iterations and by
    __FFLAS__Anorminc inside fscal; Acopi follows the same cells. *)
Definition opcell (t : transp) (i j : nat) : nat * nat := if t is Trans then (j, i) else (i, j).
Definition norm_cell (s : side) (u : uplo) (t : transp) (i x : nat) : nat * nat :=
  let start := match s, u with
    | SLeft, Upper => opcell t 0 1 | SRight, Lower => opcell t 1 0 | _, _ => (0%N, 0%N) end in
  let next := match s, eff_lower u t with
    | SLeft, true => opcell t i 0 | SRight, false => opcell t 0 i | _, _ => (i, i) end in
  let inc := match s with SLeft => opcell t 0 x | SRight => opcell t x 0 end in
  ((start.1 + next.1 + inc.1)%N, (start.2 + next.2 + inc.2)%N).

(** __FFLAS__Normdim (lines 80, 95, 134, 149). *)
Definition norm_dim (s : side) (u : uplo) (t : transp) (Na i : nat) : nat :=
  match s, eff_lower u t with
  | SLeft, true | SRight, false => i
  | SLeft, false | SRight, true => Na - i - 1
  end.

(** fflas_ftrsm_src.inl:217-321, base case of [delayed]: [junk] is the content
    of the freshly allocated Acop.  A call of cblas_?trsm with CblasUnit
    (lines 278-285) is represented by the generic recursion with Unit: any
    exact substitution algorithm computes the same matrix.  freduce is the
    identity at the level of the field. *)
Definition ftrsm_norm (s : side) (u : uplo) (t : transp) (Na : nat) (junk A : grid F) : grid F :=
  memo Na Na (iteri Na (fun i C =>
    iteri (norm_dim s u t Na i) (fun x C =>
      let: (r, c) := norm_cell s u t i x in upd C r c ((A i i)^-1 * A r c)) C) junk).

Definition ftrsm_base (s : side) (u : uplo) (t : transp) (d : diag) (M N : nat)
    (junk A B : grid F) : grid F :=
  let Na := if s is SLeft then M else N in
  if d is NonUnit then
    let B1 := memo M N (fill M N (fun i j => (if s is SLeft then A i i else A j j)^-1 * B i j) B) in
    ftrsm_rec Na s u t Unit M N (ftrsm_norm s u t Na junk A) B1
  else ftrsm_rec Na s u t Unit M N A B.

(** fflas_ftrsm_src.inl:201-336 [delayed]. *)
Fixpoint ftrsm_delayed (n : nat) (s : side) (u : uplo) (t : transp) (d : diag)
    (nblas nbblocsblas M N : nat) (junk A B : grid F) : grid F :=
  if n is n'.+1 then
    let Na := if s is SLeft then M else N in
    if (Na <= nblas)%N then ftrsm_base s u t d M N junk A B
    else
      let nbblocsup := (nbblocsblas.+1)./2 in
      let ns := (nbblocsup * nblas)%N in
      let rest := (nbblocsblas - nbblocsup)%N in
      match s, eff_lower u t with
      | SLeft, true =>
        let B1 := ftrsm_delayed n' s u t d nblas nbblocsup ns N junk A B in
        let B2 := at_ ns 0 (fgemm t NoTrans (M - ns) N ns (-1) (subop t ns 0 A) B1 1) B1 in
        at_ ns 0 (ftrsm_delayed n' s u t d nblas rest (M - ns) N junk (sub ns ns A)) B2
      | SLeft, false =>
        let B1 := at_ (M - ns) 0 (ftrsm_delayed n' s u t d nblas nbblocsup ns N junk (sub (M - ns) (M - ns) A)) B in
        let B2 := fgemm t NoTrans (M - ns) N ns (-1) (subop t 0 (M - ns) A) (sub (M - ns) 0 B1) 1 B1 in
        ftrsm_delayed n' s u t d nblas rest (M - ns) N junk A B2
      | SRight, false =>
        let B1 := ftrsm_delayed n' s u t d nblas nbblocsup M ns junk A B in
        let B2 := at_ 0 ns (fgemm NoTrans t M (N - ns) ns (-1) B1 (subop t 0 ns A) 1) B1 in
        at_ 0 ns (ftrsm_delayed n' s u t d nblas rest M (N - ns) junk (sub ns ns A)) B2
      | SRight, true =>
        let B1 := at_ 0 (N - ns) (ftrsm_delayed n' s u t d nblas nbblocsup M ns junk (sub (N - ns) (N - ns) A)) B in
        let B2 := fgemm NoTrans t M (N - ns) ns (-1) (sub 0 (N - ns) B1) (subop t (N - ns) 0 A) 1 B1 in
        ftrsm_delayed n' s u t d nblas rest M (N - ns) junk A B2
      end
  else B.

(** fflas_ftrsm_src.inl:340-391, operator() for float and double: blocks of
    [nsplit] (the multiple of nblas computed from DotProdBoundClassic, see
    Trsmbound_model), each followed by an update of the remaining part. *)
Definition ftrsm_fp_step (s : side) (u : uplo) (t : transp) (d : diag)
    (nblas nsplit M N : nat) (junk A : grid F) (i : nat) B : grid F :=
  let slv := ftrsm_delayed (if s is SLeft then M else N).+1 s u t d nblas (nsplit %/ nblas) in
  let o := (i * nsplit)%N in let o' := (i.+1 * nsplit)%N in
  match s, eff_lower u t with
  | SLeft, true =>
    let B1 := at_ o 0 (slv nsplit N junk (sub o o A)) B in
    at_ o' 0 (fgemm t NoTrans (M - o') N nsplit (-1) (subop t nsplit 0 (sub o o A)) (sub o 0 B1) 1) B1
  | SLeft, false =>
    let B1 := at_ (M - o') 0 (slv nsplit N junk (sub (M - o') (M - o') A)) B in
    fgemm t NoTrans (M - o') N nsplit (-1) (subop t 0 (M - o') A) (sub (M - o') 0 B1) 1 B1
  | SRight, false =>
    let B1 := at_ 0 o (slv M nsplit junk (sub o o A)) B in
    at_ 0 o' (fgemm NoTrans t M (N - o') nsplit (-1) (sub 0 o B1) (subop t 0 nsplit (sub o o A)) 1) B1
  | SRight, true =>
    let B1 := at_ 0 (N - o') (slv M nsplit junk (sub (N - o') (N - o') A)) B in
    fgemm NoTrans t M (N - o') nsplit (-1) (sub 0 (N - o') B1) (subop t (N - o') 0 A) 1 B1
  end.

Definition ftrsm_fp_loop (s : side) (u : uplo) (t : transp) (d : diag)
    (nblas nsplit M N : nat) (junk A B : grid F) : grid F :=
  let Na := if s is SLeft then M else N in
  let nbblocsplit := (Na.-1 %/ nsplit)%N in
  let nrest := (Na.-1 %% nsplit).+1 in
  let B1 := iteri nbblocsplit (ftrsm_fp_step s u t d nblas nsplit M N junk A) B in
  let slv := ftrsm_delayed Na.+1 s u t d nblas (nrest %/ nblas) in
  match s, eff_lower u t with
  | SLeft, true => at_ (M - nrest) 0 (slv nrest N junk (sub (M - nrest) (M - nrest) A)) B1
  | SLeft, false => slv nrest N junk A B1
  | SRight, false => at_ 0 (N - nrest) (slv M nrest junk (sub (N - nrest) (N - nrest) A)) B1
  | SRight, true => slv M nrest junk A B1
  end.

(** fflas_ftrsm.inl:99-169 with the float/double instances. *)
Definition ftrsm_fp (s : side) (u : uplo) (t : transp) (d : diag) (nblas nsplit M N : nat)
    (alpha : F) (junk A B : grid F) : grid F :=
  if (M == 0)%N || (N == 0)%N then B else
  let B1 := ftrsm_fp_loop s u t d nblas nsplit M N junk A B in
  if alpha == 1 then B1 else fscalin M N alpha B1.

(** ** ftrmm *)

(** fflas_ftrmm_src.inl:318-349, generic elements, in place. *)
Fixpoint ftrmm_rec (n : nat) (s : side) (u : uplo) (t : transp) (d : diag)
    (M N : nat) A B : grid F :=
  if n is n'.+1 then
    let Na := if s is SLeft then M else N in
    if Na == 1%N then (if d is NonUnit then fscalin M N (A 0%N 0%N) B else B)
    else
      let ns := Na./2 in
      match s, eff_lower u t with
      | SLeft, true =>
        let B1 := at_ ns 0 (ftrmm_rec n' s u t d (M - ns) N (sub ns ns A)) B in
        let B2 := at_ ns 0 (fgemm t NoTrans (M - ns) N ns 1 (subop t ns 0 A) B1 1) B1 in
        ftrmm_rec n' s u t d ns N A B2
      | SLeft, false =>
        let B1 := ftrmm_rec n' s u t d (M - ns) N A B in
        let B2 := fgemm t NoTrans (M - ns) N ns 1 (subop t 0 (M - ns) A) (sub (M - ns) 0 B1) 1 B1 in
        at_ (M - ns) 0 (ftrmm_rec n' s u t d ns N (sub (M - ns) (M - ns) A)) B2
      | SRight, false =>
        let B1 := at_ 0 ns (ftrmm_rec n' s u t d M (N - ns) (sub ns ns A)) B in
        let B2 := at_ 0 ns (fgemm NoTrans t M (N - ns) ns 1 B1 (subop t 0 ns A) 1) B1 in
        ftrmm_rec n' s u t d M ns A B2
      | SRight, true =>
        let B1 := ftrmm_rec n' s u t d M (N - ns) A B in
        let B2 := fgemm NoTrans t M (N - ns) ns 1 (sub 0 (N - ns) B1) (subop t (N - ns) 0 A) 1 B1 in
        at_ 0 (N - ns) (ftrmm_rec n' s u t d M ns (sub (N - ns) (N - ns) A)) B2
      end
  else B.

(** fflas_ftrmm.inl:37-102. *)
Definition ftrmm (s : side) (u : uplo) (t : transp) (d : diag) (M N : nat)
    (alpha : F) A B : grid F :=
  if (M == 0)%N || (N == 0)%N then B else
  let B1 := ftrmm_rec (if s is SLeft then M else N) s u t d M N A B in
  if alpha == 1 then B1 else fscalin M N alpha B1.

(** fflas_ftrmm_src.inl:350-385, generic elements, C <- op(A)*B + beta*C. *)
Fixpoint ftrmm3_rec (n : nat) (s : side) (u : uplo) (t : transp) (d : diag)
    (M N : nat) A B (beta : F) C : grid F :=
  if n is n'.+1 then
    let Na := if s is SLeft then M else N in
    if Na == 1%N then
      let C1 := if beta == 0 then C else fscalin M N beta C in
      if d is NonUnit then faxpy M N (A 0%N 0%N) B C1 else faddin M N B C1
    else
      let ns := Na./2 in
      match s, eff_lower u t with
      | SLeft, true =>
        let C1 := at_ ns 0 (ftrmm3_rec n' s u t d (M - ns) N (sub ns ns A) (sub ns 0 B) beta) C in
        let C2 := at_ ns 0 (fgemm t NoTrans (M - ns) N ns 1 (subop t ns 0 A) B 1) C1 in
        ftrmm3_rec n' s u t d ns N A B beta C2
      | SLeft, false =>
        let C1 := ftrmm3_rec n' s u t d (M - ns) N A B beta C in
        let C2 := fgemm t NoTrans (M - ns) N ns 1 (subop t 0 (M - ns) A) (sub (M - ns) 0 B) 1 C1 in
        at_ (M - ns) 0 (ftrmm3_rec n' s u t d ns N (sub (M - ns) (M - ns) A) (sub (M - ns) 0 B) beta) C2
      | SRight, false =>
        let C1 := at_ 0 ns (ftrmm3_rec n' s u t d M (N - ns) (sub ns ns A) (sub 0 ns B) beta) C in
        let C2 := at_ 0 ns (fgemm NoTrans t M (N - ns) ns 1 B (subop t 0 ns A) 1) C1 in
        ftrmm3_rec n' s u t d M ns A B beta C2
      | SRight, true =>
        let C1 := ftrmm3_rec n' s u t d M (N - ns) A B beta C in
        let C2 := fgemm NoTrans t M (N - ns) ns 1 (sub 0 (N - ns) B) (subop t (N - ns) 0 A) 1 C1 in
        at_ 0 (N - ns) (ftrmm3_rec n' s u t d M ns (sub (N - ns) (N - ns) A) (sub 0 (N - ns) B) beta) C2
      end
  else C.

(** fflas_ftrmm.inl:103-177; [divin] by alpha = 0 is outside the field's
    domain, here x/0 = 0. *)
Definition ftrmm3 (s : side) (u : uplo) (t : transp) (d : diag) (M N : nat)
    (alpha : F) A B (beta : F) C : grid F :=
  if (M == 0)%N || (N == 0)%N then C else
  let bet := if alpha == 1 then beta else beta / alpha in
  let C1 := ftrmm3_rec (if s is SLeft then M else N) s u t d M N A B bet C in
  if alpha == 1 then C1 else fscalin M N alpha C1.

(** cblas_?trmm then freduce, as the generic recursion (external routine). *)
Definition blas_trmm (s : side) (u : uplo) (t : transp) (d : diag) (M N : nat) A B : grid F :=
  ftrmm_rec (if s is SLeft then M else N) s u t d M N A B.

(** fflas_ftrmm_src.inl:205-237, float/double base case of the three-operand
    form. *)
Definition ftrmm3_base (s : side) (u : uplo) (t : transp) (d : diag) (M N : nat)
    A B (beta : F) C : grid F :=
  let tmp : grid F := fun i j => beta * C i j in
  let C1 := blas_trmm s u t d M N A (fill M N B C) in
  if beta == 0 then C1 else faddin M N tmp C1.

(** fflas_ftrmm_src.inl:239-273 (two operands) and 275-311 (three operands):
    blocks from the end, the remaining part first. *)
Definition ftrmm_fp_step (s : side) (u : uplo) (t : transp) (d : diag)
    (nsplit M N : nat) A (i : nat) B : grid F :=
  let Na := if s is SLeft then M else N in
  let nb := (Na.-1 %/ nsplit)%N in
  let nrest := (Na.-1 %% nsplit).+1 in
  let up := (nrest + i * nsplit)%N in
  let o := ((nb - i.+1) * nsplit)%N in
  let o' := ((nb - i) * nsplit)%N in
  match s, eff_lower u t with
  | SLeft, true =>
    let B1 := at_ o' 0 (fgemm t NoTrans up N nsplit 1 (subop t nsplit 0 (sub o o A)) (sub o 0 B) 1) B in
    at_ o 0 (blas_trmm s u t d nsplit N (sub o o A)) B1
  | SLeft, false =>
    let B1 := fgemm t NoTrans up N nsplit 1 (subop t 0 up A) (sub up 0 B) 1 B in
    at_ up 0 (blas_trmm s u t d nsplit N (sub up up A)) B1
  | SRight, false =>
    let B1 := at_ 0 o' (fgemm NoTrans t M up nsplit 1 (sub 0 o B) (subop t 0 nsplit (sub o o A)) 1) B in
    at_ 0 o (blas_trmm s u t d M nsplit (sub o o A)) B1
  | SRight, true =>
    let B1 := fgemm NoTrans t M up nsplit 1 (sub 0 up B) (subop t up 0 A) 1 B in
    at_ 0 up (blas_trmm s u t d M nsplit (sub up up A)) B1
  end.

Definition ftrmm_fp (s : side) (u : uplo) (t : transp) (d : diag) (nsplit M N : nat)
    (alpha : F) A B : grid F :=
  if (M == 0)%N || (N == 0)%N then B else
  let Na := if s is SLeft then M else N in
  let nb := (Na.-1 %/ nsplit)%N in
  let nrest := (Na.-1 %% nsplit).+1 in
  let o := (nb * nsplit)%N in
  let B0 := match s, eff_lower u t with
    | SLeft, true => at_ o 0 (blas_trmm s u t d nrest N (sub o o A)) B
    | SLeft, false => blas_trmm s u t d nrest N A B
    | SRight, false => at_ 0 o (blas_trmm s u t d M nrest (sub o o A)) B
    | SRight, true => blas_trmm s u t d M nrest A B
    end in
  let B1 := iteri nb (ftrmm_fp_step s u t d nsplit M N A) B0 in
  if alpha == 1 then B1 else fscalin M N alpha B1.

(** The three-operand loop, same cuts. *)
Definition ftrmm3_fp_step (s : side) (u : uplo) (t : transp) (d : diag)
    (nsplit M N : nat) A B (beta : F) (i : nat) C : grid F :=
  let Na := if s is SLeft then M else N in
  let nb := (Na.-1 %/ nsplit)%N in
  let nrest := (Na.-1 %% nsplit).+1 in
  let up := (nrest + i * nsplit)%N in
  let o := ((nb - i.+1) * nsplit)%N in
  let o' := ((nb - i) * nsplit)%N in
  match s, eff_lower u t with
  | SLeft, true =>
    let C1 := at_ o' 0 (fgemm t NoTrans up N nsplit 1 (subop t nsplit 0 (sub o o A)) (sub o 0 B) 1) C in
    at_ o 0 (ftrmm3_base s u t d nsplit N (sub o o A) (sub o 0 B) beta) C1
  | SLeft, false =>
    let C1 := fgemm t NoTrans up N nsplit 1 (subop t 0 up A) (sub up 0 B) 1 C in
    at_ up 0 (ftrmm3_base s u t d nsplit N (sub up up A) (sub up 0 B) beta) C1
  | SRight, false =>
    let C1 := at_ 0 o' (fgemm NoTrans t M up nsplit 1 (sub 0 o B) (subop t 0 nsplit (sub o o A)) 1) C in
    at_ 0 o (ftrmm3_base s u t d M nsplit (sub o o A) (sub 0 o B) beta) C1
  | SRight, true =>
    let C1 := fgemm NoTrans t M up nsplit 1 (sub 0 up B) (subop t up 0 A) 1 C in
    at_ 0 up (ftrmm3_base s u t d M nsplit (sub up up A) (sub 0 up B) beta) C1
  end.

Definition ftrmm3_fp (s : side) (u : uplo) (t : transp) (d : diag) (nsplit M N : nat)
    (alpha : F) A B (beta : F) C : grid F :=
  if (M == 0)%N || (N == 0)%N then C else
  let bet := if alpha == 1 then beta else beta / alpha in
  let Na := if s is SLeft then M else N in
  let nb := (Na.-1 %/ nsplit)%N in
  let nrest := (Na.-1 %% nsplit).+1 in
  let o := (nb * nsplit)%N in
  let C0 := match s, eff_lower u t with
    | SLeft, true => at_ o 0 (ftrmm3_base s u t d nrest N (sub o o A) (sub o 0 B) bet) C
    | SLeft, false => ftrmm3_base s u t d nrest N A B bet C
    | SRight, false => at_ 0 o (ftrmm3_base s u t d M nrest (sub o o A) (sub 0 o B) bet) C
    | SRight, true => ftrmm3_base s u t d M nrest A B bet C
    end in
  let C1 := iteri nb (ftrmm3_fp_step s u t d nsplit M N A B bet) C0 in
  if alpha == 1 then C1 else fscalin M N alpha C1.

(** ** ftrsv, fflas_ftrsv.inl:35-88.  The vector X with increment incX is
    given by its logical entries; [Xi>=X] at line 80 is read as i < N. *)
Definition ftrsv (u : uplo) (t : transp) (d : diag) (N : nat) A (X : nat -> F) : nat -> F :=
  let up X := iteri N (fun i X => memo1 N
    (let x := X i - rsum i (fun k => (if t is Trans then A k i else A i k) * X k) in
     upd1 X i (if d is NonUnit then x / A i i else x))) X in
  let down X := iteri N (fun i X => memo1 N
    (let r := (N - 1 - i)%N in
     let x := if i == 0%N then X r else
       X r - rsum i (fun k => (if t is Trans then A (r + 1 + k)%N r else A r (r + 1 + k)%N) * X (r + 1 + k)%N) in
     upd1 X r (if d is NonUnit then x / A r r else x))) X in
  match u, t with
  | Lower, Trans => down X
  | Lower, NoTrans => up X
  | Upper, Trans => up X
  | Upper, NoTrans => down X
  end.

(** ** fger, fflas_fger.inl:104-158 (generic; the freduce of line 43 is the
    identity on field elements).  Vectors by logical entries. *)
Definition fger (M N : nat) (alpha : F) (x y : nat -> F) A : grid F :=
  if alpha == 0 then A else
  let axpyin A i j a b := upd A i j (A i j + a * b) in
  if (M < N)%N then
    iteri M (fun i A =>
      let tmp := if alpha == 1 then x i else if alpha == -1 then - x i else alpha * x i in
      memo M N (iteri N (fun j A => axpyin A i j tmp (y j)) A)) A
  else
    iteri N (fun j A =>
      let tmp := if alpha == 1 then y j else if alpha == -1 then - y j else alpha * y j in
      memo M N (iteri M (fun i A => axpyin A i j (x i) tmp) A)) A.

(** ** ftrtri, ffpack_ftrtr.inl:36-99 *)
Definition ftrtri_base (u : uplo) (d : diag) (N : nat) A : grid F :=
  let invd i A := if d is NonUnit then upd A i i (A i i)^-1 else A in
  let negd i A := if d is NonUnit then - A i i else -1 in
  match u with
  | Upper =>
    iterd N.-1 (fun li A =>
      let A1 := invd li A in
      at_ li li.+1 (ftrmm SRight u NoTrans d 1 (N - li - 1) (negd li A1) (sub li.+1 li.+1 A1)) A1)
      (invd N.-1 A)
  | Lower =>
    iteri N.-1 (fun k A =>
      let li := k.+1 in
      let A1 := invd li A in
      at_ li 0 (ftrmm SRight u NoTrans d 1 li (negd li A1) A1) A1)
      (invd 0%N A)
  end.

Fixpoint ftrtri (n : nat) (u : uplo) (d : diag) (threshold N : nat) A : grid F :=
  if n is n'.+1 then
    if N == 0%N then A
    else if (N <= threshold)%N then ftrtri_base u d N A
    else
      let N1 := N./2 in let N2 := (N - N1)%N in
      let A1 := ftrtri n' u d threshold N1 A in
      let A2 := at_ N1 N1 (ftrtri n' u d threshold N2) A1 in
      match u with
      | Upper =>
        let A3 := at_ 0 N1 (ftrmm SLeft u NoTrans d N1 N2 1 A2) A2 in
        at_ 0 N1 (ftrmm SRight u NoTrans d N1 N2 (-1) (sub N1 N1 A3)) A3
      | Lower =>
        let A3 := at_ N1 0 (ftrmm SLeft u NoTrans d N2 N1 1 (sub N1 N1 A2)) A2 in
        at_ N1 0 (ftrmm SRight u NoTrans d N2 N1 (-1) A3) A3
      end
  else A.

(** ffpack_ftrtr.inl:101-142: product of the two triangles stored in A. *)
Definition odiag (d : diag) : diag := if d is Unit then NonUnit else Unit.
Fixpoint ftrtrm (n : nat) (s : side) (d : diag) (N : nat) A : grid F :=
  if n is n'.+1 then
    if (N <= 1)%N then A
    else
      let N1 := N./2 in let N2 := (N - N1)%N in
      match s with
      | SLeft =>
        let A1 := ftrtrm n' s d N1 A in
        let A2 := fgemm NoTrans NoTrans N1 N1 N2 1 (sub 0 N1 A1) (sub N1 0 A1) 1 A1 in
        let A3 := at_ 0 N1 (ftrmm SRight Lower NoTrans (odiag d) N1 N2 1 (sub N1 N1 A2)) A2 in
        let A4 := at_ N1 0 (ftrmm SLeft Upper NoTrans d N2 N1 1 (sub N1 N1 A3)) A3 in
        at_ N1 N1 (ftrtrm n' s d N2) A4
      | SRight =>
        let A1 := at_ N1 N1 (ftrtrm n' s d N2) A in
        let A2 := at_ N1 N1 (fgemm NoTrans NoTrans N2 N2 N1 1 (sub N1 0 A1) (sub 0 N1 A1) 1) A1 in
        let A3 := at_ 0 N1 (ftrmm SLeft Lower NoTrans (odiag d) N1 N2 1 A2) A2 in
        let A4 := at_ N1 0 (ftrmm SRight Upper NoTrans d N2 N1 1 A3) A3 in
        ftrtrm n' s d N1 A4
      end
  else A.

End Tri.
