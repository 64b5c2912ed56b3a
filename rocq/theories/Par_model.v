(** * Model of the task-parallel routines (fflas-ffpack/paladin, fflas_pftrsm.inl) *)
From mathcomp Require Import all_ssreflect ssralg.
From Verif Require Import Cuts_model.
Set Implicit Arguments.
Unset Strict Implicit.
Unset Printing Implicit Defensive.
Import GRing.Theory.

(** ** Tasks on a shared memory *)

(** A memory cell: an allocation and an offset in it.  Allocations are named by
    lists of numbers, so that each task can name its own temporaries; an offset
    is not bounded: accesses past the end are cells of the same allocation. *)
Definition addr : Type := (seq nat * nat)%type.

Section Cmd.
Variable V : Type.
Definition mem := addr -> V.
Definition upd (mu : mem) (a : addr) (v : V) : mem := fun b => if b == a then v else mu b.

(** [Upd a f got todo]: loads the cells [todo], one at a time, then stores
    [f (got ++ loaded)] in [a].  [Par] is what the macros TASK make of two
    successive tasks; the end of a SYNCH_GROUP (parallel.h:171-172, taskwait)
    and CHECK_DEPENDENCIES (l.306) wait for both sides: [Seq (Par p q) r]. *)
Inductive cmd :=
| Done
| Upd (a : addr) (f : seq V -> V) (got : seq V) (todo : seq addr)
| Seq (p q : cmd)
| Par (p q : cmd).

(** Every load and every store is one step; the two sides of [Par] interleave
    in any order. *)
Inductive step : cmd -> mem -> cmd -> mem -> Prop :=
| step_load a f got x todo mu : step (Upd a f got (x :: todo)) mu (Upd a f (rcons got (mu x)) todo) mu
| step_store a f got mu : step (Upd a f got [::]) mu Done (upd mu a (f got))
| step_seq p mu p' mu' q : step p mu p' mu' -> step (Seq p q) mu (Seq p' q) mu'
| step_next q mu : step (Seq Done q) mu q mu
| step_left p mu p' mu' q : step p mu p' mu' -> step (Par p q) mu (Par p' q) mu'
| step_right p q mu q' mu' : step q mu q' mu' -> step (Par p q) mu (Par p q') mu'
| step_join mu : step (Par Done Done) mu Done mu.

Inductive steps : cmd -> mem -> cmd -> mem -> Prop :=
| steps_refl p mu : steps p mu p mu
| steps_trans p mu p' mu' p'' mu'' : step p mu p' mu' -> steps p' mu' p'' mu'' -> steps p mu p'' mu''.

(** The execution on one thread, in program order (parallel.h:98-104, where
    TASK is a plain call). *)
Fixpoint run (p : cmd) (mu : mem) : mem :=
  match p with
  | Done => mu
  | Upd a f got todo => upd mu a (f (got ++ [seq mu x | x <- todo]))
  | Seq p q => run q (run p mu)
  | Par p q => run q (run p mu)
  end.

Definition cseq (s : seq cmd) : cmd := foldr Seq Done s.
Definition cpar (s : seq cmd) : cmd := foldr Par Done s.
End Cmd.
Arguments Done {V}.

(** ** Matrices in memory: pointer and leading dimension *)
Record view := View { vreg : seq nat; vbase : nat; vld : nat }.
Definition cell (C : view) (i j : nat) : addr := (vreg C, vbase C + i * vld C + j)%N.
(** [C + r*ldc + c] *)
Definition sub (C : view) (r c : nat) : view := View (vreg C) (vbase C + r * vld C + c) (vld C).
(** entry (i,l) of op(A), and the operand starting at entry (r,c) of op(A):
    pfgemm_variants.inl:102, 124, 140-142, A + r*(ta?1:lda) + c*(ta?lda:1) *)
Definition op (t : bool) (A : view) (i l : nat) : addr := if t then cell A l i else cell A i l.
Definition opsub (t : bool) (A : view) (r c : nat) : view :=
  View (vreg A) (vbase A + r * (if t then 1 else vld A) + c * (if t then vld A else 1)) (vld A).

Definition loop2 V (m n : nat) (body : nat -> nat -> cmd V) : cmd V :=
  cseq [seq cseq [seq body i j | j <- iota 0 n] | i <- iota 0 m].

(** pfgemm_variants.inl:275-278 (TwoD), 379-386 (ThreeD), 454-457:
    [nt_rec + ((nt_mod-- > 0) ? 1 : 0)] for the j-th of w tasks.  [nt_mod] is
    unsigned: it is zero exactly once, for j = nt mod w, and wraps after that. *)
Definition nth_threads (w nt j : nat) : nat := maxn 1 (nt %/ w + (j != nt %% w)).

Section Gemm.
Variable V : ringType.
Local Open Scope ring_scope.
Local Open Scope nat_scope.
Notation cmd := (cmd V).

(** The sequential fgemm that the leaves call, one cell at a time; beta = 0
    does not read C.  (Its own algorithms are the subject of C06-C12.) *)
Definition gemm_val (k : nat) (alpha beta : V) (s : seq V) : V :=
  (alpha * foldr (fun l acc => nth 0 s l * nth 0 s (k + l)%N + acc) 0 (iota 0 k) + beta * nth 0 s (k + k)%N)%R.
Definition gemm_cell ta tb k alpha A B beta C i j : cmd :=
  Upd (cell C i j) (gemm_val k alpha beta) [::]
    ([seq op ta A i l | l <- iota 0 k] ++ [seq op tb B l j | l <- iota 0 k] ++
     (if beta == 0%R then [::] else [:: cell C i j])).
Definition fgemm_seq ta tb m n k alpha A B beta C : cmd :=
  loop2 m n (gemm_cell ta tb k alpha A B beta C).
(** fscalin(F, m, n, beta, C, ldc) *)
Definition fscalin (m n : nat) (beta : V) (C : view) : cmd :=
  loop2 m n (fun i j => Upd (cell C i j) (fun s => beta * nth 0 s 0)%R [::] (if beta == 0%R then [::] else [:: cell C i j])).
(** faddin(F, M, N, B, ldb, A, lda): A += B *)
Definition faddin (m n : nat) (S D : view) : cmd :=
  loop2 m n (fun i j => Upd (cell D i j) (fun s => nth 0 s 0 + nth 0 s 1)%R [::] [:: cell D i j; cell S i j]).

(** pfgemm_variants.inl:30-60, Block/Threads; [T] is
    __FFLASFFPACK_SEQPARTHRESHOLD (fflas_pfgemm.inl:30).  The helper shared by
    the tasks is not part of the memory. *)
Definition pf_block (T nt : nat) ta tb m n k alpha A B beta C : option cmd :=
  let nt := minn nt (maxn 1 (m * n %/ (T * T))) in
  match for2d CBlock PThreads m n nt (m * n)%N with
  | None => None
  | Some l =>
      Some (cpar [seq (let '(ib, ie, jb, je) := t in
        fgemm_seq ta tb (ie - ib) (je - jb) k alpha (opsub ta A ib 0) (opsub tb B 0 jb) beta (sub C ib jb)) | t <- l])
  end.

Section Rec.
(** [df]: dataflow dependencies (parallel.h:295-302) rather than explicit
    synchronisation; [T] the sequential threshold. *)
Variables (df : bool) (T : nat) (ta tb : bool) (alpha : V).

(** The recursion is on the number of threads; [fuel >= nt] is enough, and a
    call without fuel would run sequentially.  [pth] names the temporaries. *)

(** pfgemm_variants.inl:159-217, Recursive/TwoDAdaptive *)
Fixpoint pf_2da (fuel nt m n k : nat) (A B : view) (beta : V) (C : view) : cmd :=
  if (m == 0%N) || (n == 0%N) then Done
  else if (k == 0%N) || (alpha == 0%R) then fscalin m n beta C
  else if (nt <= 1) || (m * n <= T * T) then fgemm_seq ta tb m n k alpha A B beta C
  else if fuel isn't f.+1 then fgemm_seq ta tb m n k alpha A B beta C
  else
    let t1 := nt./2 in let t2 := (nt - nt./2)%N in
    if n <= m then
      let M2 := m./2 in
      cpar [:: pf_2da f t1 M2 n k A B beta C;
               pf_2da f t2 (m - M2) n k (opsub ta A M2 0) B beta (sub C M2 0)]
    else
      let N2 := n./2 in
      cpar [:: pf_2da f t1 m N2 k A B beta C;
               pf_2da f t2 m (n - N2) k A (opsub tb B 0 N2) beta (sub C 0 N2)].

(** pfgemm_variants.inl:219-291, Recursive/TwoD *)
Fixpoint pf_2d (fuel nt m n k : nat) (A B : view) (beta : V) (C : view) : cmd :=
  if (m == 0%N) || (n == 0%N) then Done
  else if (k == 0%N) || (alpha == 0%R) then fscalin m n beta C
  else if (nt <= 1) || (m * n <= T * T) then fgemm_seq ta tb m n k alpha A B beta C
  else if fuel isn't f.+1 then fgemm_seq ta tb m n k alpha A B beta C
  else
    let M2 := m./2 in let N2 := n./2 in
    cpar [:: pf_2d f (nth_threads 4 nt 0) M2 N2 k A B beta C;
             pf_2d f (nth_threads 4 nt 1) M2 (n - N2) k A (opsub tb B 0 N2) beta (sub C 0 N2);
             pf_2d f (nth_threads 4 nt 2) (m - M2) N2 k (opsub ta A M2 0) B beta (sub C M2 0);
             pf_2d f (nth_threads 4 nt 3) (m - M2) (n - N2) k (opsub ta A M2 0) (opsub tb B 0 N2) beta (sub C M2 N2)].

(** pfgemm_variants.inl:74-76, 312, 431 *)
Definition small3 (nt m n k : nat) : bool :=
  (nt <= 1) || (minn (m * n) (minn (m * k) (k * n)) <= T * T).

(** two phases of four tasks on the quadrants *)
Definition phases (ps qs : seq cmd) : cmd :=
  if df then cpar [seq Seq pq.1 pq.2 | pq <- zip ps qs] else Seq (cpar ps) (cpar qs).

(** pfgemm_variants.inl:293-408, Recursive/ThreeD; the two products of each
    quadrant are grouped, which does not restrict the interleavings. *)
Fixpoint pf_3d (fuel : nat) (pth : seq nat) (nt m n k : nat) (A B : view) (beta : V) (C : view) : cmd :=
  if (m == 0%N) || (n == 0%N) then Done
  else if (k == 0%N) || (alpha == 0%R) then fscalin m n beta C
  else if small3 nt m n k then fgemm_seq ta tb m n k alpha A B beta C
  else if fuel isn't f.+1 then fgemm_seq ta tb m n k alpha A B beta C
  else
    let M2 := m./2 in let N2 := n./2 in let K2 := k./2 in
    let A11 := A in let A12 := opsub ta A 0 K2 in
    let A21 := opsub ta A M2 0 in let A22 := opsub ta A M2 K2 in
    let B11 := B in let B12 := opsub tb B 0 N2 in
    let B21 := opsub tb B K2 0 in let B22 := opsub tb B K2 N2 in
    let tmp q w := View (pth ++ [:: q; 2]) 0 w in
    let rec j q s := pf_3d f (pth ++ [:: q; s]) (nth_threads 8 nt j) in
    phases
      [:: cpar [:: rec 0 0 0 M2 N2 K2 A11 B11 beta C;
                   rec 1 0 1 M2 N2 (k - K2) A12 B21 0%R (tmp 0 N2)];
          cpar [:: rec 2 1 0 M2 (n - N2) (k - K2) A12 B22 beta (sub C 0 N2);
                   rec 3 1 1 M2 (n - N2) K2 A11 B12 0%R (tmp 1 (n - N2))];
          cpar [:: rec 4 2 0 (m - M2) N2 (k - K2) A22 B21 beta (sub C M2 0);
                   rec 5 2 1 (m - M2) N2 K2 A21 B11 0%R (tmp 2 N2)];
          cpar [:: rec 6 3 0 (m - M2) (n - N2) K2 A21 B12 beta (sub C M2 N2);
                   rec 7 3 1 (m - M2) (n - N2) (k - K2) A22 B22 0%R (tmp 3 (n - N2))]]
      [:: faddin M2 N2 (tmp 0 N2) C;
          faddin M2 (n - N2) (tmp 1 (n - N2)) (sub C 0 N2);
          faddin (m - M2) N2 (tmp 2 N2) (sub C M2 0);
          faddin (m - M2) (n - N2) (tmp 3 (n - N2)) (sub C M2 N2)]%N.

(** pfgemm_variants.inl:410-483, Recursive/ThreeDInPlace *)
Fixpoint pf_3dip (fuel nt m n k : nat) (A B : view) (beta : V) (C : view) : cmd :=
  if (m == 0%N) || (n == 0%N) then Done
  else if (k == 0%N) || (alpha == 0%R) then fscalin m n beta C
  else if small3 nt m n k then fgemm_seq ta tb m n k alpha A B beta C
  else if fuel isn't f.+1 then fgemm_seq ta tb m n k alpha A B beta C
  else
    let M2 := m./2 in let N2 := n./2 in let K2 := k./2 in
    let A11 := A in let A12 := opsub ta A 0 K2 in
    let A21 := opsub ta A M2 0 in let A22 := opsub ta A M2 K2 in
    let B11 := B in let B12 := opsub tb B 0 N2 in
    let B21 := opsub tb B K2 0 in let B22 := opsub tb B K2 N2 in
    let rec j := pf_3dip f (nth_threads 4 nt j) in
    phases
      [:: rec 0 M2 N2 K2 A11 B11 beta C;
          rec 1 M2 (n - N2) (k - K2) A12 B22 beta (sub C 0 N2);
          rec 2 (m - M2) N2 (k - K2) A22 B21 beta (sub C M2 0);
          rec 3 (m - M2) (n - N2) K2 A21 B12 beta (sub C M2 N2)]
      [:: rec 0 M2 N2 (k - K2) A12 B21 1%R C;
          rec 1 M2 (n - N2) K2 A11 B12 1%R (sub C 0 N2);
          rec 2 (m - M2) N2 K2 A21 B11 1%R (sub C M2 0);
          rec 3 (m - M2) (n - N2) (k - K2) A22 B22 1%R (sub C M2 N2)]%N.

(** pfgemm_variants.inl:62-157, Recursive/ThreeDAdaptive; l.149 calls
    faddin(F, n, m, C2, n, C, ldc). *)
Fixpoint pf_3da (fuel : nat) (pth : seq nat) (nt m n k : nat) (A B : view) (beta : V) (C : view) : cmd :=
  if (m == 0%N) || (n == 0%N) then Done
  else if (k == 0%N) || (alpha == 0%R) then fscalin m n beta C
  else if small3 nt m n k then fgemm_seq ta tb m n k alpha A B beta C
  else if fuel isn't f.+1 then fgemm_seq ta tb m n k alpha A B beta C
  else
    let t1 := nt./2 in let t2 := (nt - nt./2)%N in
    if (k < m) && (n <= m) then
      let M2 := m./2 in
      cpar [:: pf_3da f (pth ++ [:: 0]) t1 M2 n k A B beta C;
               pf_3da f (pth ++ [:: 1]) t2 (m - M2) n k (opsub ta A M2 0) B beta (sub C M2 0)]%N
    else if k < n then
      let N2 := n./2 in
      cpar [:: pf_3da f (pth ++ [:: 0]) t1 m N2 k A B beta C;
               pf_3da f (pth ++ [:: 1]) t2 m (n - N2) k A (opsub tb B 0 N2) beta (sub C 0 N2)]%N
    else
      let K2 := k./2 in
      let C2 := View (pth ++ [:: 2%N]) 0 n in
      Seq (cpar [:: pf_3da f (pth ++ [:: 0]) t1 m n K2 A B beta C;
                    pf_3da f (pth ++ [:: 1]) t2 m n (k - K2) (opsub ta A 0 K2) (opsub tb B K2 0) 0%R C2])%N
          (faddin n m C2 C).
End Rec.

(** ** Matrix-vector products, pfgemv.inl *)

(** The sequential fgemv of the leaves: m and n are the dimensions of A, not
    of op(A); X and Y are views whose leading dimension is the increment. *)
Definition fgemv_seq (ta : bool) (m n : nat) alpha A X beta Y : cmd :=
  let yd := if ta then n else m in let xd := if ta then m else n in
  cseq [seq Upd (cell Y i 0) (gemm_val xd alpha beta) [::]
              ([seq op ta A i l | l <- iota 0 xd] ++ [seq cell X l 0 | l <- iota 0 xd] ++
               (if beta == 0%R then [::] else [:: cell Y i 0])) | i <- iota 0 yd].

(** pfgemv.inl:29-73, Recursive/Threads.  [None] stands for a recursion that
    does not end (no thread). *)
Fixpoint pgemv_rec (fuel nt : nat) (ta : bool) (m n : nat) alpha A X beta Y : option cmd :=
  if (nt == 1%N) || (m <= 1) then Some (fgemv_seq ta m n alpha A X beta Y)
  else if fuel isn't f.+1 then None
  else
    let yd := if ta then n else m in let yd2 := yd./2 in
    let t1 := nt./2 in let t2 := (nt - nt./2)%N in
    let A2 := View (vreg A) (vbase A + (if ta then yd else yd2 * vld A)) (vld A) in
    let Y2 := sub Y yd2 0 in
    match (if ta then pgemv_rec f t1 ta m yd2 alpha A X beta Y else pgemv_rec f t1 ta yd2 n alpha A X beta Y),
          (if ta then pgemv_rec f t2 ta m (n - yd2) alpha A2 X beta Y2 else pgemv_rec f t2 ta (m - yd2) n alpha A2 X beta Y2) with
    | Some p, Some q => Some (cpar [:: p; q])
    | _, _ => None
    end.

(** pfgemv.inl:76-107, Row *)
Definition pgemv_row (pa : param) (nt : nat) (ta : bool) (m n : nat) alpha A X beta Y : option cmd :=
  let yd := if ta then n else m in let xd := if ta then m else n in
  match for1d pa yd nt yd with
  | None => None
  | Some l =>
      Some (cpar [seq (let '(b, e) := t in
        if ta then fgemv_seq ta xd (e - b) alpha (opsub ta A b 0) X beta (sub Y b 0)
        else fgemv_seq ta (e - b) xd alpha (opsub ta A b 0) X beta (sub Y b 0)) | t <- l])
  end.

(** ** Dot product, fflas_plevel1.h:91-129; x and y have their increments as
    leading dimensions, z is the array of rs partial results, the result is
    added to the cell d. *)
Definition fdot_seq (N : nat) (x y : view) (dst : addr) : cmd :=
  Upd dst (fun s => foldr (fun l acc => nth 0 s l * nth 0 s (N + l)%N + acc) 0 (iota 0 N))%R [::]
    ([seq cell x l 0 | l <- iota 0 N] ++ [seq cell y l 0 | l <- iota 0 N]).
Definition pfdot (pa : param) (rs N : nat) (x y z : view) (d : addr) : option cmd :=
  match for1d pa N rs N with
  | None => None
  | Some l =>
      Some (Seq (cseq [seq Upd (cell z 0 i) (fun=> 0%R) [::] [::] | i <- iota 0 rs])
           (Seq (cpar [seq fdot_seq ((nth (0, 0)%N l i).2 - (nth (0, 0)%N l i).1) (sub x (nth (0, 0)%N l i).1 0) (sub y (nth (0, 0)%N l i).1 0) (cell z 0 i)
                       | i <- iota 0 (size l)])
                (cseq [seq Upd d (fun s => nth 0 s 0 + nth 0 s 1)%R [::] [:: d; cell z 0 i] | i <- iota 0 rs])))
  end.

(** fflas_plevel1.h:35-59, pfzero; [bs] is max(BS, WinogradThreshold) *)
Definition pfzero (bs m n : nat) (C : view) : option cmd :=
  match for2d CBlock PGrain m n bs (m * n)%N with
  | None => None
  | Some l =>
      Some (cpar [seq (let '(ib, ie, jb, je) := t in
        loop2 (ie - ib) (je - jb) (fun i j => Upd (cell (sub C ib jb) i j) (fun=> 0%R) [::] [::])) | t <- l])
  end.
End Gemm.

(** ** Triangular systems, fflas_pftrsm.inl *)
Section Trsm.
Variable V : Type.

(** [solve c w]: the sequential ftrsm on the columns (side left) or rows (side
    right) [c, c+w) of B, one after the other; [col] solves for one of them.
    fflas_pftrsm.inl:36-75, Iterative. *)
Definition solve (col : nat -> cmd V) (c w : nat) : cmd V := cseq [seq col j | j <- iota c w].
Definition ptrsm_iter (pa : param) (nt N : nat) (col : nat -> cmd V) : option (cmd V) :=
  match for1d pa N nt N with
  | None => None
  | Some l => Some (cpar [seq solve col t.1 (t.2 - t.1) | t <- l])
  end.

(** One column of the sequential ftrsm, side left, lower triangular, not
    transposed, unit diagonal: forward substitution (the other shapes and the
    blocked algorithm are the subject of C02 and C13). *)
Definition trsm_col (R : ringType) (M : nat) (A B : view) (j : nat) : cmd R :=
  cseq [seq Upd (cell B i j)
              (fun s => nth 0 s 0 - foldr (fun l acc => nth 0 s l.+1 * nth 0 s (i + l).+1 + acc) 0 (iota 0 i))%R [::]
              (cell B i j :: [seq cell A i l | l <- iota 0 i] ++ [seq cell B l j | l <- iota 0 i])
       | i <- iota 0 M].

(** fflas_pftrsm.inl:126-139 (side left): the loop on nt_it; [None] is a loop
    that does not end. [H] is PTRSM_HYBRID_THRESHOLD. *)
Fixpoint hyb_loop (fuel H n it : nat) : option nat :=
  if it * H < n then Some it else if fuel isn't f.+1 then None else hyb_loop f H n it./2.
Definition hyb_it (H n nt : nat) : option nat :=
  if nt * H < n then Some nt
  else match hyb_loop nt H n nt./2 with Some it => Some (it * 2)%N | None => None end.
(** fflas_pftrsm.inl:148-155: the blocks; each is solved by the recursive
    algorithm with its own tasks, here one after the other. *)
Definition ptrsm_hyb_left (pa : param) (H nt n : nat) (col : nat -> cmd V) : option (cmd V) :=
  match hyb_it H n nt with
  | None => None
  | Some it => ptrsm_iter pa it n col
  end.
End Trsm.
