(** * Model of fflas-ffpack/paladin/blockcuts.inl : parallel iteration splitting *)
From Coq Require Import Arith List Lia.
Import ListNotations.

(** [size_t] quantities are modelled as unbounded [nat] (sizes of objects that
    fit in memory); an integer division by zero or an out-of-range array index is the
    outcome [None]. *)

(** blockcuts.inl:37-55, the strategy tags used by the two iterators. *)
Inductive cut := CSingle | CRow | CColumn | CBlock.
Inductive param := PThreads | PGrain | PFixed.

(** blockcuts.inl:34, __FFLASFFPACK_MINBLOCKCUTS *)
Definition MINBLOCKCUTS : nat := 256.

(** C++ integer division, undefined on a zero divisor. *)
Definition div_ub (a b : nat) : option nat :=
  match b with 0 => None | _ => Some (a / b) end.

(** ** ForStrategy1D : blockcuts.inl:325-376 *)

Record fs1 := mkfs1 {
  f1_first : nat;  (* firstBlockSize *)
  f1_last : nat;   (* lastBlockSize *)
  f1_change : nat; (* changeBS *)
  f1_num : nat     (* numBlock *)
}.

(** blockcuts.inl:335-352, [build]. *)
Definition fs1_build (pa : param) (n t : nat) : option fs1 :=
  let onum :=
    match pa with
    | PThreads => Some (Nat.max t 1)
    | PGrain => match div_ub n t with Some q => Some (Nat.max q 1) | None => None end
    | PFixed => Some (Nat.max (n / MINBLOCKCUTS) 1)
    end in
  match onum with
  | None => None
  | Some num =>
    match div_ub n num with
    | None => None
    | Some first =>
      let '(first, num) := if first <? 1 then (1, n) else (first, num) in
      let change := n - num * first in
      let last := first in
      let first := if change =? 0 then first else S first in
      Some (mkfs1 first last change num)
    end
  end.

(** iterator state (ibeg, iend, current): blockcuts.inl:354-357 *)
Definition fs1_init (s : fs1) : nat * nat * nat := (0, f1_first s, 0).

(** blockcuts.inl:367-371, [operator++] *)
Definition fs1_next (s : fs1) (x : nat * nat * nat) : nat * nat * nat :=
  let '(b, e, c) := x in
  let c := S c in
  (e, e + (if c <? f1_change s then f1_first s else f1_last s), c).

(** The loop [for(it.initialize(); !it.isTerminated(); ++it)] of parallel.h:122-126,
    collecting the intervals handed to the loop body; [None] if the fuel is
    exhausted before [isTerminated] (l.358). *)
Fixpoint fs1_loop (fuel : nat) (s : fs1) (x : nat * nat * nat)
  : option (list (nat * nat)) :=
  let '(b, e, c) := x in
  if c =? f1_num s then Some [] else
  match fuel with
  | 0 => None
  | S fuel =>
    match fs1_loop fuel s (fs1_next s x) with
    | Some l => Some ((b, e) :: l)
    | None => None
    end
  end.

Definition for1d (pa : param) (n t fuel : nat) : option (list (nat * nat)) :=
  match fs1_build pa n t with
  | Some s => fs1_loop fuel s (fs1_init s)
  | None => None
  end.

(** ** BlockCuts : blockcuts.inl:118-239 *)

(** blockcuts.inl:219-220: the tables for fewer than 65 threads. *)
Definition maxtc_tab : list nat :=
  [1;2;3;2;5;3;7;4;3;5;11;4;13;7;5;4;17;6;19;5;7;11;23;6;5;13;9;7;29;6;31;8;11;17;7;6;37;19;13;8;41;7;43;11;9;23;47;8;7;10;17;13;53;9;11;8;19;29;59;10;61;31;9;8].
Definition maxtr_tab : list nat :=
  [1;1;1;2;1;2;1;2;3;2;1;3;1;2;3;4;1;3;1;4;3;2;1;4;5;2;3;4;1;5;1;4;3;2;5;6;1;2;3;5;1;6;1;4;5;2;1;6;7;5;3;4;1;6;5;7;3;2;1;6;1;2;7;8].

(** blockcuts.inl:231, inner loop [for( ; newpr < numthreads; ++j, newpr+=i)].
    [fuel] bounds the number of iterations; the caller gives [t], enough as i >= 1. *)
Fixpoint cut_inner (fuel i j newpr t : nat) : nat * nat :=
  match fuel with
  | 0 => (j, newpr)
  | S fuel => if newpr <? t then cut_inner fuel i (S j) (newpr + i) t else (j, newpr)
  end.

(** blockcuts.inl:227-236, outer loop on [i] from maxt down to 1;
    returns (maxtr, maxtc). *)
Fixpoint cut_outer (i maxt t : nat) : nat * nat :=
  match i with
  | 0 => (maxt, maxt)
  | S i' =>
    let '(j, newpr) := cut_inner t i maxt (i * maxt) t in
    if newpr =? t then (i, j) else cut_outer i' maxt t
  end.

(** blockcuts.inl:216-238.  [(size_t)sqrt((double)t)] is the integer square
    root (exact for t < 2^52). *)
Definition thread_grid (t : nat) : option (nat * nat) :=
  if t <? 65 then
    match t with
    | 0 => None   (* maxtr[numthreads-1]: index out of range *)
    | S t' => Some (nth t' maxtr_tab 0, nth t' maxtc_tab 0)
    end
  else Some (cut_outer (Nat.sqrt t) (Nat.sqrt t) t).

(** The specialisations BlockCuts<Cut,Param>: blockcuts.inl:124-239.
    Returns (RBLOCKSIZE, CBLOCKSIZE).  Single is only defined with Threads
    (l.125) and ignores the number of threads. *)
Definition block_sizes (c : cut) (pa : param) (m n t : nat) : option (nat * nat) :=
  match c, pa with
  | CSingle, _ => Some (Nat.max m 1, Nat.max n 1)
  | CRow, PFixed => Some (Nat.max (Nat.min m MINBLOCKCUTS) 1, Nat.max n 1)
  | CRow, PGrain => Some (Nat.max (Nat.min m t) 1, Nat.max n 1)
  | CBlock, PGrain => Some (Nat.max (Nat.min m t) 1, Nat.max (Nat.min n t) 1)
  | CColumn, PFixed => Some (Nat.max m 1, Nat.max (Nat.min n MINBLOCKCUTS) 1)
  | CColumn, PGrain => Some (Nat.max m 1, Nat.max (Nat.min n t) 1)
  | CBlock, PFixed =>
      Some (Nat.max (Nat.min m MINBLOCKCUTS) 1, Nat.max (Nat.min n MINBLOCKCUTS) 1)
  | CRow, PThreads =>
      match div_ub m t with Some q => Some (Nat.max q 1, Nat.max n 1) | None => None end
  | CColumn, PThreads =>
      match div_ub n t with Some q => Some (Nat.max m 1, Nat.max q 1) | None => None end
  | CBlock, PThreads =>
      match thread_grid t with
      | None => None
      | Some (r, c) =>
        match div_ub m r, div_ub n c with
        | Some a, Some b => Some (Nat.max a 1, Nat.max b 1)
        | _, _ => None
        end
      end
  end.

(** blockcuts.inl:277-297: the ten-argument BlockCuts. *)
Record fs2 := mkfs2 {
  f2_rbs : nat; f2_cbs : nat;         (* rowBlockSize, colBlockSize *)
  f2_lrbs : nat; f2_lcbs : nat;       (* lastRBS, lastCBS *)
  f2_crbs : nat; f2_ccbs : nat;       (* changeRBS, changeCBS *)
  f2_nr : nat; f2_nc : nat            (* numRowBlock, numColBlock *)
}.

Definition fs2_build (c : cut) (pa : param) (m n t : nat) : option fs2 :=
  match block_sizes c pa m n t with
  | None => None
  | Some (rb, cb) =>
    match div_ub m rb, div_ub n cb with
    | Some nr, Some nc =>
      let crbs := m - rb * nr in
      let ccbs := n - cb * nc in
      Some (mkfs2 (if crbs =? 0 then rb else S rb) (if ccbs =? 0 then cb else S cb)
                  rb cb crbs ccbs nr nc)
    | _, _ => None
    end
  end.

(** ForStrategy2D iterator state: (_ibeg,_iend,_jbeg,_jend,current),
    blockcuts.inl:399-403 *)
Record it2 := mkit2 { i2b : nat; i2e : nat; j2b : nat; j2e : nat; cur2 : nat }.

Definition fs2_init (s : fs2) : it2 := mkit2 0 (f2_rbs s) 0 (f2_cbs s) 0.

(** blockcuts.inl:412-426, [operator++]; only executed when numColBlock > 0
    (otherwise BLOCKS = 0 and the loop does not start), so the division is
    defined. *)
Definition fs2_next (s : fs2) (x : it2) : it2 :=
  let c := S (cur2 x) in
  let icurr := c / f2_nc s in
  let jcurr := c mod f2_nc s in
  if negb (jcurr =? 0) then
    mkit2 (i2b x) (i2e x) (j2e x)
          (j2e x + (if jcurr <? f2_ccbs s then f2_cbs s else f2_lcbs s)) c
  else
    mkit2 (i2e x) (i2e x + (if icurr <? f2_crbs s then f2_rbs s else f2_lrbs s))
          0 (f2_cbs s) c.

(** Rectangle handed to the loop body: (ibegin, iend, jbegin, jend). *)
Definition rect := (nat * nat * nat * nat)%type.

(** Loop of parallel.h:147-151 with BLOCKS = numRowBlock*numColBlock (l.395)
    and isTerminated (l.404). *)
Fixpoint fs2_loop (fuel : nat) (s : fs2) (x : it2) : option (list rect) :=
  if cur2 x =? f2_nr s * f2_nc s then Some [] else
  match fuel with
  | 0 => None
  | S fuel =>
    match fs2_loop fuel s (fs2_next s x) with
    | Some l => Some ((i2b x, i2e x, j2b x, j2e x) :: l)
    | None => None
    end
  end.

Definition for2d (c : cut) (pa : param) (m n t fuel : nat) : option (list rect) :=
  match fs2_build c pa m n t with
  | Some s => fs2_loop fuel s (fs2_init s)
  | None => None
  end.
