(** * C01, C02, C03: permutations *)
From mathcomp Require Import all_ssreflect all_algebra.
From Verif Require Import Grid Perm_model Perm_spec Perm_proofs Perm_mx_proofs.
Set Implicit Arguments.
Unset Strict Implicit.
Unset Printing Implicit Defensive.
Local Open Scope ring_scope.

(** C01. Apply, then apply transposed: every memory cell is restored, whatever
    the (possibly different) block sizes, for any array at all. *)
Theorem C01_roundtrip : forall (T : Type) bk bk' s t t' M b e p (A : grid T) i j,
  (0 < bk)%N -> (0 < bk')%N -> t <> t' ->
  applyP bk' s t' M b e p (applyP bk s t M b e p A) i j = A i j.
Proof. exact applyP_roundtrip. Qed.
Print Assumptions C01_roundtrip.

(** C01. The blocked routine multiplies by the matrix of the transposition
    list, i.e. performs the documented sequence of exchanges. *)
Theorem C01_matrix : forall (F : ringType) bk M b e n p (A : grid F),
  (0 < bk)%N -> (e <= n)%N -> (forall i, (b <= i < e)%N -> (p i < n)%N) ->
  forall s t,
  let P := Pmx F n p b e in
  match s, t with
  | SLeft, NoTrans => mx n M (applyP bk s t M b e p A) = P *m mx n M A
  | SLeft, Trans => mx n M (applyP bk s t M b e p A) = P^T *m mx n M A
  | SRight, NoTrans => mx M n (applyP bk s t M b e p A) = mx M n A *m P
  | SRight, Trans => mx M n (applyP bk s t M b e p A) = mx M n A *m P^T
  end.
Proof. exact applyP_mx. Qed.
Print Assumptions C01_matrix.

Theorem C01_orthogonal : forall (F : ringType) b e n p,
  (e <= n)%N -> (forall i, (b <= i < e)%N -> (p i < n)%N) ->
  let P := Pmx F n p b e in P *m P^T = 1%:M /\ P^T *m P = 1%:M.
Proof. exact Pmx_orth. Qed.
Print Assumptions C01_orthogonal.

(** C01. Frame: nothing is written outside M columns (rows) and outside the
    rows (columns) [b, n). *)
Theorem C01_frame : forall (T : Type) bk s t M b e p (A : grid T) n i j,
  (0 < bk)%N -> (e <= n)%N -> (forall i, (b <= i < e)%N -> (b <= p i < n)%N) ->
  (if s is SLeft then (M <= j) || (i < b) || (n <= i) else (M <= i) || (j < b) || (n <= j))%N ->
  applyP bk s t M b e p A i j = A i j.
Proof. exact applyP_frame. Qed.
Print Assumptions C01_frame.

(** C01. Any decomposition of the M columns (rows) into disjoint tasks, run in
    any order, gives the same matrix. *)
Theorem C01_tasks : forall (T : Type) bk s t M b e P bl (A : grid T) i j, (0 < bk)%N ->
  (forall k, count (fun x => x.1 <= k < x.1 + x.2)%N bl = (k < M)%N) ->
  applyP_tasks bk s t b e P bl A i j = applyP bk s t M b e P A i j.
Proof. exact applyP_tasks_full. Qed.
Print Assumptions C01_tasks.

Definition p5 (i : nat) : nat := nth 0%N [:: 3; 1; 4; 4; 4]%N i.
Example C01_case : [seq applyP 2 SLeft NoTrans 3 0 5 p5 (fun i j => (10 * i + j)%N) i j | i <- iota 0 5, j <- iota 0 3]
  = [:: 30; 31; 32; 10; 11; 12; 40; 41; 42; 20; 21; 22; 0; 1; 2]%N.
Proof. by []. Qed.
Example C01_case_hyp : (forall i, (0 <= i < 5)%N -> (0 <= p5 i < 5)%N) /\
  (forall k, count (fun x => x.1 <= k < x.1 + x.2)%N [:: (4, 3); (0, 4)]%N = (k < 7)%N).
Proof. by split; [do 5 (case => //) | do 8 (case => //)]. Qed.

(** C02. *)
Theorem C02_list_to_perm : forall M0 p N, (forall i, i < N -> p i < N)%N ->
  is_perm N (lapack2math M0 p N) /\
  (forall x, (N <= x)%N -> lapack2math M0 p N x = M0 x).
Proof.
move=> M0 p N H; split; last by move=> x Nx; rewrite lapack2mathE // ltnNge Nx.
by apply: (perm_ext _ (sigma_perm H)) => x xN; rewrite lapack2mathE // xN.
Qed.
Print Assumptions C02_list_to_perm.

Theorem C02_perm_to_list : forall P0 s N, is_perm N s ->
  is_lapack N (math2lapack P0 s N) /\
  (forall M0 x, (x < N)%N -> lapack2math M0 (math2lapack P0 s N) N x = s x) /\
  (forall x, (N <= x)%N -> math2lapack P0 s N x = P0 x).
Proof.
move=> P0 s N H; have [L [E O]] := math2lapackE P0 H; split=> //; split=> // M0 x xN.
by rewrite lapack2mathE ?xN ?E // => i /L /andP[].
Qed.
Print Assumptions C02_perm_to_list.

(** Rows move as the explicit permutation says: row x of the result is row
    s(x) of the input; same for columns. *)
Theorem C02_apply : forall (T : Type) bk M p N M0 (A : grid T),
  (0 < bk)%N -> (forall i, i < N -> p i < N)%N ->
  (forall i j, (i < N)%N -> (j < M)%N ->
     applyP bk SLeft NoTrans M 0 N p A i j = A (lapack2math M0 p N i) j) /\
  (forall i j, (i < M)%N -> (j < N)%N ->
     applyP bk SRight Trans M 0 N p A i j = A i (lapack2math M0 p N j)).
Proof.
move=> T bk M p N M0 A b0 H; split=> i j ii jj; rewrite lapack2mathE // applyPE //=.
  by rewrite ii jj.
by rewrite ii jj.
Qed.
Print Assumptions C02_apply.

Example C02_case : [seq math2lapack id (fun i => nth 0 [:: 3; 1; 4; 2; 0] i)%N 5 i | i <- iota 0 5]
  = [:: 3; 1; 4; 4; 4]%N /\ is_perm 5 (fun i => nth 0 [:: 3; 1; 4; 2; 0] i)%N.
Proof.
split=> //; split; first by do 5 (case => //).
by do 5 (case; [do 5 (case => //)|]).
Qed.

(** C03. The composed permutation is x |-> P1 ((Id_R (+) P2) x). *)
Theorem C03_MLM : forall m p2 R N x, (R <= N)%N -> (forall i, i < N - R -> p2 i < N - R)%N ->
  composeMLM m p2 R N x = m (dsum R (sigma p2 0 (N - R)) x).
Proof. exact composeMLME. Qed.
Print Assumptions C03_MLM.

Theorem C03_LLM : forall M0 p1 p2 R N x, (R <= N)%N -> (forall i, i < N -> p1 i < N)%N ->
  (forall i, i < N - R -> p2 i < N - R)%N -> (x < N)%N ->
  composeLLM M0 p1 p2 R N x = sigma p1 0 N (dsum R (sigma p2 0 (N - R)) x).
Proof. exact composeLLME. Qed.
Print Assumptions C03_LLM.

Theorem C03_LLL : forall M0 p1 p2 R N, (R <= N)%N -> (forall i, i < N -> p1 i < N)%N ->
  (forall i, i < N - R -> p2 i < N - R)%N ->
  let p := composeLLL M0 p1 p2 R N in is_lapack N p /\
  forall x, (x < N)%N -> sigma p 0 N x = sigma p1 0 N (dsum R (sigma p2 0 (N - R)) x).
Proof. exact composeLLLE. Qed.
Print Assumptions C03_LLL.

Example C03_case : [seq composeLLL id p5 (fun i => if i == 0 then 2 else i)%N 2 5 i | i <- iota 0 5]
  = [:: 3; 1; 3; 3; 4]%N.
Proof. by vm_compute. Qed.
