From mathcomp Require Import all_ssreflect all_algebra zify ring.
From Verif Require Import Grid Perm_model Perm_spec Tri_model Tri_spec Tri_proofs Sym_model Sym_spec Sym_proofs.
Set Implicit Arguments.
Unset Strict Implicit.
Unset Printing Implicit Defensive.
Import GRing.Theory.
Local Open Scope ring_scope.

Section Sym.
Variable F : fieldType.
Implicit Types A B C D : grid F.

(** ** fsyr2k *)
Lemma add_row_colE i i0 n C r c :
  add_row_col i i0 n C r c = if (c == i) && (i0 <= r < i0 + n)%N then C r c + C c r else C r c.
Proof.
rewrite /add_row_col; elim: n r c => [|n IH] r c /=; first by case: ifP => //; lia.
rewrite /upd !IH.
case: (altP (c =P i)) => [->|_] /=; last by rewrite andbF.
rewrite andbT; case: (altP (r =P (i0 + n)%N)) => [->|ne].
  rewrite eqxx /= addnS ltnSn leq_addr ltnn andbF /=.
  by case: ifP => [/andP[/eqP->]|//]; lia.
by rewrite addnS ltnS (leq_eqVlt r) (negbTE ne).
Qed.

(** Loops adding row i onto column i, from the diagonal (if d) on. *)
Lemma add_loop (P : nat -> nat -> bool) m (f : nat -> grid F -> grid F) C r c :
  (forall i j, (i < m)%N -> (j < m)%N -> P i j -> P j i -> i = j) ->
  (forall i C r c, (i < m)%N -> f i C r c = if [&& c == i, (r < m)%N & P r c] then C r c + C c r else C r c) ->
  forall n, (n <= m)%N ->
  iteri n f C r c = if [&& (c < n)%N, (r < m)%N & P r c] then C r c + C c r else C r c.
Proof.
move=> anti fE n; elim: n r c => [|n IH] r c nm //=.
rewrite fE // !IH; try lia.
case: (altP (c =P n)) => [->|ne] /=; last first.
  by rewrite [(c < n.+1)%N]ltnS [(c <= n)%N]leq_eqVlt (negbTE ne).
rewrite ltnn ltnSn /=; case: ifP => [/andP[rm Prn]|//].
rewrite nm /=; case: ifP => // /andP[rn Pnr].
by have := anti _ _ rm nm Prn Pnr; lia.
Qed.

Lemma diag_loop n (g : nat -> F -> F) C r c :
  iteri n (fun i C => upd C i i (g i (C i i))) C r c = if (r == c) && (r < n)%N then g r (C r r) else C r c.
Proof.
elim: n r c => [|n IH] r c /=; first by rewrite andbF.
rewrite /upd !IH; case: (altP (r =P n)) => [->|ne] /=.
  rewrite ltnSn andbT ltnn eq_sym.
  by case: (altP (n =P c)) => [->|]; rewrite ?eqxx ?ltnn.
by rewrite [(r < n.+1)%N]ltnS [(r <= n)%N]leq_eqVlt (negbTE ne).
Qed.

Lemma in_tri_anti u i j : in_tri u i j -> in_tri u j i -> i = j.
Proof. by case: u => /= *; lia. Qed.

Lemma in_triC u i j : in_tri u i j = false -> in_tri u j i.
Proof. by case: u => /= *; lia. Qed.

Definition fsyr2k_gemm u t N K al A B be C :=
  let C1 := if 1 + 1 == 0 :> F then C else fun i j => if (i == j) && (i < N)%N then (1 + 1)^-1 * C i i else C i j in
  fun i j => if ((i < N) && (j < N))%N
    then al * cross t K A B i j + be * (if in_tri u i j then C1 i j else 0) else C i j.

Lemma fsyr2kE u t N K al A B be C i j : (0 < K)%N ->
  let G := fsyr2k_gemm u t N K al A B be C in
  fsyr2k u t N K al A B be C i j =
  if [&& i < N, j < N & in_tri u i j]%N
  then (if (i == j) && (1 + 1 == 0 :> F) then be * C i i else G i j + G j i) else G i j.
Proof.
move=> K0 G; rewrite /fsyr2k eqn0Ngt; case: posnP => [N0|N0] /=; first by rewrite /G /fsyr2k_gemm N0.
rewrite (eqn0Ngt K) K0 /=.
set C1 := if ~~ _ then _ else _.
set C2 := memo N N (fill _ _ _ C1).
set C3 := fgemm _ _ _ _ _ _ _ _ _ _.
have C3E i' j' : C3 i' j' = G i' j'.
  rewrite /C3 fgemmE /G /fsyr2k_gemm; case: ifP => ij.
    rewrite /cross; congr (_ * _ + _ * _).
      rewrite -(rsumE K (fun l => optr t A i' l * optr t B j' l)).
      by apply: eq_rsum => l _; rewrite optr_flip.
    rewrite /C2 memoE /fill ij; case: ifP => // _; rewrite /C1; case: eqP => _ //=.
    by rewrite memoE (diag_loop N (fun _ x => (1 + 1)^-1 * x)).
  rewrite /C2 memoE /fill ij /C1; case: eqP => _ //=.
  rewrite memoE (diag_loop N (fun _ x => (1 + 1)^-1 * x)).
  by case: (altP (i' =P j')) => //= ij'; move: ij; rewrite -ij'; case: ltnP => //=; rewrite andbb => ->.
pose Q (ch : bool) r c := in_tri u r c && (ch ==> (r != c)).
pose C4 := fun ch : bool => (match u, ch with
    | Upper, false => iteri N (fun i => add_row_col i 0 i.+1) C3
    | Lower, false => iteri N (fun i => add_row_col i i (N - i)) C3
    | Upper, true => iteri N (fun i => add_row_col i 0 i) C3
    | Lower, true => iteri N (fun i => add_row_col i i.+1 (N - i - 1)) C3 end).
have C4E ch r c : C4 ch r c = if [&& (c < N)%N, (r < N)%N & Q ch r c] then G r c + G c r else G r c.
  have anti : forall i j, (i < N)%N -> (j < N)%N -> Q ch i j -> Q ch j i -> i = j.
    by move=> i' j' _ _ /andP[h1 _] /andP[h2 _]; apply: in_tri_anti h1 h2.
  rewrite /C4 -!C3E; move: anti; rewrite /Q; case: (u); case: ch => /= anti;
    rewrite (add_loop C3 r c anti _ (leqnn N)) // => i' C' r' c' i'N; rewrite add_row_colE; congr (if _ then _ else _); lia.
rewrite (_ : (match u with Upper => _ | Lower => _ end) = C4 (1 + 1 == 0 :> F)) //.
case: eqP => ch /=.
  rewrite memoE (diag_loop N (fun i _ => be * C i i)) memoE C4E /Q /= andbT.
  by case: (altP (i =P j)) => [<-|ne] /=; case: (i < N)%N; case: (j < N)%N; rewrite /= ?andbF ?andbT //; case: (u); rewrite /= ?leqnn.
by rewrite memoE C4E /Q andbF andbT andbCA.
Qed.

Lemma in_tri_diag u i : in_tri u i i.
Proof. by case: u; rewrite /= leqnn. Qed.

Lemma fsyr2k_ok u t N K al A B be C : (0 < K)%N ->
  let X := fsyr2k u t N K al A B be C in
  tri_update u N al (fun i j => cross t K A B i j + cross t K B A i j) be C X /\ frame N N X C.
Proof.
move=> K0; have crossC i j : cross t K B A i j = cross t K A B j i.
  by apply: eq_bigr => l _; rewrite mulrC.
split=> [i j iN jN ij|i j ne]; rewrite fsyr2kE //; last first.
  by rewrite /fsyr2k_gemm (negbTE ne) andbA (negbTE ne).
rewrite iN jN ij /= /fsyr2k_gemm iN jN ij crossC /=.
case: (altP (i =P j)) => [<-|ne] /=.
  rewrite in_tri_diag; case: eqP => ch.
    have -> : cross t K A B i i + cross t K A B i i = (1 + 1) * cross t K A B i i by ring.
    by rewrite ch mul0r mulr0 add0r.
  rewrite eqxx iN /=.
  have -> : be * C i i = be * ((1 + 1) * ((1 + 1)^-1 * C i i)) by rewrite mulVKf //; apply/eqP.
  ring.
have -> : in_tri u j i = false.
  by apply/negbTE/negP => ji; move: ne; rewrite (in_tri_anti ij ji) eqxx.
by case: eqP => _ /=; rewrite ?(negbTE ne) /=; ring.
Qed.

(** The other strict triangle receives the plain product. *)
Lemma fsyr2k_other u t N K al A B be C i j : (0 < K)%N -> (i < N)%N -> (j < N)%N -> ~~ in_tri u i j ->
  fsyr2k u t N K al A B be C i j = al * cross t K A B i j.
Proof.
by move=> K0 iN jN ij; rewrite fsyr2kE // (negbTE ij) !andbF /fsyr2k_gemm iN jN (negbTE ij) mulr0 addr0.
Qed.
End Sym.
