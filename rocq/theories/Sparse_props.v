(** * Properties C33-C37: sparse products *)
From Coq Require Import ZArith List Permutation.
From Verif Require Import Delayed_model Delayed_spec Delayed_proofs Sparse_model Sparse2_model Sparse_spec
  Sparse3_proofs Sparse4_proofs Sparse5_proofs.
Import ListNotations.
Open Scope Z_scope.

(** ** C33: CSR *)
Theorem C33_csr g half F prec fma m n ts x beta y : setting half F prec m n ts x beta y ->
  exists r, fspmv fCSR g half F prec fma m ts x beta y = Some r /\ spmv_ok F m ts 1 x beta y r.
Proof. exact (csr_ok g half F prec fma m n ts x beta y). Qed.
Print Assumptions C33_csr.

(** three entries in row 0, none in row 1, one in row 2; kmax = 1 *)
Example C33_example :
  let ts := [T3 0 0 10; T3 0 1 9; T3 0 3 8; T3 2 2 7] in
  let F := modular 11 in
  let x i := Z.of_nat i + 1 in
  option_map (fun r => map r (seq 0 4)) (fspmv fCSR Modular_ false F 7 false 3 ts x 5 (fun i => Z.of_nat i))
    = Some (map (canon F) [10 * 1 + 9 * 2 + 8 * 4; 5 * 1; 7 * 3 + 5 * 2] ++ [3])
  /\ dotbound false F 7 = 1%nat.
Proof. vm_compute. split; reflexivity. Qed.

(** No row: the maximum of an empty range is dereferenced. *)
Theorem C33_no_row_refuted : exists g half F prec fma x beta y,
  fits half F prec /\ fspmv fCSR g half F prec fma 0 [] x beta y = None.
Proof. exact (ex_intro _ Generic (ex_intro _ false (ex_intro _ p2039 (ex_intro _ 24 (ex_intro _ false
  (ex_intro _ (fun _ => 0) (ex_intro _ 0 (ex_intro _ (fun _ => 0) (conj fits2039 eq_refl))))))))). Qed.
Print Assumptions C33_no_row_refuted.

(** ** C34: the formats *)
Theorem C34_generic f half F prec fma m n ts x beta y : setting half F prec m n ts x beta y ->
  (f = fELL -> ts <> []) ->
  exists r, fspmv f Generic half F prec fma m ts x beta y = Some r /\ spmv_ok F m ts 1 x beta y r.
Proof. exact (generic_ok f half F prec fma m n ts x beta y). Qed.
Print Assumptions C34_generic.

Theorem C34_formats_agree f f' half F prec fma m n ts x beta y : setting half F prec m n ts x beta y -> ts <> [] ->
  exists r r', fspmv f Generic half F prec fma m ts x beta y = Some r /\
    fspmv f' Generic half F prec fma m ts x beta y = Some r' /\ forall i, r i = r' i.
Proof. exact (agree f f' half F prec fma m n ts x beta y). Qed.
Print Assumptions C34_formats_agree.

(** The delayed products: missing are COO with a row of at least kmax entries
    and HYB_ZO with a row that overflows, both refuted below. *)
Theorem C34_modular_partial f half F prec fma m n ts x beta y : setting half F prec m n ts x beta y ->
  (f = fELL -> ts <> []) ->
  (f = fCOO -> forall i, (i < m)%nat -> (rowlen ts i < dotbound half F prec)%nat) ->
  (f = fHYB -> forall i, (i < m)%nat ->
     Z.of_nat (rowlen ts i) * (factor half F * factor half F) + factor half F <= 2 ^ prec) ->
  exists r, fspmv f Modular_ half F prec fma m ts x beta y = Some r /\ spmv_ok F m ts 1 x beta y r.
Proof. exact (modular_ok f half F prec fma m n ts x beta y). Qed.
Print Assumptions C34_modular_partial.

Example C34_example :
  let ts := [T3 0 0 10; T3 0 1 1; T3 0 3 8; T3 2 2 10] in
  let F := modular 11 in
  let x i := Z.of_nat i + 1 in
  map (fun f => option_map (fun r => map r (seq 0 4))
         (fspmv f Modular_ false F 24 false 3 ts x 5 (fun i => Z.of_nat i))) [fCSR; fCOO; fELL; fHYB]
  = repeat (Some (map (canon F) [10 * 1 + 1 * 2 + 8 * 4; 5 * 1; 10 * 3 + 5 * 2] ++ [3])) 4.
Proof. vm_compute. reflexivity. Qed.

Theorem C34_coo_unreduced_refuted : exists half F prec fma m n ts x beta y r, setting half F prec m n ts x beta y /\
  fspmv fCOO Modular_ half F prec fma m ts x beta y = Some r /\ ~ flo F <= r 0%nat <= fhi F.
Proof. exact coo_unreduced. Qed.
Print Assumptions C34_coo_unreduced_refuted.

Theorem C34_coo_refuted : exists half F prec fma m n ts x beta y r, setting half F prec m n ts x beta y /\
  fspmv fCOO Modular_ half F prec fma m ts x beta y = Some r /\
  ~ congr (fp F) (r 0%nat) (dotrow ts 0 x + beta * y 0%nat).
Proof. exact coo_wrong. Qed.
Print Assumptions C34_coo_refuted.

Theorem C34_hyb_refuted : exists half F prec fma m n ts x beta y r, setting half F prec m n ts x beta y /\
  fspmv fHYB Modular_ half F prec fma m ts x beta y = Some r /\
  ~ congr (fp F) (r 0%nat) (dotrow ts 0 x + beta * y 0%nat).
Proof. exact hyb_wrong. Qed.
Print Assumptions C34_hyb_refuted.

(** An ELL matrix without entries: row[0] is read. *)
Theorem C34_ell_empty_refuted : exists half F prec fma m n ts x beta y, setting half F prec m n ts x beta y /\
  fspmv fELL Generic half F prec fma m ts x beta y = None.
Proof. exact ell_empty. Qed.
Print Assumptions C34_ell_empty_refuted.

(** ** C35: zero-one matrices *)
Theorem C35_generic half F prec k m n ts x beta y : setting half F prec m n ts x beta y -> k = 1 \/ k = -1 ->
  exists r, fspmv_zo Generic F prec k m ts x beta y = Some r /\ spmv_ok F m (pattern ts) k x beta y r.
Proof. exact (fun S K => zo_ok Generic half F prec k m n ts x beta y S K (fun E => match E with end)). Qed.
Print Assumptions C35_generic.

(** Missing: constants other than 1 and -1 and rows longer than the bound, both
    refuted below. *)
Theorem C35_modular_partial half F prec k m n ts x beta y : setting half F prec m n ts x beta y -> k = 1 \/ k = -1 ->
  (forall i, (i < m)%nat -> Z.of_nat (rowlen ts i) * factor half F + factor half F <= 2 ^ prec) ->
  exists r, fspmv_zo Modular_ F prec k m ts x beta y = Some r /\ spmv_ok F m (pattern ts) k x beta y r.
Proof. exact (fun S K B => zo_ok Modular_ half F prec k m n ts x beta y S K (fun _ => B)). Qed.
Print Assumptions C35_modular_partial.

Theorem C35_block_generic half F prec k m n ts b x ldx beta y ldy :
  setting2 half F prec m n ts b x ldx beta y ldy -> good_beta F m beta ldy -> k = 1 \/ k = -1 ->
  exists r, fspmm_zo Generic F prec k m ts b x ldx beta y ldy = Some r /\
    spmm_ok F m (pattern ts) k b x ldx beta y ldy r.
Proof. exact (spmm_zo_ok half F prec k m n ts b x ldx beta y ldy). Qed.
Print Assumptions C35_block_generic.

Example C35_example :
  let ts := [T3 0 0 10; T3 0 1 9; T3 0 3 8; T3 2 2 7] in
  let F := modular 11 in
  let x i := Z.of_nat i + 7 in
  option_map (fun r => map r (seq 0 4)) (fspmv_zo Modular_ F 24 (-1) 3 ts x 5 (fun i => Z.of_nat i))
    = Some (map (canon F) [- (7 + 8 + 10); 5 * 1; - 9 + 5 * 2] ++ [3]).
Proof. vm_compute. reflexivity. Qed.

Theorem C35_constant_refuted : exists half F prec m n ts x beta y k r, setting half F prec m n ts x beta y /\
  flo F <= k <= fhi F /\
  fspmv_zo Generic F prec k m ts x beta y = Some r /\ ~ spmv_ok F m (pattern ts) k x beta y r.
Proof. exact zo_cst. Qed.
Print Assumptions C35_constant_refuted.

Theorem C35_long_row_refuted : exists half F prec m n ts x beta y r, setting half F prec m n ts x beta y /\
  fspmv_zo Modular_ F prec 1 m ts x beta y = Some r /\
  ~ congr (fp F) (r 0%nat) (dotrow (pattern ts) 0 x + beta * y 0%nat).
Proof. exact zo_overflow. Qed.
Print Assumptions C35_long_row_refuted.

Theorem C35_ell_padding_refuted : exists half F prec m n ts x beta y r, setting half F prec m n ts x beta y /\
  fspmv_ell_one half F prec m ts x (init_y F m beta y) = Some r /\ ~ spmv_ok F m (pattern ts) 1 x beta y r.
Proof. exact ell_zo_padding. Qed.
Print Assumptions C35_ell_padding_refuted.

Theorem C35_block_window_refuted : exists half F prec m n ts b x ldx beta y ldy r,
  setting2 half F prec m n ts b x ldx beta y ldy /\
  fspmm_zo Modular_ F prec 1 m ts b x ldx beta y ldy = Some r /\
  (exists i k, (i < m)%nat /\ (k < b)%nat /\ ~ flo F <= r (i * ldy + k)%nat <= fhi F) /\
  (exists q, ~ inside m b ldy q /\ r q <> y q).
Proof. exact spmm_zo_window. Qed.
Print Assumptions C35_block_window_refuted.

(** ** C36: a block of vectors *)

(** Missing: beta different from 0 and 1 on at least two rows with ldy > 1,
    refuted below. *)
Theorem C36_partial g half F prec fma m n ts b x ldx beta y ldy :
  setting2 half F prec m n ts b x ldx beta y ldy -> good_beta F m beta ldy ->
  exists r, fspmm g half F prec fma m ts b x ldx beta y ldy = Some r /\ spmm_ok F m ts 1 b x ldx beta y ldy r.
Proof. exact (spmm_csr_ok g half F prec fma m n ts b x ldx beta y ldy). Qed.
Print Assumptions C36_partial.

(** 2 x 2 block of leading dimension 3 in a memory of 7 cells *)
Example C36_example :
  let ts := [T3 0 0 10; T3 0 1 9; T3 1 2 8] in
  let F := modular 11 in
  let x i := nth i [1; 2; 3; 4; 5; 6] 0 in
  option_map (fun r => map r (seq 0 7)) (fspmm Modular_ false F 7 false 2 ts 2 x 2 1 (fun i => Z.of_nat i) 3)
    = Some [canon F (10 * 1 + 9 * 3); canon F (10 * 2 + 9 * 4 + 1); 2; canon F (8 * 5 + 3); canon F (8 * 6 + 4); 5; 6].
Proof. vm_compute. reflexivity. Qed.

Theorem C36_refuted : exists half F prec fma m n ts b x ldx beta y ldy r,
  setting2 half F prec m n ts b x ldx beta y ldy /\
  fspmm Generic half F prec fma m ts b x ldx beta y ldy = Some r /\ ~ spmm_ok F m ts 1 b x ldx beta y ldy r.
Proof. exact spmm_beta. Qed.
Print Assumptions C36_refuted.

(** ** C37: SELL *)

(** maxrow is the length of a shortest row (0 as soon as rows are padded), so
    the product is marked reduction-free if any row is shorter than kmax. *)
Theorem C37_maxrow_is_shortest srt half F prec chunk sigma m n ts A : in_matrix F m n ts -> (0 < chunk)%nat ->
  sell_init srt half F prec chunk sigma m ts = Some A ->
  (forall i, (i < m)%nat -> (smaxrow A <= rowlen ts i)%nat) /\
  sdelayed A = (smaxrow A <? dotbound half F prec)%nat /\
  ((m mod chunk = 0)%nat \/ smaxrow A = 0%nat).
Proof. exact (sell_maxrow_min srt half F prec chunk sigma m n ts A). Qed.
Print Assumptions C37_maxrow_is_shortest.

Theorem C37_delayed_refuted : exists half F prec chunk m n ts x y A, setting half F prec m n ts x 1 y /\
  sell_init isort half F prec chunk 0 m ts = Some A /\ sdelayed A = true /\
  (exists i, (i < m)%nat /\ (dotbound half F prec < rowlen ts i)%nat) /\
  ~ congr (fp F) (sell_delayed F prec true A x true y 0%nat) (dotrow ts 0 x + 1 * y 0%nat).
Proof. exact sell_delayed_wrong. Qed.
Print Assumptions C37_delayed_refuted.

(** The permutation is a bijection with the default sigma, for any sorting
    routine that permutes its input.  Missing: other values of sigma, refuted
    below. *)
Theorem C37_perm_partial srt half F prec chunk m n ts A : in_matrix F m n ts -> (0 < chunk)%nat -> (0 < m)%nat ->
  (forall l, Permutation l (srt l)) ->
  sell_init srt half F prec chunk 0 m ts = Some A ->
  (forall q, (q < m)%nat -> (iperm (nth q (sinfos A) info0) < m)%nat /\ sperm A (iperm (nth q (sinfos A) info0)) = q) /\
  (forall r, (r < m)%nat -> (sperm A r < m)%nat /\ iperm (nth (sperm A r) (sinfos A) info0) = r).
Proof. exact (sell_perm srt half F prec chunk m n ts A). Qed.
Print Assumptions C37_perm_partial.

Theorem C37_sort_permutes l : Permutation l (isort l).
Proof. exact (isort_perm l). Qed.
Print Assumptions C37_sort_permutes.

Theorem C37_sigma_refuted : exists half F prec chunk sigma m n ts A, in_matrix F m n ts /\
  sell_init isort half F prec chunk sigma m ts = Some A /\
  ~ (forall q, (q < m)%nat -> sperm A (iperm (nth q (sinfos A) info0)) = q).
Proof. exact sell_sigma. Qed.
Print Assumptions C37_sigma_refuted.

(** The product comes out in the permuted order. *)
Theorem C37_row_order_refuted : exists half F prec chunk m n ts x y A, setting half F prec m n ts x 1 y /\
  sell_init isort half F prec chunk 0 m ts = Some A /\
  ~ spmv_ok F m ts 1 x 1 y (sell_generic F A x y).
Proof. exact sell_order. Qed.
Print Assumptions C37_row_order_refuted.

(** The loop of the kernel without SIMD runs past the chunk. *)
Theorem C37_chunk_refuted : exists half F prec chunk m n ts x y A, in_matrix F m n ts /\
  sell_init isort half F prec chunk 0 m ts = Some A /\ sdelayed A = true /\
  (forall i, (i < m)%nat -> dotrow ts i x = 9 /\ y i = 0) /\ sell_delayed F prec true A x false y 8%nat <> 9.
Proof. exact sell_nosimd. Qed.
Print Assumptions C37_chunk_refuted.

(** rows of lengths 1, 3, 0: sorted as 1, 0, 2 *)
Example C37_example :
  let ts := [T3 0 0 5; T3 1 0 1; T3 1 1 2; T3 1 2 3] in
  option_map (fun A => (map (sperm A) (seq 0 3), map (scsize A) (seq 0 2), map (sst A) (seq 0 2),
                        map (sdat A) (seq 0 6), smaxrow A))
    (sell_init isort false (modular 11) 24 2 0 3 ts)
  = Some ([1; 0; 2]%nat, [3; 0]%nat, [0; 6]%nat, [1; 5; 2; 0; 3; 0], 0%nat).
Proof. vm_compute. reflexivity. Qed.
