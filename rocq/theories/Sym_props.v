(** * Properties C46, C55, C56, C57: symmetric updates, triangular systems with
    symmetric structure, LDL^T factorisation *)
From mathcomp Require Import all_ssreflect all_algebra.
From Verif Require Import Grid Lit Perm_model Perm_spec Tri_model Tri_spec Sym_model Sym_spec Sym_proofs
  Sym2_proofs Sym3_proofs Sym4_proofs Sym5_proofs Sym6_proofs Sym7_proofs.
Set Implicit Arguments.
Unset Strict Implicit.
Unset Printing Implicit Defensive.
Import GRing.Theory.
Local Open Scope ring_scope.

(** ** C46: fsyrk *)
Theorem C46_default (F : fieldType) u t N K (al : F) A be C :
  let X := fsyrk_default u t N K al A be C in
  tri_update u N al (gram t K A) be C X /\ tri_only u N C X.
Proof. exact: fsyrk_default_ok. Qed.
Print Assumptions C46_default.

Theorem C46_divide (F : fieldType) r u t N K (al : F) A be C :
  let X := fsyrk_dc r u t N K al A be C in
  tri_update u N al (gram t K A) be C X /\ tri_only u N C X.
Proof. exact: fsyrk_dc_ok. Qed.
Print Assumptions C46_divide.

(** Missing in the next three: the opposite triangle without the conditions,
    refuted below. *)
Theorem C46_fsyrk_partial (F : fieldType) u t N K (al : F) A be C :
  let X := fsyrk u t N K al A be C in
  tri_update u N al (gram t K A) be C X /\ ((0 < K)%N -> al != 0 -> tri_only u N C X).
Proof. exact (conj (@fsyrk_ok F u t N K al A be C) (@fsyrk_only F u t N K al A be C)). Qed.
Print Assumptions C46_fsyrk_partial.

Theorem C46_delayed_partial (F : fieldType) u t N K (al : F) A be C :
  let X := fsyrk_delayed u t N K al A be C in
  tri_update u N al (gram t K A) be C X /\ ((0 < K)%N -> al = 1 \/ al = -1 -> tri_only u N C X).
Proof. exact (conj (@fsyrk_delayed_ok F u t N K al A be C) (@fsyrk_delayed_only F u t N K al A be C)). Qed.
Print Assumptions C46_delayed_partial.

Theorem C46_convert_partial (F : fieldType) u t N K (al : F) A be junk C :
  let X := fsyrk_convert u t N K al A be junk C in
  tri_update u N al (gram t K A) be C X /\ frame N N X C.
Proof. exact (conj (@fsyrk_convert_ok F u t N K al A be junk C) (@fsyrk_convert_frame F u t N K al A be junk C)). Qed.
Print Assumptions C46_convert_partial.

Definition Sa : grid 'F_7 := gl 7 [:: [:: 1; 2]; [:: 3; 4]; [:: 5; 6]]%N.
Definition Sc : grid 'F_7 := gl 7 [:: [:: 1; 2; 3; 1]; [:: 4; 5; 6; 1]; [:: 3; 2; 1; 1]]%N.
Definition S0 : grid 'F_7 := fun _ _ => 5%:R.

Example C46_example :
  out 3 4 (fsyrk Upper NoTrans 3 2 2%:R Sa 3%:R Sc) = [:: [:: 6; 0; 1; 1]; [:: 4; 2; 5; 1]; [:: 3; 2; 6; 1]]%N /\
  out 3 4 (fsyrk_dc 2 Upper NoTrans 3 2 2%:R Sa 3%:R Sc) = [:: [:: 6; 0; 1; 1]; [:: 4; 2; 5; 1]; [:: 3; 2; 6; 1]]%N /\
  out 3 4 (fsyrk Lower NoTrans 3 2 2%:R Sa 3%:R Sc) = [:: [:: 6; 2; 3; 1]; [:: 6; 2; 6; 1]; [:: 1; 0; 6; 1]]%N.
Proof. by vm_compute. Qed.

(** K = 0: the other triangle is scaled too; the delayed mode does so for every
    alpha other than 1 and -1. *)
Theorem C46_empty_refuted : exists u t N (al : 'F_7) A be C,
  al != 0 /\ ~ tri_only u N C (fsyrk u t N 0 al A be C).
Proof. by exists Upper, NoTrans, 2%N, 1, Sa, 2%:R, Sc; split => // /(_ 1%N 0%N isT)/eqP; vm_compute. Qed.
Print Assumptions C46_empty_refuted.

Theorem C46_delayed_refuted : exists u t N K (al : 'F_7) A be C,
  al != 0 /\ (0 < K)%N /\ ~ tri_only u N C (fsyrk_delayed u t N K al A be C).
Proof. by exists Upper, NoTrans, 3%N, 2%N, 2%:R, Sa, 1, Sc; do 2 split => //; move=> /(_ 1%N 0%N isT)/eqP; vm_compute. Qed.
Print Assumptions C46_delayed_refuted.

(** fsyrk_convert: with beta = 0 the other triangle of C receives what the
    allocator returned. *)
Theorem C46_convert_refuted : exists u t N K (A C junk : grid 'F_7),
  (0 < K)%N /\ ~ tri_only u N C (fsyrk_convert u t N K 1 A 0 junk C) /\
  fsyrk_convert u t N K 1 A 0 junk C 1%N 0%N = junk 1%N 0%N.
Proof. by exists Upper, NoTrans, 3%N, 2%N, Sa, Sc, S0; do 2 split => //; move=> /(_ 1%N 0%N isT)/eqP; vm_compute. Qed.
Print Assumptions C46_convert_refuted.

(** ** C55: fsyrk with a diagonal, or with 1x1 and antidiagonal 2x2 blocks *)
Theorem C55_diagonal (F : fieldType) n u t N K (al : F) A (D : nat -> F) be junk C th : (N < n)%N -> (0 < th)%N ->
  exists A' C', fsyrk_d n u t N K al A D be junk C th = Some (A', C') /\
    [/\ tri_update u N al (gramE t K A (dmx D)) be C C', frame N N C' C & scaled_by t N K (dmx D) A A'].
Proof. exact: fsyrk_d_ok. Qed.
Print Assumptions C55_diagonal.

(** Missing: thresholds 0 and 1, and fewer columns than half the rows, refuted
    below. *)
Theorem C55_blocks_partial (F : fieldType) n u t N K (al : F) A (D : nat -> F) tb be junk C th : blocks_ok K tb ->
  (N < n)%N -> (1 < th)%N -> (N <= th)%N || (N./2 <= K)%N ->
  exists A' C', fsyrk_2 n u t N K al A D tb be junk C th = Some (A', C') /\
    [/\ tri_update u N al (gramE t K A (bmx tb D)) be C C', frame N N C' C & scaled_by t N K (bmx tb D) A A'].
Proof. exact: fsyrk_2_ok. Qed.
Print Assumptions C55_blocks_partial.

Definition Sd (i : nat) : 'F_7 := i.+2%:R.
Example C55_example :
  (if fsyrk_d 4 Lower NoTrans 3 2 2%:R Sa Sd 3%:R S0 Sc 1 is Some (A', C')
   then (out 3 2 A', out 3 4 C') else ([::], [::])) =
  ([:: [:: 2; 6]; [:: 6; 5]; [:: 3; 4]], [:: [:: 3; 2; 3; 1]; [:: 2; 0; 6; 1]; [:: 3; 0; 4; 1]])%N /\
  (if fsyrk_2 4 Lower NoTrans 3 2 2%:R Sa Sd [:: true; false] 3%:R S0 Sc 2 is Some (A', C')
   then (out 3 2 A', out 3 4 C') else ([::], [::])) =
  ([:: [:: 4; 2]; [:: 1; 6]; [:: 5; 3]], [:: [:: 5; 4; 3; 1]; [:: 3; 6; 6; 1]; [:: 3; 4; 5; 1]])%N.
Proof. by vm_compute. Qed.

(** The blocks describe the K columns of op(A) but are read at N/2 - 1, beyond
    their end when K < N/2; a split moved by one in a matrix of two rows calls
    itself on the same matrix for ever. *)
Theorem C55_few_columns_refuted : exists u t N K (A C junk : grid 'F_7) D tb th, blocks_ok K tb /\ (1 < th)%N /\
  forall n, fsyrk_2 n u t N K 1 A D tb 1 junk C th = None.
Proof.
exists Lower, NoTrans, 6%N, 2%N, Sa, Sc, S0, Sd, [:: false; false], 2%N.
split; first by split => // -[|[|[|]]].
split => // n; exact: fsyrk_2_oob.
Qed.
Print Assumptions C55_few_columns_refuted.

Theorem C55_threshold1_refuted : exists u t N K (A C junk : grid 'F_7) D tb, blocks_ok K tb /\
  forall n, fsyrk_2 n u t N K 1 A D tb 1 junk C 1 = None.
Proof.
exists Lower, NoTrans, 2%N, 2%N, Sa, Sc, S0, Sd, [:: true; false].
split; first by split => // -[|[|[|]]].
move=> n; move: Sc; elim: n => // n IH C /=.
by rewrite IH.
Qed.
Print Assumptions C55_threshold1_refuted.

(** The other triangle is overwritten. *)
Theorem C55_other_triangle_refuted : exists u t N K (A C junk : grid 'F_7) D th, (0 < th)%N /\
  if fsyrk_d N.+1 u t N K 1 A D 1 junk C th is Some (A', C') then ~ tri_only u N C C' else False.
Proof.
exists Upper, NoTrans, 3%N, 2%N, Sa, Sc, S0, Sd, 3%N; split; first by [].
refine (@other_some [fieldType of 'F_7] Upper 3 Sc (fsyrk_d 4 Upper NoTrans 3 2 1 Sa Sd 1 S0 Sc 3) 1 0 isT _); vm_compute; exact isT.
Qed.
Print Assumptions C55_other_triangle_refuted.

(** ** C56: fsyr2k, ftrstr, ftrssyr2k *)
(** Missing: K = 0 and the other triangle, see below. *)
Theorem C56_fsyr2k_partial (F : fieldType) u t N K (al : F) A B be C : (0 < K)%N ->
  let X := fsyr2k u t N K al A B be C in
  tri_update u N al (fun i j => cross t K A B i j + cross t K B A i j) be C X /\ frame N N X C.
Proof. exact: fsyr2k_ok. Qed.
Print Assumptions C56_fsyr2k_partial.

Theorem C56_ftrstr (F : fieldType) s u dA dB N (A B : grid F) : inv_diag dA N A ->
  let X := ftrstr N s u dA dB N A B in
  tri_frame u (diagX dA dB) N X B /\
  match s with
  | SLeft => trimx u dA N A *m trimx u (diagX dA dB) N X = trimx u dB N B
  | SRight => trimx u (diagX dA dB) N X *m trimx u dA N A = trimx u dB N B
  end.
Proof. exact: ftrstr_ok. Qed.
Print Assumptions C56_ftrstr.

(** Missing: characteristic 2, where no solution need exist. *)
Theorem C56_ftrssyr2k_partial (F : fieldType) u dA N (A B : grid F) : 1 + 1 != 0 :> F -> inv_diag dA N A ->
  let X := ftrssyr2k N u dA N A B in frame N N X B /\ ssyr2k u dA N A X = lead u N B.
Proof. move=> H; exact: ftrssyr2k_ok. Qed.
Print Assumptions C56_ftrssyr2k_partial.

Definition Sb : grid 'F_7 := gl 7 [:: [:: 2; 0]; [:: 1; 1]; [:: 6; 3]]%N.
Definition St : grid 'F_7 := gl 7 [:: [:: 2; 6; 6]; [:: 3; 5; 6]; [:: 1; 4; 3]]%N.
Example C56_example :
  out 3 4 (fsyr2k Upper NoTrans 3 2 2%:R Sa Sb 3%:R Sc) = [:: [:: 4; 3; 4; 1]; [:: 5; 1; 2; 1]; [:: 6; 1; 6; 1]]%N /\
  out 3 3 (ftrstr 3 SLeft Upper NonUnit Unit 3 St Sc) = [:: [:: 4; 6; 3]; [:: 4; 3; 5]; [:: 3; 2; 5]]%N /\
  out 3 3 (ftrssyr2k 3 Lower NonUnit 3 St Sc) = [:: [:: 2; 2; 3]; [:: 6; 6; 2]; [:: 4; 6; 6]]%N.
Proof. by vm_compute. Qed.

Theorem C56_fsyr2k_empty_refuted : exists u t N (al : 'F_7) A B be C,
  ~ tri_update u N al (fun i j => 0) be C (fsyr2k u t N 0 al A B be C).
Proof. by exists Upper, NoTrans, 1%N, 1, Sa, Sa, 2%:R, Sc; move=> /(_ 0%N 0%N isT isT isT)/eqP; vm_compute. Qed.
Print Assumptions C56_fsyr2k_empty_refuted.

Theorem C56_fsyr2k_other_overwritten (F : fieldType) u t N K (al : F) A B be C i j : (0 < K)%N -> (i < N)%N -> (j < N)%N ->
  ~~ in_tri u i j -> fsyr2k u t N K al A B be C i j = al * cross t K A B i j.
Proof. exact: fsyr2k_other. Qed.
Print Assumptions C56_fsyr2k_other_overwritten.

(** The documented equation for Lower, A^T X + X^T A = B, is not the one solved. *)
Theorem C56_ftrssyr2k_lower_refuted : exists N (A B : grid 'F_7), inv_diag NonUnit N A /\
  let X := ftrssyr2k N Lower NonUnit N A B in
  (trimx Lower NonUnit N A)^T *m trimx Lower NonUnit N X + (trimx Lower NonUnit N X)^T *m trimx Lower NonUnit N A
  <> lead Lower N B.
Proof.
exists 2%N, St, Sc; split; first by move=> _ [|[|]].
move=> X; have x0 : X 0%N 0%N = 2%:R by apply/eqP; vm_compute.
have x1 : X 1%N 0%N = 6%:R by apply/eqP; vm_compute.
move: X x0 x1 => X x0 x1 /matrixP/(_ ord0 ord0).
rewrite !mxE !big_ord_recl !big_ord0 !mxE /tri /symm /in_tri x0 x1 => /eqP; by vm_compute.
Qed.
Print Assumptions C56_ftrssyr2k_lower_refuted.

(** ** C57: LDL^T *)
Theorem C57_fsytrf (F : fieldType) crout u N (A junk : grid F) th : (0 < th)%N ->
  match fsytrf crout u N A junk th with
  | Done A' => [/\ frame N N A' A, forall i, (i < N)%N -> A' i i != 0, lead u N A = unitLDL u N A' &
                 forall k, (k <= N)%N -> \det (lead u k A) != 0]
  | Not_generic => exists2 k, (k < N)%N & \det (lead u k.+1 A) = 0
  | No_result => False
  end.
Proof. exact: fsytrf_ok. Qed.
Print Assumptions C57_fsytrf.

Definition outs (p N : nat) (r : outcome (grid 'F_p)) := if r is Done X then Some (out N N X) else None.
Example C57_example :
  let M := gl 7 [:: [:: 2; 6; 1; 3]; [:: 6; 5; 6; 1]; [:: 1; 6; 3; 2]; [:: 3; 1; 2; 6]]%N in
  outs 4 (fsytrf true Upper 4 M S0 9) = outs 4 (fsytrf false Upper 4 M S0 9) /\
  outs 4 (fsytrf false Upper 4 M S0 9) = Some [:: [:: 2; 3; 4; 5]; [:: 6; 1; 3; 6]; [:: 1; 6; 4; 0]; [:: 3; 1; 2; 4]]%N /\
  outs 4 (fsytrf true Lower 4 M S0 1) = Some [:: [:: 2; 6; 1; 3]; [:: 3; 1; 6; 1]; [:: 4; 3; 4; 0]; [:: 5; 6; 0; 4]]%N /\
  fsytrf false Upper 4 (upd M 2 2 (-1)) S0 1 = Not_generic.
Proof. by vm_compute. Qed.

(** Above the threshold the other triangle is overwritten; the second half gets
    the inverses at Dinv + N1 whatever their stride; a zero threshold never
    ends. *)
Theorem C57_other_triangle_refuted : exists u N (A junk : grid 'F_7) th, (0 < th)%N /\
  if fsytrf false u N A junk th is Done A' then ~ tri_only u N A A' else False.
Proof.
exists Upper, 3%N, St, S0, 1%N; split; first by [].
refine (@other_done [fieldType of 'F_7] Upper 3 St (fsytrf false Upper 3 St S0 1) 2 1 isT _); vm_compute; exact isT.
Qed.
Print Assumptions C57_other_triangle_refuted.

Theorem C57_stride_refuted : exists u N (A junk : grid 'F_7) D inc th, (0 < th)%N /\ (0 < inc)%N /\
  if fsytrf_nonunit N.+1 false u N A D inc junk th is Done (A', D')
  then exists2 i, (i < N)%N & D' (i * inc)%N * A' i i != 1 else False.
Proof.
exists Upper, 2%N, St, S0, (fun _ => 0), 2%N, 1%N; do 2 (split; first by []).
refine (@stride_done [fieldType of 'F_7] 2 2 (fsytrf_nonunit 3 false Upper 2 St (fun _ => 0) 2 S0 1) 1 isT _); vm_compute; exact isT.
Qed.
Print Assumptions C57_stride_refuted.

Theorem C57_threshold0_refuted : exists u N (A junk : grid 'F_7), forall n,
  fsytrf_nonunit n false u N A (fun _ => 0) 1 junk 0 = No_result.
Proof.
exists Upper, 1%N, St, S0 => n; exact: sytrf_threshold0.
Qed.
Print Assumptions C57_threshold0_refuted.
