(** * Strassen-Winograd products: fflas/fflas_fgemm/schedule_winograd*.inl and
    fflas/fflas_fgemm/fgemm_winograd.inl

    A schedule is a straight-line sequence of block additions and block
    products over the quadrants of A, B and C and a few temporaries.  It is
    represented by the list of its calls ([instr]), run by [exec] on a memory
    made of the three matrices and the temporaries.

    Simplifications.  The level is that of the mathematical field: the
    interval bookkeeping (Amin, Amax, ...) only decides where [freduce] is
    called, and [freduce] does not change the element represented; overflow is
    the subject of Delayed_model.  A, B and C are three distinct matrices
    (Grid.v's leading dimension convention).  The temporaries are one
    dimensional allocations, because the schedules reuse them with different
    leading dimensions: [sz id] elements are allocated for temporary [id]; a
    write beyond them is dropped, so what is read there is whatever the
    initial memory held, which the theorems leave arbitrary. *)
From mathcomp Require Import all_ssreflect all_algebra.
From Verif Require Import Grid Perm_model Tri_model.
Set Implicit Arguments.
Unset Strict Implicit.
Unset Printing Implicit Defensive.
Import GRing.Theory.
Local Open Scope ring_scope.

(** A block: quadrant (i,j) of A, B or C ([true] = second half), or a
    temporary used with a leading dimension. *)
Inductive key := KA of bool & bool | KB of bool & bool | KC of bool & bool | KX of nat.

Definition key_eq (k l : key) : bool :=
  match k, l with
  | KA i j, KA i' j' | KB i j, KB i' j' | KC i j, KC i' j' => if eqb i i' then eqb j j' else false
  | KX a, KX b => eqn a b
  | _, _ => false
  end.

Record operand := Op { okey : key; old_ : nat }.

Definition A11 := Op (KA false false) 0.
Definition A12 := Op (KA false true) 0.
Definition A21 := Op (KA true false) 0.
Definition A22 := Op (KA true true) 0.
Definition B11 := Op (KB false false) 0.
Definition B12 := Op (KB false true) 0.
Definition B21 := Op (KB true false) 0.
Definition B22 := Op (KB true true) 0.
Definition C11 := Op (KC false false) 0.
Definition C12 := Op (KC false true) 0.
Definition C21 := Op (KC true false) 0.
Definition C22 := Op (KC true true) 0.

(** The classical product and scaling, by their entries, over any commutative
    ring (the unreduced integers ZRing included); the same formulas as
    Tri_model.fgemm and Tri_model.fscalin.  (memo is the identity.) *)
Section Classical.
Variable F : comRingType.
Fixpoint wsum (k : nat) (f : nat -> F) : F := if k is k'.+1 then wsum k' f + f k' else 0.
Definition wgemm (ta tb : transp) (m n k : nat) (alpha : F) (A B : grid F) (beta : F) (C : grid F) : grid F :=
  memo m n (fill m n (fun i j =>
    alpha * wsum k (fun t => optr ta A i t * optr tb B t j) + beta * C i j) C).
Definition wscal (m n : nat) (a : F) (A : grid F) : grid F :=
  memo m n (fill m n (fun i j => a * A i j) A).
End Classical.

Section Wino.
Variable F : comRingType.

Record mem := Mem { mA : grid F; mB : grid F; mC : grid F; mX : nat -> nat -> F }.

(** The calls used by the schedules.  [Isub m n a b d]: fsub(F,m,n,a,b,d), and
    fsubin(F,m,n,b,d) is [Isub m n d b d]; [Iadd] likewise for fadd, faddin;
    [Iaxpy m n a x b d]: fadd(F,m,n,a,x,b,d), d = a + x*b (fflas_fadd.h);
    [Imul al a b d]: fgemm(F,ta,tb,mr,nr,kr,al,a,b,F.zero,d);
    [Igemm al a b be d]: the same with beta = be. *)
Inductive instr :=
| Iadd of nat & nat & operand & operand & operand
| Isub of nat & nat & operand & operand & operand
| Iaxpy of nat & nat & operand & F & operand & operand
| Imul of F & operand & operand & operand
| Igemm of F & operand & operand & F & operand.

(** ** Running a schedule *)
Section Exec.
Variables (ta tb : transp) (mr nr kr : nat) (sz : nat -> nat).

(** Offsets of the quadrants: schedule_winograd.inl:368-393. *)
Definition rd (o : operand) (M : mem) : grid F :=
  match okey o with
  | KA i j => subop ta (if i then mr else 0%N) (if j then kr else 0%N) (mA M)
  | KB i j => subop tb (if i then kr else 0%N) (if j then nr else 0%N) (mB M)
  | KC i j => sub (if i then mr else 0%N) (if j then nr else 0%N) (mC M)
  | KX id => fun p q => mX M id (p * old_ o + q)%N
  end.

Definition atop (t : transp) (i j : nat) (f : grid F -> grid F) (A : grid F) : grid F :=
  if t is Trans then at_ j i f A else at_ i j f A.

(** Write the m x n matrix G at o. *)
Definition wr (o : operand) (m n : nat) (G : grid F) (M : mem) : mem :=
  match okey o with
  | KA i j => Mem (memo (2 * mr + 2 * kr) (2 * mr + 2 * kr)
       (atop ta (if i then mr else 0%N) (if j then kr else 0%N) (fill m n G) (mA M))) (mB M) (mC M) (mX M)
  | KB i j => Mem (mA M) (memo (2 * nr + 2 * kr) (2 * nr + 2 * kr)
       (atop tb (if i then kr else 0%N) (if j then nr else 0%N) (fill m n G) (mB M))) (mC M) (mX M)
  | KC i j => Mem (mA M) (mB M) (memo (2 * mr) (2 * nr)
       (at_ (if i then mr else 0%N) (if j then nr else 0%N) (fill m n G) (mC M))) (mX M)
  | KX id => Mem (mA M) (mB M) (mC M)
      (let ld := old_ o in
       let X := memo1 (sz id) (fun p => if (p < sz id)%N && (p %/ ld < m)%N && (p %% ld < n)%N
                                        then G (p %/ ld)%N (p %% ld)%N else mX M id p) in
       fun id' => if (id' == id)%N then X else mX M id')
  end.

(** The product used for the blocks. *)
Definition product := transp -> transp -> nat -> nat -> nat -> F -> grid F -> grid F -> F -> grid F -> grid F.
Variable gemm : product.

Definition exec (c : instr) (M : mem) : mem :=
  match c with
  | Iadd m n a b d => wr d m n (fun p q => rd a M p q + rd b M p q) M
  | Isub m n a b d => wr d m n (fun p q => rd a M p q - rd b M p q) M
  | Iaxpy m n a x b d => wr d m n (fun p q => rd a M p q + x * rd b M p q) M
  | Imul al a b d => wr d mr nr (gemm ta tb mr nr kr al (rd a M) (rd b M) 0 (rd d M)) M
  | Igemm al a b be d => wr d mr nr (gemm ta tb mr nr kr al (rd a M) (rd b M) be (rd d M)) M
  end.

Fixpoint run (l : seq instr) (M : mem) : mem :=
  if l is c :: l' then run l' (exec c M) else M.

End Exec.

(** ** The schedules *)
Section Schedules.
Variables (ta tb : transp) (mr nr kr : nat) (alpha beta : F).

(** Rows and columns of the quadrants as stored: la, ca, lb, cb
    (schedule_winograd.inl:368-393). *)
Definition la := if ta is Trans then kr else mr.
Definition ca := if ta is Trans then mr else kr.
Definition lb := if tb is Trans then nr else kr.
Definition cb := if tb is Trans then kr else nr.

(** schedule_winograd.inl:344-536, beta = 0.  Temporary 1 (X1): fflas_new(F,
    mr, x1rd), x1rd = max(nr,kr), leading dimension ldX1 = mr when ta = Trans
    and x1rd otherwise for the S's, then nr for P1; temporary 2 (X2):
    fflas_new(F, kr, nr). *)
Definition winograd_sz (id : nat) : nat :=
  match id with 1 => mr * maxn nr kr | 2 => kr * nr | _ => 0 end.
Definition winograd : seq instr :=
  let X1 := Op (KX 1) (if ta is Trans then mr else maxn nr kr) in
  let X1' := Op (KX 1) nr in
  let X2 := Op (KX 2) cb in
  [:: Isub lb cb B22 B12 X2;          (* T3 *)
      Isub la ca A11 A21 X1;          (* S3 *)
      Imul alpha X1 X2 C21;           (* P7 *)
      Isub lb cb B12 B11 X2;          (* T1 *)
      Iadd la ca A21 A22 X1;          (* S1 *)
      Imul alpha X1 X2 C22;           (* P5 *)
      Isub lb cb B22 X2 X2;           (* T2 *)
      Isub la ca X1 A11 X1;           (* S2 *)
      Imul alpha X1 X2 C12;           (* P6 *)
      Isub la ca A12 X1 X1;           (* S4 *)
      Imul alpha X1 B22 C11;          (* P3 *)
      Imul alpha A11 B11 X1';         (* P1 *)
      Iadd mr nr C12 X1' C12;         (* U2 *)
      Iadd mr nr C21 C12 C21;         (* U3 *)
      Iadd mr nr C12 C22 C12;         (* U4 *)
      Iadd mr nr C22 C21 C22;         (* U7 *)
      Iadd mr nr C12 C11 C12;         (* U5 *)
      Isub lb cb X2 B21 X2;           (* T4 *)
      Imul alpha A22 X2 C11;          (* P4 *)
      Isub mr nr C21 C11 C21;         (* U6 *)
      Imul alpha A12 B21 C11;         (* P2 *)
      Iadd mr nr C11 X1' C11 ].       (* U1 *)

(** schedule_winograd.inl:40-340 (WinoPar), beta = 0: the sequential order of
    its tasks.  Temporaries 11..15 (X11..X15) of size mr*x1rd, 21..24 of size
    kr*nr, 1 (C_11) and 2 (CC_11) of size mr*nr. *)
Definition winopar_sz (id : nat) : nat :=
  match id with
  | 1 | 2 => mr * nr
  | 11 | 12 | 13 | 14 | 15 => mr * maxn nr kr
  | 21 | 22 | 23 | 24 => kr * nr
  | _ => 0
  end.
Definition winopar : seq instr :=
  let ldX1 := if ta is Trans then mr else maxn nr kr in
  let X11 := Op (KX 11) ldX1 in let X12 := Op (KX 12) ldX1 in
  let X13 := Op (KX 13) ldX1 in let X14 := Op (KX 14) ldX1 in
  let X15 := Op (KX 15) (maxn nr kr) in
  let X21 := Op (KX 21) cb in let X22 := Op (KX 22) cb in
  let X23 := Op (KX 23) cb in let X24 := Op (KX 24) cb in
  let D11 := Op (KX 1) nr in let DD11 := Op (KX 2) nr in
  [:: Isub lb cb B22 B12 X21; Isub la ca A11 A21 X11;
      Isub lb cb B12 B11 X22; Iadd la ca A21 A22 X12;
      Isub lb cb B22 X22 X23; Isub la ca X12 A11 X13;
      Isub lb cb X23 B21 X24; Isub la ca A12 X13 X14;
      Imul alpha A11 B11 X15; Imul alpha X11 X21 C21;
      Imul alpha X12 X22 C22; Imul alpha X13 X23 C12;
      Imul alpha X14 B22 DD11; Imul alpha A22 X24 D11;
      Imul alpha A12 B21 C11;
      Iadd mr nr C12 X15 C12; Iadd mr nr C21 C12 C21;
      Iadd mr nr C12 C22 C12; Iadd mr nr C22 C21 C22;
      Iadd mr nr C12 DD11 C12; Isub mr nr C21 D11 C21;
      Iadd mr nr C11 X15 C11 ].

(** schedule_winograd_acc.inl:42-184, beta <> 0.  X1: mr x nr, X2: mr x kr,
    X3: max(mr,kr) x nr, with ldX3 = x3rd when tb = Trans. *)
Definition acc3_sz (id : nat) : nat :=
  match id with 1 => mr * nr | 2 => mr * kr | 3 => maxn mr kr * nr | _ => 0 end.
Definition winograd_acc_3_23 : seq instr :=
  let X1 := Op (KX 1) nr in
  let X2 := Op (KX 2) ca in
  let X3 := Op (KX 3) (if tb is Trans then maxn mr kr else nr) in
  let X3' := Op (KX 3) nr in
  [:: Igemm alpha A12 B21 beta C11;   (* P2 *)
      Isub lb cb B22 B12 X3;          (* T3 *)
      Isub la ca A11 A21 X2;          (* S3 *)
      Isub mr nr C22 C12 C22;
      Isub mr nr C21 C22 C21;
      Igemm alpha X2 X3 beta C22;     (* P7 *)
      Isub lb cb B12 B11 X3;          (* T1 *)
      Iadd la ca A21 A22 X2;          (* S1 *)
      Igemm alpha X2 X3 beta C12;     (* P5 *)
      Isub lb cb B22 X3 X3;           (* T2 *)
      Isub la ca X2 A11 X2;           (* S2 *)
      Imul alpha X2 X3 X1;            (* P6 *)
      Isub lb cb X3 B21 X3;           (* T4 *)
      Isub la ca A12 X2 X2;           (* S4 *)
      Igemm alpha A22 X3 (- beta) C21;(* P4 *)
      Imul alpha A11 B11 X3';         (* P1 *)
      Iadd mr nr C11 X3' C11;         (* U1 *)
      Iadd mr nr X1 X3' X1;           (* U2 *)
      Iadd mr nr X1 C22 X3';          (* U3 *)
      Iadd mr nr C12 X3' C22;         (* U7 *)
      Iadd mr nr C12 X1 C12;          (* U4 *)
      Isub mr nr X3' C21 C21;         (* U6 *)
      Igemm alpha X2 B22 1 C12 ].     (* P3, U5 *)

(** schedule_winograd_acc.inl:188-390 (the schedule WinogradCalc uses:
    fgemm_winograd.inl:49 defines NEWWINO).  Same temporaries. *)
Definition winograd_acc_3_21 : seq instr :=
  let X1 := Op (KX 1) nr in
  let X2 := Op (KX 2) ca in
  let X3 := Op (KX 3) (if tb is Trans then maxn mr kr else nr) in
  [:: Isub lb cb B12 B11 X3;          (* T1 *)
      Iadd la ca A21 A22 X2;          (* S1 *)
      Imul alpha X2 X3 X1;            (* P5 *)
      Iaxpy mr nr X1 beta C22 C22;
      Iaxpy mr nr X1 beta C12 C12;
      Imul alpha A11 B11 X1;          (* P1 *)
      Igemm alpha A12 B21 beta C11;   (* P2 *)
      Iadd mr nr C11 X1 C11;          (* U1 *)
      Isub lb cb B22 X3 X3;           (* T2 *)
      Isub la ca X2 A11 X2;           (* S2 *)
      Igemm alpha X2 X3 1 X1;         (* P6, U2 *)
      Iadd mr nr C12 X1 C12;          (* U4 *)
      Isub lb cb X3 B21 X3;           (* T4 *)
      Isub la ca A12 X2 X2;           (* S4 *)
      Igemm alpha A22 X3 (- beta) C21;(* P4 *)
      Igemm alpha X2 B22 1 C12;       (* P3, U5 *)
      Isub lb cb B22 B12 X3;          (* T3 *)
      Isub la ca A11 A21 X2;          (* S3 *)
      Igemm alpha X2 X3 1 X1;         (* P7, U3 *)
      Iadd mr nr C22 X1 C22;          (* U7 *)
      Isub mr nr X1 C21 C21 ].        (* U6 *)

(** schedule_winograd_acc.inl:396-512.  X (1): mr x max(nr,kr), leading
    dimension ca then nr; Y (2): nr x kr, leading dimension cb. *)
Definition acc2_24_sz (id : nat) : nat :=
  match id with 1 => mr * maxn nr kr | 2 => nr * kr | _ => 0 end.
Definition winograd_acc_2_24 : seq instr :=
  let X := Op (KX 1) ca in let X' := Op (KX 1) nr in let Y := Op (KX 2) cb in
  [:: Isub mr nr C22 C12 C22;         (* Z1 *)
      Isub mr nr C12 C21 C12;         (* Z3 *)
      Iadd la ca A21 A22 X;           (* S1 *)
      Isub lb cb B12 B11 Y;           (* T1 *)
      Igemm alpha X Y beta C12;       (* P5 *)
      Isub la ca X A11 X;             (* S2 *)
      Isub lb cb B22 Y Y;             (* T2 *)
      Igemm alpha X Y beta C21;       (* P6 *)
      Isub la ca A12 X X;             (* S4 *)
      Iaxpy mr nr C12 beta C22 C22;   (* W1 *)
      Igemm alpha X B22 1 C12;        (* P3 *)
      Imul alpha A11 B11 X';          (* P1 *)
      Iadd mr nr C21 X' C21;          (* U2 *)
      Igemm alpha A12 B21 beta C11;   (* P2 *)
      Iadd mr nr C11 X' C11;          (* U1 *)
      Iadd mr nr C12 C21 C12;         (* U5 *)
      Isub la ca A11 A21 X;           (* S3 *)
      Isub lb cb B22 B12 Y;           (* T3 *)
      Igemm alpha X Y 1 C21;          (* U3 *)
      Iadd mr nr C22 C21 C22;         (* U7 *)
      Isub lb cb B12 B11 Y;
      Isub lb cb B22 Y Y;
      Isub lb cb Y B21 Y;             (* T4 *)
      Igemm (- alpha) A22 Y 1 C21 ].  (* U6 *)

(** schedule_winograd_acc.inl:517-635.  Y (2): nr x max(kr,mr). *)
Definition acc2_27_sz (id : nat) : nat :=
  match id with 1 => mr * maxn nr kr | 2 => nr * maxn kr mr | _ => 0 end.
Definition winograd_acc_2_27 : seq instr :=
  let X := Op (KX 1) ca in let X' := Op (KX 1) nr in
  let Y := Op (KX 2) cb in let Y' := Op (KX 2) nr in
  [:: Isub mr nr C22 C12 C22;         (* Z1 *)
      Isub mr nr C12 C21 C12;         (* Z3 *)
      Iadd la ca A21 A22 X;           (* S1 *)
      Isub lb cb B12 B11 Y;           (* T1 *)
      Igemm alpha X Y beta C12;       (* P5 *)
      Isub la ca X A11 X;             (* S2 *)
      Isub lb cb B22 Y Y;             (* T2 *)
      Igemm alpha X Y beta C21;       (* P6 *)
      Isub la ca A12 X X;             (* S4 *)
      Iaxpy mr nr C12 beta C22 C22;   (* W1 *)
      Imul alpha X B22 Y';
      Iadd mr nr Y' C12 C12;          (* P3 *)
      Imul alpha A11 B11 X';          (* P1 *)
      Iadd mr nr C21 X' C21;          (* U2 *)
      Imul alpha A12 B21 Y';
      Iaxpy mr nr Y' beta C11 C11;    (* P2 *)
      Iadd mr nr C11 X' C11;          (* U1 *)
      Iadd mr nr C12 C21 C12;         (* U5 *)
      Isub la ca A11 A21 X;           (* S3 *)
      Isub lb cb B22 B12 Y;           (* T3 *)
      Igemm alpha X Y 1 C21;          (* U3 *)
      Iadd mr nr C22 C21 C22;         (* U7 *)
      Isub lb cb B12 B11 Y;
      Isub lb cb B22 Y Y;
      Isub lb cb Y B21 Y;             (* T4 *)
      Imul alpha A22 Y X';
      Isub mr nr C21 X' C21 ].        (* U6 *)

(** ** In-place schedules, which also overwrite A and/or B *)

(** schedule_winograd_ip.inl:39-142 (beta = 0, no temporary). *)
Definition winograd_LR_S : seq instr :=
  [:: Isub la ca A11 A21 C11;         (* S3 *)
      Iadd la ca A21 A22 A21;         (* S1 *)
      Isub lb cb B12 B11 C22;         (* T1 *)
      Isub lb cb B22 B12 B12;         (* T3 *)
      Imul alpha C11 B12 C21;         (* P7 *)
      Isub la ca A21 A11 C12;         (* S2 *)
      Imul alpha A11 B11 C11;         (* P1 *)
      Isub lb cb B22 C22 B11;         (* T2 *)
      Imul alpha A21 C22 A11;         (* P5 *)
      Isub lb cb B11 B21 C22;         (* T4 *)
      Imul alpha A22 C22 A21;         (* P4 *)
      Isub la ca A12 C12 A22;         (* S4 *)
      Imul alpha C12 B11 C22;         (* P6 *)
      Iadd mr nr C22 C11 C22;         (* U2 *)
      Imul alpha A12 B21 C12;         (* P2 *)
      Iadd mr nr C11 C12 C11;         (* U1 *)
      Iadd mr nr C22 A11 C12;         (* U4 *)
      Iadd mr nr C22 C21 C22;         (* U3 *)
      Isub mr nr C22 A21 C21;         (* U6 *)
      Iadd mr nr C22 A11 C22;         (* U7 *)
      Imul alpha A22 B22 A12;         (* P3 *)
      Iadd mr nr C12 A12 C12 ].       (* U5 *)

(** schedule_winograd_ip.inl:146-249; X (1): mr x nr. *)
Definition ip_sz (id : nat) : nat := match id with 1 => mr * nr | _ => 0 end.
Definition winograd_L_S : seq instr :=
  let X := Op (KX 1) nr in
  [:: Isub la ca A11 A21 C22;         (* S3 *)
      Iadd la ca A22 A21 A21;         (* S1 *)
      Isub la ca A21 A11 C12;         (* S2 *)
      Isub lb cb B12 B11 C21;         (* T1 *)
      Imul alpha A11 B11 C11;         (* P1 *)
      Isub lb cb B22 B12 A11;         (* T3 *)
      Imul alpha C22 A11 X;           (* P7 *)
      Isub lb cb B22 C21 A11;         (* T2 *)
      Imul alpha A21 C21 C22;         (* P5 *)
      Isub la ca A12 C12 C21;         (* S4 *)
      Imul alpha C21 B22 A21;         (* P3 *)
      Imul alpha C12 A11 C21;         (* P6 *)
      Isub lb cb A11 B21 A11;         (* T4 *)
      Iadd mr nr C21 C11 C21;         (* U2 *)
      Iadd mr nr C22 C21 C12;         (* U4 *)
      Iadd mr nr C21 X C21;           (* U3 *)
      Iadd mr nr C22 C21 C22;         (* U7 *)
      Iadd la ca C12 A21 C12;         (* U5 *)
      Imul alpha A12 B21 X;           (* P2 *)
      Iadd mr nr C11 X C11;           (* U1 *)
      Imul alpha A22 A11 A21;         (* P4 *)
      Isub mr nr C21 A21 C21 ].       (* U6 *)

(** schedule_winograd_ip.inl:252-355; X (1): mr x nr. *)
Definition winograd_R_S : seq instr :=
  let X := Op (KX 1) nr in
  [:: Isub la ca A11 A21 C22;         (* S3 *)
      Iadd la ca A22 A21 C21;         (* S1 *)
      Isub lb cb B12 B11 C12;         (* T1 *)
      Imul alpha A11 B11 C11;         (* P1 *)
      Isub la ca C21 A11 B11;         (* S2 *)
      Isub lb cb B22 B12 B12;         (* T3 *)
      Imul alpha C22 B12 X;           (* P7 *)
      Isub lb cb B22 C12 B12;         (* T2 *)
      Imul alpha C21 C12 C22;         (* P5 *)
      Isub lb cb B12 B21 C12;         (* T4 *)
      Imul alpha B11 B12 C21;         (* P6 *)
      Imul alpha A22 C12 B12;         (* P4 *)
      Isub la ca A12 B11 B11;         (* S4 *)
      Iadd mr nr C21 C11 C21;         (* U2 *)
      Iadd mr nr C22 C21 C12;         (* U4 *)
      Iadd mr nr C21 X C21;           (* U3 *)
      Iadd mr nr C22 C21 C22;         (* U7 *)
      Isub mr nr C21 B12 C21;         (* U6 *)
      Imul alpha B11 B22 B12;         (* P3 *)
      Iadd la ca C12 B12 C12;         (* U5 *)
      Imul alpha A12 B21 B12;         (* P2 *)
      Iadd mr nr C11 B12 C11 ].       (* U1 *)

(** schedule_winograd_acc_ip.inl:38-162 (beta <> 0).  X (1): max(mr*nr, kr*nr,
    mr*kr) elements, Y (2): max(mr,kr) x nr. *)
Definition acc_LR_sz (id : nat) : nat :=
  match id with
  | 1 => maxn (maxn (mr * nr) (kr * nr)) (mr * kr) | 2 => maxn mr kr * nr | _ => 0
  end.
Definition winograd_acc_LR : seq instr :=
  let Xa := Op (KX 1) ca in let Xb := Op (KX 1) cb in let X := Op (KX 1) nr in
  let Yb := Op (KX 2) cb in let Y := Op (KX 2) nr in
  [:: Isub mr nr C22 C12 C22;         (* Z1 *)
      Iadd la ca A21 A22 Xa;          (* S1 *)
      Isub lb cb B12 B11 Yb;          (* T1 *)
      Isub mr nr C21 C22 C21;         (* Z2 *)
      Isub lb cb B22 B12 B12;         (* T3 *)
      Isub la ca A11 A21 A21;         (* S3 *)
      Igemm alpha A21 B12 beta C22;   (* P7 *)
      Isub la ca Xa A11 A21;          (* S2 *)
      Isub lb cb B22 Yb B12;          (* T2 *)
      Igemm alpha Xa Yb beta C12;     (* P5 *)
      Isub lb cb B12 B21 Xb;          (* T4 *)
      Imul alpha A22 Xb Y;            (* W1 *)
      Iaxpy mr nr Y (- beta) C21 C21; (* P4 *)
      Isub la ca A12 A21 A22;         (* S4 *)
      Imul alpha A21 B12 X;           (* P6 *)
      Imul alpha A12 B21 Y;           (* W2 *)
      Iaxpy mr nr Y beta C11 C11;     (* P2 *)
      Imul alpha A11 B11 Y;           (* P1 *)
      Iadd mr nr C11 Y C11;           (* U1 *)
      Iadd mr nr X Y X;               (* U2 *)
      Iadd mr nr C22 X C22;           (* U3 *)
      Iadd mr nr X C12 X;             (* U4 *)
      Isub mr nr C22 C21 C21;         (* U6 *)
      Iadd mr nr C22 C12 C22;         (* U7 *)
      Imul alpha A22 B22 C12;         (* P3 *)
      Iadd mr nr C12 X C12 ].         (* U5 *)

(** schedule_winograd_acc_ip.inl:165-290.  X (1): mr x nr, Y (2): mr x kr. *)
Definition acc_S_sz (id : nat) : nat := match id with 1 => mr * nr | 2 => mr * kr | _ => 0 end.
Definition winograd_acc_R_S : seq instr :=
  let Xb := Op (KX 1) cb in let X := Op (KX 1) nr in let Y := Op (KX 2) ca in
  [:: Isub mr nr C22 C12 C22;         (* Z1 *)
      Isub lb cb B12 B11 Xb;          (* T1 *)
      Isub mr nr C21 C22 C21;         (* Z2 *)
      Isub lb cb B22 B12 B12;         (* T3 *)
      Isub la ca A11 A21 Y;           (* S3 *)
      Igemm alpha Y B12 beta C22;     (* P7 *)
      Iadd la ca A21 A22 Y;           (* S1 *)
      Isub lb cb B22 Xb B12;          (* T2 *)
      Igemm alpha Y Xb beta C12;      (* P5 *)
      Isub lb cb B12 B21 Xb;          (* T4 *)
      Igemm alpha A22 Xb (- beta) C21;(* P4 *)
      Imul alpha A12 B21 X;           (* W1 *)
      Iaxpy mr nr X beta C11 C11;     (* P2 *)
      Isub la ca Y A11 Y;             (* S2 *)
      Imul alpha Y B12 B21;           (* P6 *)
      Isub la ca A12 Y Y;             (* S4 *)
      Imul alpha A11 B11 X;           (* P1 *)
      Iadd mr nr B21 X B21;           (* U2 *)
      Iadd mr nr C22 B21 C22;         (* U3 *)
      Iadd mr nr B21 C12 B21;         (* U4 *)
      Isub mr nr C22 C21 C21;         (* U6 *)
      Iadd mr nr C11 X C11;           (* U1 *)
      Iadd mr nr C22 C12 C22;         (* U7 *)
      Imul alpha Y B22 C12;           (* P3 *)
      Iadd mr nr C12 B21 C12 ].       (* U5 *)

(** schedule_winograd_acc_ip.inl:294-416. *)
Definition winograd_acc_L_S : seq instr :=
  let Xa := Op (KX 1) ca in let Xb := Op (KX 1) cb in let X := Op (KX 1) nr in
  let Y := Op (KX 2) cb in let Y' := Op (KX 2) nr in
  [:: Isub mr nr C22 C12 C22;         (* Z1 *)
      Isub mr nr C21 C22 C21;         (* Z2 *)
      Isub la ca A11 A21 Xa;          (* S3 *)
      Iadd la ca A21 A22 A21;         (* S1 *)
      Isub lb cb B22 B12 Y;           (* T3 *)
      Igemm alpha Xa Y beta C22;      (* P7 *)
      Isub lb cb B12 B11 Xb;          (* T1 *)
      Isub lb cb B22 Xb Y;            (* T2 *)
      Igemm alpha A21 Xb beta C12;    (* P5 *)
      Isub la ca A21 A11 A21;         (* S2 *)
      Imul alpha A11 B11 X;           (* P1 *)
      Isub la ca A12 A21 A11;         (* S4 *)
      Igemm alpha A12 B21 beta C11;   (* P2 *)
      Iadd mr nr C11 X C11;           (* U1 *)
      Imul alpha A21 Y A12;           (* P6 *)
      Isub lb cb Y B21 Y;             (* T4 *)
      Imul alpha A22 Y A21;           (* W2 *)
      Iaxpy mr nr A21 (- beta) C21 C21; (* P4 *)
      Iadd mr nr X A12 X;             (* U2 *)
      Iadd mr nr C22 X C22;           (* U3 *)
      Isub mr nr C22 C21 C21;         (* U6 *)
      Iadd mr nr C22 C12 C22;         (* U7 *)
      Iadd mr nr C12 X C12;           (* U4 *)
      Imul alpha A11 B22 Y';          (* W3 *)
      Iadd mr nr C12 Y' C12 ].        (* U5 *)

End Schedules.

(** ** The recursive product *)

(** fgemm_winograd.inl:74-85 (WinogradSteps), [th] = WINOTHRESHOLD: number of
    times m can be halved before falling below th. *)
Fixpoint winograd_steps (fuel th m : nat) : nat :=
  if fuel is f.+1 then (if (th <= m)%N then (winograd_steps f th m./2).+1 else 0%N) else 0%N.

(** fgemm_winograd.inl:281-355, as configured by line 49 (NEWWINO).
    [junk] is the initial contents of the temporaries. *)
Definition winograd_calc (gemm : product) (junk : nat -> nat -> F) (ta tb : transp) (mr nr kr : nat)
    (alpha : F) (A B : grid F) (beta : F) (C : grid F) : grid F :=
  let M := Mem A B C junk in
  if beta == 0 then mC (run ta tb mr nr kr (winograd_sz mr nr kr) gemm (winograd ta tb mr nr kr alpha) M)
  else mC (run ta tb mr nr kr (acc3_sz mr nr kr) gemm (winograd_acc_3_21 ta tb mr nr kr alpha beta) M).

(** fgemm_winograd.inl:194-276 (DynamicPeeling2): C holds the product of the
    leading (m-mr) x (n-nr) x (k-kr) blocks. *)
Definition dynamic_peeling2 (gemm : product) (ta tb : transp) (m n k mr nr kr : nat)
    (alpha : F) (A B : grid F) (beta : F) (C : grid F) : grid F :=
  let a12 := subop ta 0 (k - kr) A in
  let a21 := subop ta (m - mr) 0 A in
  let b12 := subop tb 0 (n - nr) B in
  let b21 := subop tb (k - kr) 0 B in
  match (0 < mr)%N, (0 < kr)%N, (0 < nr)%N with
  | false, false, false => C
  | false, false, true => at_ 0 (n - nr) (gemm ta tb m nr k alpha A b12 beta) C
  | false, true, false => gemm ta tb m n kr alpha a12 b21 1 C
  | false, true, true =>
      gemm ta tb m (n - nr)%N kr alpha a12 b21 1 (at_ 0 (n - nr) (gemm ta tb m nr k alpha A b12 beta) C)
  | true, false, false => at_ (m - mr) 0 (gemm ta tb mr n k alpha a21 B beta) C
  | true, false, true =>
      at_ (m - mr) 0 (gemm ta tb mr (n - nr)%N k alpha a21 B beta)
        (at_ 0 (n - nr) (gemm ta tb m nr k alpha A b12 beta) C)
  | true, true, false =>
      at_ (m - mr) 0 (gemm ta tb mr n k alpha a21 B beta) (gemm ta tb (m - mr)%N n kr alpha a12 b21 1 C)
  | true, true, true =>
      at_ 0 (n - nr) (gemm ta tb m nr k alpha A b12 beta)
        (at_ (m - mr) 0 (gemm ta tb mr (n - nr)%N k alpha a21 B beta)
          (gemm ta tb (m - mr)%N (n - nr)%N kr alpha a12 b21 1 C))
  end.

(** fgemm_winograd.inl:364-446.  [lvl = None] is recLevel < 0 (choose by
    WinogradSteps); recLevel = 0 is the classical product [wgemm].
    [fuel] bounds the recursion depth; running out of it returns C. *)
Fixpoint fgemm_winograd (fuel : nat) (th : nat) (junk : nat -> nat -> F) (lvl : option nat) : product :=
  fun ta tb m n k alpha A B beta C =>
  if fuel is f.+1 then
    if (m == 0%N) || (n == 0%N) then C
    else if k == 0%N then wscal m n beta C
    else
      let w := if lvl is Some w then w
               else let x := minn m (minn k n) in winograd_steps x.+1 th x in
      if w is w'.+1 then
        let m2 := ((m %/ 2 ^ w'.+1) * 2 ^ w')%N in
        let n2 := ((n %/ 2 ^ w'.+1) * 2 ^ w')%N in
        let k2 := ((k %/ 2 ^ w'.+1) * 2 ^ w')%N in
        dynamic_peeling2 (fgemm_winograd f th junk None) ta tb m n k
          (m - 2 * m2)%N (n - 2 * n2)%N (k - 2 * k2)%N alpha A B beta
          (winograd_calc (fgemm_winograd f th junk (Some w')) junk ta tb m2 n2 k2 alpha A B beta C)
      else wgemm ta tb m n k alpha A B beta C
  else C.

End Wino.
