(** * Sequentially semi-separable generators of a dense matrix: ffpack/ffpack_sss.inl

    H is a fresh copy of A; Temp (TempFlat) is cleared at each turn and T is
    what it held.  PLUQ's rank r is at most s in the first block; in the loops,
    with r > s the factor does not fit in Temp's lines and is written past its
    end: None.  The source and destination of each getTriangular inside H are
    disjoint.  The last V (l.472) is copied with s columns, the columns after N
    coming from the next line of H: the model leaves them unspecified (they are
    read from H's columns N and above). *)
From mathcomp Require Import all_ssreflect all_algebra.
From Verif Require Import Grid Perm_model Tri_model Pluq_model Api_model Ludiv_model Ech_model Sss_model.
Set Implicit Arguments.
Unset Strict Implicit.
Unset Printing Implicit Defensive.
Import GRing.Theory.
Local Open Scope ring_scope.

Section Gen.
Variable F : fieldType.
Variables (bk thr : nat).
Implicit Types A H T : grid F.

Record up_state := Ups { upH : grid F; upU : grid F; upV : grid F; upW : grid F }.
Record low_state := Lows { lwH : grid F; lwP : grid F; lwQ : grid F; lwR : grid F }.

(** l.415-443: U_1 and V_2 (U cleared before if N - s < s). *)
Definition dts_up0 (N s : nat) H (U V W : grid F) : up_state :=
  let fs := if (N - s < s)%N then (N - s)%N else s in
  let U := if (N - s < s)%N then fzero s s U else U in
  let: Pluq X p q r := PLUQ bk NonUnit thr s (N - s) (sub 0 s H) in
  let H := at_ 0 s (fun _ => X) H in
  let U := getTriangular Lower Unit s fs r (sub 0 s H) U false in
  let U := applyP bk SLeft Trans fs 0 s p U in
  let H := at_ 0 s (getTriangular_in Upper NonUnit s (N - s) r) H in
  let H := at_ 0 s (applyP bk SRight NoTrans s 0 (N - s) q) H in
  let V := fassign s fs (sub 0 s H) V in
  Ups H U V W.

(** l.447-477, one turn. *)
Definition dts_up_step (N s : nat) T (b : nat) (st : up_state) : option up_state :=
  let: Ups H U V W := st in
  let n := (N - s * (b + 2))%N in let i0 := (s * b)%N in let j0 := (s * (b + 2))%N in let i1 := (s * (b + 1))%N in
  let: Pluq X p q r := PLUQ bk NonUnit thr (s * 2) n (sub i0 j0 H) in
  if (s < r)%N then None else
  let H := at_ i0 j0 (fun _ => X) H in
  let T := fzero (2 * s) s T in
  let T := getTriangular Lower Unit (2 * s) n r (sub i0 j0 H) T true in
  let T := applyP bk SLeft Trans s 0 (2 * s) p T in
  let W := at_ i0 0 (fassign s s T) W in
  let U := at_ i1 0 (fassign s s (sub s 0 T)) U in
  let H := at_ i1 j0 (getTriangular Upper NonUnit s n r (sub i0 j0 H) ^~ false) H in
  let H := at_ i1 j0 (applyP bk SRight NoTrans s 0 n q) H in
  let V := at_ i1 0 (fassign s s (sub i1 j0 H)) V in
  Some (Ups H U V W).

(** l.482-496: Q_1 and P_2 (Q cleared before, l.420). *)
Definition dts_low0 (N s : nat) H (P Q R : grid F) : low_state :=
  let fs := if (N - s < s)%N then (N - s)%N else s in
  let Q := if (N - s < s)%N then fzero s s Q else Q in
  let: Pluq X p q r := PLUQ bk NonUnit thr (N - s) s (sub s 0 H) in
  let H := at_ s 0 (fun _ => X) H in
  let Q := getTriangular Upper NonUnit fs s r (sub s 0 H) Q false in
  let Q := applyP bk SRight NoTrans fs 0 s q Q in
  let H := at_ s 0 (getTriangular_in Lower Unit (N - s) s r) H in
  let H := at_ s 0 (applyP bk SLeft Trans s 0 (N - s) p) H in
  let P := fassign fs s (sub s 0 H) P in
  Lows H P Q R.

(** l.500-532, one turn. *)
Definition dts_low_step (N s : nat) T (b : nat) (st : low_state) : option low_state :=
  let: Lows H P Q R := st in
  let n := (N - s * (b + 2))%N in let i0 := (s * (b + 2))%N in let j0 := (s * b)%N in let j1 := (s * (b + 1))%N in
  let: Pluq X p q r := PLUQ bk NonUnit thr n (s * 2) (sub i0 j0 H) in
  if (s < r)%N then None else
  let H := at_ i0 j0 (fun _ => X) H in
  let T := fzero s (2 * s) T in
  let T := getTriangular Upper NonUnit n (2 * s) r (sub i0 j0 H) T true in
  let T := applyP bk SRight NoTrans s 0 (2 * s) q T in
  let R := at_ j0 0 (fassign s s T) R in
  let Q := at_ j1 0 (fassign s s (sub 0 s T)) Q in
  let H := at_ i0 j1 (getTriangular Lower Unit n s r (sub i0 j0 H) ^~ false) H in
  let H := at_ i0 j1 (applyP bk SLeft Trans s 0 n p) H in
  let P := at_ j1 0 (fassign (if b == (sss_k N s - 3)%N then sss_ls N s else s) s (sub i0 j1 H)) P in
  Some (Lows H P Q R).

(** n turns of a loop whose body may fail. *)
Fixpoint oiter (S : Type) (n : nat) (f : nat -> S -> option S) (st : S) : option S :=
  if n is n'.+1 then obind (f n') (oiter n' f st) else Some st.

Record sss_gen := SssGen { gP : grid F; gQ : grid F; gR : grid F; gU : grid F; gV : grid F; gW : grid F; gD : grid F }.

(** l.358-535 [DenseToSSS]; the records' grids are what the arrays hold first
    (D is the diagonal), T and T' the first contents of Temp and TempFlat. *)
Definition DenseToSSS (N s : nat) (g : sss_gen) A T T' : option sss_gen :=
  if s == 0%N then None else
  let kf := (N %/ s)%N in let rs := (N %% s)%N in let k := sss_k N s in
  let: SssGen P Q R U V W D := g in
  let D := iteri kf (fun b D => at_ (b * s) 0 (fassign s s (sub (b * s) (b * s) A)) D) D in
  let D := if rs != 0%N then at_ (kf * s) 0 (fassign rs rs (sub (kf * s) (kf * s) A)) D else D in
  if (s < N)%N then
    if oiter (k - 2) (dts_up_step N s T) (dts_up0 N s A U V W) is Some (Ups H U V W) then
      if oiter (k - 2) (dts_low_step N s T') (dts_low0 N s H P Q R) is Some (Lows _ P Q R) then
        Some (SssGen P Q R U V W D)
      else None
    else None
  else Some (SssGen P Q R U V W D).

End Gen.
