(** * Parallel PLUQ: the regions used by the tasks *)
From mathcomp Require Import all_ssreflect.
Set Implicit Arguments.
Unset Strict Implicit.
Unset Printing Implicit Defensive.

(** Rows [a, b) and columns [c, d) of A. *)
Record rect := Rect { r_a : nat; r_b : nat; r_c : nat; r_d : nat }.
Definition inr (w : rect) (i j : nat) : bool := (r_a w <= i < r_b w) && (r_c w <= j < r_d w).

(** What a task writes (and may read) and what it only reads. *)
Record task := Task { t_w : rect; t_r : seq rect }.

(** Two tasks may run in any order or at the same time: neither writes an
    entry the other one uses. *)
Definition apart (s t : task) : Prop := forall i j,
  ~~ (inr (t_w s) i j && inr (t_w t) i j) /\
  (forall w, List.In w (t_r t) -> ~~ (inr (t_w s) i j && inr w i j)) /\
  (forall w, List.In w (t_r s) -> ~~ (inr (t_w t) i j && inr w i j)).

Fixpoint all_apart (g : seq task) : Prop :=
  if g is t :: g' then (forall s, List.In s g' -> apart t s) /\ all_apart g' else True.

(** The groups of tasks between two CHECK_DEPENDENCIES having more than one
    task on A (ffpack_ppluq.inl:176-349); J and the copy I -> temp write temp
    only, which no task of their group uses. *)
Definition groups (M N M2 N2 R1 R2 R3 : nat) : seq (seq task) :=
  [:: (* B <- P1^T A2, C <- A3 Q1^T (l.176-185) *)
      [:: Task (Rect 0 M2 N2 N) [::]; Task (Rect M2 M 0 N2) [::]];
      (* D, E (l.188-194) *)
      [:: Task (Rect 0 R1 N2 N) [:: Rect 0 R1 0 R1]; Task (Rect M2 M 0 R1) [:: Rect 0 R1 0 R1]];
      (* F, G (l.198-204) *)
      [:: Task (Rect R1 M2 N2 N) [:: Rect R1 M2 0 R1; Rect 0 R1 N2 N];
          Task (Rect M2 M R1 N2) [:: Rect M2 M 0 R1; Rect 0 R1 R1 N2]];
      (* PLUQ of F, PLUQ of G, H (l.208-228) *)
      [:: Task (Rect R1 M2 N2 N) [::]; Task (Rect M2 M R1 N2) [::];
          Task (Rect M2 M N2 N) [:: Rect M2 M 0 R1; Rect 0 R1 N2 N]];
      (* E1, M11, D1, V1, then I and K without waiting (l.240-270) *)
      [:: Task (Rect M2 M 0 R1) [::]; Task (Rect R1 M2 0 R1) [::]; Task (Rect 0 R1 N2 N) [::];
          Task (Rect 0 R1 R1 N2) [::]; Task (Rect M2 M N2 (N2 + R2)) [:: Rect R1 (R1 + R2) N2 (N2 + R2)]];
      (* O, R (l.294-308) *)
      [:: Task (Rect M2 (M2 + R3) (N2 + R2) N) [:: Rect R1 (R1 + R2) (N2 + R2) N];
          Task (Rect (M2 + R3) M (N2 + R2) N) [:: Rect (M2 + R3) M N2 (N2 + R2); Rect R1 (R1 + R2) (N2 + R2) N]];
      (* P4 on the rows, Q4 on the columns (l.336-349) *)
      [:: Task (Rect (M2 + R3) M 0 (N2 + R2)) [::]; Task (Rect 0 (M2 + R3) (N2 + R2) N) [::]]].
