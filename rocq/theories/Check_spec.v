(** * Random vectors, as elements of a finite set *)
From mathcomp Require Import all_ssreflect all_algebra.
From Verif Require Import Grid.
Set Implicit Arguments.
Unset Strict Implicit.
Unset Printing Implicit Defensive.
Import GRing.Theory.
Local Open Scope ring_scope.

Section Spec.
Variable F : fieldType.

(** The array holding the entries of a column (of two columns, of a row). *)
Definition vec (n : nat) (v : 'cV[F]_n) (i : nat) : F := if insub i is Some k then v k 0 else 0.
Definition vec2 (n : nat) (uv : 'M[F]_(n, 2)) (i j : nat) : F :=
  if insub i is Some k then (if insub j is Some l then uv k l else 0) else 0.

End Spec.

(** Out of the finite set T of draws, at most one in q (in q^2/(q+1)) makes
    the test succeed. *)
Definition rarely (T : finType) (q : nat) (test : T -> bool) : Prop := (#|[pred v | test v]| * q <= #|T|)%N.
Definition rarely2 (T : finType) (q : nat) (test : T -> bool) : Prop := (#|[pred v | test v]| * q ^ 2 <= #|T| * q.+1)%N.
