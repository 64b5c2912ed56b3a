(** * Specification vocabulary: 64-bit operands and high half of a product *)
From Coq Require Import ZArith.
Open Scope Z_scope.

Definition is_int64 (x : Z) : Prop := - 2 ^ 63 <= x < 2 ^ 63.
Definition is_uint64 (x : Z) : Prop := 0 <= x < 2 ^ 64.

(** [h] is the high half of the 128-bit product of x and y. *)
Definition high_half (x y h : Z) : Prop := exists l, x * y = h * 2 ^ 64 + l /\ 0 <= l < 2 ^ 64.
