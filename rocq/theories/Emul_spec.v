(** * Specification of lanes of w bits *)
From Coq Require Import ZArith.
Open Scope Z_scope.

(** [x] is a pattern of [w] bits. *)
Definition lane (w x : Z) : Prop := 0 <= x < 2 ^ w.

(** The pattern [x] of [w] bits stands for the two's complement integer [v]. *)
Definition stands (w x v : Z) : Prop :=
  lane w x /\ - 2 ^ (w - 1) <= v < 2 ^ (w - 1) /\ exists k, x = v + k * 2 ^ w.

(** A mask of comparison. *)
Definition is_mask (w m : Z) (P : Prop) : Prop := (P -> m = 2 ^ w - 1) /\ (~ P -> m = 0).
