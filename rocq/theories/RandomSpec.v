(** Specification for shuffles, seeds and partitions. *)
From Verif Require Import Common RandomModel.
Open Scope Z_scope.

(** A double in [0,1). *)
Definition in_unit_interval (u : double01) : Prop :=
  0 <= mant u < 2 ^ 53 /\ 0 <= expo u /\ mant u < 2 ^ expo u.

Definition is_u64 (x : Z) : Prop := 0 <= x < 2 ^ 64.
