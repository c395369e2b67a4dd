(** The Levi-Civita symbol. *)
From Coq Require Import ZArith List Permutation.
Import ListNotations.

(** Number of pairs of places that are in the wrong order. *)
Fixpoint inversions (p : list Z) : nat :=
  match p with
  | [] => 0
  | a :: t => length (filter (fun b => (b <? a)%Z) t) + inversions t
  end.

(** The sign of a permutation, given as the list of its values. *)
Definition sign (p : list Z) : Z := if Nat.even (inversions p) then 1 else -1.

Definition permutation_of (n : nat) (p : list Z) : Prop :=
  Permutation p (map Z.of_nat (seq 0 n)).
