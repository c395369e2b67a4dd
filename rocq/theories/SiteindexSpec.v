(** What is said of running site indices. *)
From Coq Require Import ZArith List.
Import ListNotations.
Local Open Scope Z_scope.

(** x + nx (y + ny (z + nz t)), as in the description of the class. *)
Fixpoint running_index (sizes x : list Z) : Z :=
  match sizes, x with
  | n :: sizes, c :: x => c + n * running_index sizes x
  | _, _ => 0
  end.
(** The coordinates of a site of the lattice. *)
Definition valid_site (sizes x : list Z) : Prop := Forall2 (fun n c => 0 <= c < n) sizes x.
Definition volume (sizes : list Z) : Z := fold_right Z.mul 1 sizes.
(** Sizes that an int holds, and a volume that a size_t holds. *)
Definition valid_sizes (sizes : list Z) : Prop :=
  Forall (fun n => 0 < n < 2 ^ 31) sizes /\ volume sizes < 2 ^ 64.
