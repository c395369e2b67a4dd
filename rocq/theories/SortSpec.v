(** What is said of sorting. *)
Set Warnings "-notation-overridden,-ambiguous-paths".
From mathcomp Require Import ssreflect ssrfun ssrbool ssrnat.
From Verif Require SortModel.
Set Implicit Arguments.
Unset Strict Implicit.
Unset Printing Implicit Defensive.

(** A comparison that sorts: irreflexive, transitive, and elements that are not
    less than each other are exchangeable. *)
Definition weak_order (T : Type) (less : T -> T -> bool) : Prop :=
  [/\ forall x, ~~ less x x,
      forall x y z, less x y -> less y z -> less x z &
      forall x y z, less x z -> less x y || less y z].

(** The indices below N, each once. *)
Definition permutes (N : nat) (p : nat -> nat) : Prop :=
  (forall i, i < N -> p i < N) /\ (forall i j, i < N -> j < N -> p i = p j -> i = j).

(** Elements with indices a and b of c are in the right order: the first is the
    smaller (larger) one, or they are equivalent and were in that order. *)
Definition in_order (T : Type) (less : T -> T -> bool) (ord : SortModel.order) (c : nat -> T)
    (a b : nat) : bool :=
  let before x y := match ord with SortModel.ascending => less x y | _ => less y x end in
  before (c a) (c b) || ~~ before (c b) (c a) && (a < b).
