(** Model of the sorting of vectors: libraries/datatypes/matrix.h 1558-1650
    (Matrix_t::permute and Matrix_t::sort; line numbers below refer to that
    file).  DiagonalMatrix::sort (diagonal_matrix.h 448-459) calls the same
    function.

    A vector of N elements is a function of the index; [less] is operator< of
    its elements ([x > y] is [less y x]), [fresh] the value of an element that
    has not been assigned. *)
From Coq Require Import List Bool Arith.
From Verif Require Import LinalgModel.

(** hila::sort: libraries/plumbing/defs.h 129 *)
Inductive order := unsorted | ascending | descending.

Section Sort.
Context {T : Type} (less : T -> T -> bool) (fresh : T).

(** Lines 1558-1570 permute *)
Definition permute (N : nat) (permutation : nat -> nat) (c : nat -> T) : nat -> T :=
  loop 0 N (fun i res => setv res i (c (permutation i))) (fun _ => fresh).

(** Lines 1614-1615 and 1619-1620: the inner loop, for (j = i; j > 0 && ...;
    j--); [wrong x y] is the comparison of c[permutation[j - 1]] with
    c[permutation[j]]. *)
Fixpoint sink (wrong : T -> T -> bool) (c : nat -> T) (j : nat) (permutation : nat -> nat)
    : nat -> nat :=
  match j with
  | O => permutation
  | S j' =>
      if wrong (c (permutation j')) (c (permutation j))
      then sink wrong c j' (swapv permutation j j')
      else permutation
  end.

(** Lines 1600-1625 *)
Definition sort (N : nat) (ord : order) (c : nat -> T) (permutation : nat -> nat)
    : (nat -> T) * (nat -> nat) :=
  let permutation := loop 0 N (fun i permutation => setv permutation i i) permutation in
  match ord with
  | unsorted => (c, permutation)
  | _ =>
      let wrong := match ord with ascending => fun x y => less y x | _ => less end in
      let permutation := loop 1 N (fun i permutation => sink wrong c i permutation) permutation in
      (permute N permutation c, permutation)
  end.

End Sort.
