(** Model of the table of the Levi-Civita symbol
    (libraries/tools/levi_civita.h).  An access outside the array is [None].
    The integers are small: no overflow is modelled, except that the number of
    rows N! must itself be an [int] constant (13! is not). *)
From Coq Require Import ZArith List Arith.
From Verif Require Import RandomModel.
Import ListNotations.
Open Scope nat_scope.

(** levi_civita.h 48-52: exchange of two places of one row, whose last place
    holds the sign, 53-54: change of sign. *)
Definition exchange (n i t : nat) (a : list Z) : option (list Z) :=
  match nth_error a i, nth_error a t with
  | Some x, Some y =>
    let a := put t x (put i y a) in
    match nth_error a n with
    | Some s => Some (put n (- s)%Z a)
    | None => None
    end
  | _, _ => None
  end.

(** levi_civita.h 45-56: the loop over i < N-1, [ds] being the rest of ind. *)
Fixpoint permute (n i : nat) (ds : list nat) (a : list Z) : option (list Z) :=
  match ds with
  | [] => Some a
  | d :: ds' =>
    match (if Nat.eqb d 0 then Some a else exchange n i (i + d) a) with
    | Some a' => permute n (S i) ds' a'
    | None => None
    end
  end.

(** levi_civita.h 31-37 and 41-43. *)
Definition first_row (n : nat) : list Z := map Z.of_nat (seq 0 n) ++ [1%Z].

Definition row (n : nat) (ind : list nat) : option (list Z) :=
  permute n 0 (firstn (n - 1) ind) (first_row n).

(** levi_civita.h 60-65: the loop i = N-1, ..., 1. *)
Fixpoint carry (n : nat) (i : nat) (ind : list nat) : option (list nat) :=
  match i with
  | O => Some ind
  | S i' =>
    match nth_error ind i, nth_error ind i' with
    | Some x, Some y =>
      carry n i' (if Nat.ltb (n - 1 - i) x then put i' (S y) (put i 0 ind) else ind)
    | _, _ => None
    end
  end.

(** levi_civita.h 58-65. *)
Definition next (n : nat) (ind : list nat) : option (list nat) :=
  match n with
  | O => None                       (* ++ind[-1] *)
  | S m =>
    match nth_error ind m with
    | Some x => carry n m (put m (S x) ind)
    | None => None
    end
  end.

(** levi_civita.h 40-66: [count] further rows. *)
Fixpoint rows (n count : nat) (ind : list nat) : option (list (list Z)) :=
  match count with
  | O => Some []
  | S c =>
    match row n ind, next n ind with
    | Some r, Some ind' =>
      match rows n c ind' with
      | Some l => Some (r :: l)
      | None => None
      end
    | _, _ => None
    end
  end.

(** levi_civita.h 30-68, Factorial in 7-15. *)
Definition table (n : nat) : option (list (list Z)) := rows n (fact n) (repeat 0 n).
