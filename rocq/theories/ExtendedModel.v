(** Model of ExtendedPrecision.  Line numbers: /repo/libraries/datatypes/extended.h and
    extended.cpp (marked cpp).

    A finite double is the integer that gives its value in units of 2^-1074, the
    smallest positive double; the two signs of zero are not distinguished.  The exact
    sum and product of doubles by integers are integers as well, so that rounding to
    nearest, ties to even, is a function on integers. *)
From Verif Require Import Common.
Open Scope Z_scope.

(** ** Doubles *)

(** Rounding of [N] >= 0 to [p] significant bits. *)
Definition round_abs (p N : Z) : Z :=
  if N <? 2 ^ p then N
  else
    let s := Z.log2 N - (p - 1) in
    let q := N / 2 ^ s in
    let r := N mod 2 ^ s in
    let up := if 2 * r =? 2 ^ s then Z.odd q else 2 ^ s <? 2 * r in
    (if up then q + 1 else q) * 2 ^ s.

Definition round_to (p n : Z) : Z := if n <? 0 then - round_abs p (- n) else round_abs p n.

(** 2^1024 in units of 2^-1074: results from here on are infinite. *)
Definition overflow_at : Z := 2 ^ 2098.

(** Value of a floating point operation with exact result [n]; [None]: infinite. *)
Definition rounded (n : Z) : option Z :=
  let s := round_to 53 n in if Z.abs s <? overflow_at then Some s else None.

Definition fadd (a b : Z) : option Z := rounded (a + b).
Definition fsub (a b : Z) : option Z := rounded (a - b).
Definition fmul (a k : Z) : option Z := rounded (a * k).      (* k: an integer that is a double *)

Definition bind {A B : Type} (o : option A) (f : A -> option B) : option B :=
  match o with Some a => f a | None => None end.
Notation "'do' x <- a ; b" := (bind a (fun x => b)) (at level 200, x name, a at level 100, b at level 200).

(** ** The class, 47-63 *)
Record ep : Type := mkEp { value : Z; compensation : Z; compensation2 : Z }.

Definition of_double (v : Z) : ep := mkEp v 0 0.

(** One half of cpp 12-32: sum and rounding error of two doubles. *)
Definition two_sum (a b : Z) : option (Z * Z) :=
  do t <- fadd a b;
  do c <- (if Z.abs b <=? Z.abs a then do d <- fsub a t; fadd d b
           else do d <- fsub b t; fadd d a);
  Some (t, c).

(** cpp 12-32: operator+=(double). *)
Definition add_double (x : ep) (rhs : Z) : option ep :=
  do tc <- two_sum (value x) rhs;
  do tcc <- two_sum (compensation x) (snd tc);
  do c2 <- fadd (compensation2 x) (snd tcc);
  Some (mkEp (fst tc) (fst tcc) c2).

(** 110-115: operator+=(ExtendedPrecision), the argument is a copy. *)
Definition add_ep (x rhs : ep) : option ep :=
  do x1 <- add_double x (compensation2 rhs);
  do x2 <- add_double x1 (compensation rhs);
  add_double x2 (value rhs).

(** 84-86, 117-119, 230-235 with an ExtendedPrecision on both sides. *)
Definition neg_ep (x : ep) : ep := mkEp (- value x) (- compensation x) (- compensation2 x).
Definition sub_ep (a b : ep) : option ep := add_ep a (neg_ep b).

(** A sum of doubles, as in a reduction: s = 0; s += d for every d. *)
Fixpoint add_list (x : ep) (l : list Z) : option ep :=
  match l with
  | [] => Some x
  | d :: l' => do x' <- add_double x d; add_list x' l'
  end.

(** 183-189 *)
Definition to_double (x : ep) : option Z :=
  do s <- fadd (value x) (compensation x); fadd s (compensation2 x).

(** 260-289: comparisons of two ExtendedPrecision. *)
Definition equal (a b : ep) : option bool := do d <- sub_ep a b; do t <- to_double d; Some (t =? 0).
Definition greater (a b : ep) : option bool := do d <- sub_ep a b; do t <- to_double d; Some (0 <? t).
Definition less (a b : ep) : option bool := do d <- sub_ep a b; do t <- to_double d; Some (t <? 0).

(** ** Multiplication by an integer, 126-172.  The integer types are those of at least
    the rank of int: [bits] and signedness. *)
Record int_type : Type := mkInt { bits : Z; is_signed : bool }.

Definition int_min (t : int_type) : Z := if is_signed t then - 2 ^ (bits t - 1) else 0.
Definition int_max (t : int_type) : Z := if is_signed t then 2 ^ (bits t - 1) - 1 else 2 ^ bits t - 1.

(** An arithmetic result: [None] is signed overflow (undefined); unsigned types wrap. *)
Definition arith (t : int_type) (z : Z) : option Z :=
  if is_signed t then (if (int_min t <=? z) && (z <=? int_max t) then Some z else None) else Some (z mod 2 ^ bits t).

Inductive outcome : Type :=
  | Done (x : ep)
  | Overflow            (* signed integer overflow *)
  | Infinite            (* a double became infinite *)
  | OutOfFuel.          (* the loop did not end *)

(** 137-141: while (rhs % 2 == 0) { rhs /= 2; mult *= 2; } *)
Fixpoint halve (fuel : nat) (t : int_type) (rhs mult : Z) : option (option (Z * Z)) :=
  match fuel with
  | O => None
  | S f => if rhs mod 2 =? 0 then match arith t (mult * 2) with Some m => halve f t (rhs / 2) m | None => Some None end
           else Some (Some (rhs, mult))
  end.

(** 152-155: while (2 * mult < rhs) mult *= 2; *)
Fixpoint largest (fuel : nat) (t : int_type) (rhs mult : Z) : option (option Z) :=
  match fuel with
  | O => None
  | S f => match arith t (2 * mult) with
           | None => Some None
           | Some m2 => if m2 <? rhs then match arith t (mult * 2) with Some m => largest f t rhs m | None => Some None end
                        else Some (Some mult)
           end
  end.

Definition scale (x : ep) (mult : Z) : option ep :=
  do v <- fmul (value x) mult; do c <- fmul (compensation x) mult; do c2 <- fmul (compensation2 x) mult; Some (mkEp v c c2).

(** 151-165: the loop over the powers of two. *)
Fixpoint add_multiples (fuel : nat) (t : int_type) (a this : ep) (rhs : Z) : outcome :=
  match fuel with
  | O => OutOfFuel
  | S f =>
      if 1 <? rhs then
        match largest fuel t rhs 1 with
        | None => OutOfFuel
        | Some None => Overflow
        | Some (Some mult) =>
            match scale a mult with
            | None => Infinite
            | Some b => match add_ep this b with
                        | None => Infinite
                        | Some this' => match arith t (rhs - mult) with
                                        | None => Overflow
                                        | Some rhs' => add_multiples f t a this' rhs'
                                        end
                        end
            end
        end
      else Done this
  end.

Definition times (fuel : nat) (t : int_type) (x : ep) (rhs : Z) : outcome :=
  if rhs =? 0 then Done (mkEp 0 0 0)
  else
    let negative := is_signed t && (rhs <? 0) in
    match (if negative then arith t (- rhs) else Some rhs) with
    | None => Overflow
    | Some rhs =>
        match halve fuel t rhs 1 with
        | None => OutOfFuel
        | Some None => Overflow
        | Some (Some (rhs, mult)) =>
            match scale x mult with
            | None => Infinite
            | Some a => match add_multiples fuel t a a rhs with
                        | Done y => Done (if negative then neg_ep y else y)
                        | o => o
                        end
            end
        end
    end.

(** 121-124 and 230-235 with an integer on the right: the minus sign is applied in the
    type of the argument. *)
Definition sub_int (t : int_type) (x : ep) (b : Z) : outcome :=
  match arith t (- b) with
  | None => Overflow
  | Some nb => match bind (rounded (nb * 2 ^ 1074)) (add_double x) with Some y => Done y | None => Infinite end
  end.
