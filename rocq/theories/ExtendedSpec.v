(** Specification of ExtendedPrecision. *)
From Verif Require Import Common ExtendedModel.
Open Scope Z_scope.

(** Numbers with at most [p] significant bits. *)
Definition fits (p n : Z) : Prop := exists m e, 0 <= e /\ Z.abs m < 2 ^ p /\ n = m * 2 ^ e.

(** A finite double, in units of 2^-1074, and a double nearest to a number. *)
Definition is_double (n : Z) : Prop := fits 53 n /\ Z.abs n < 2 ^ 2098.
Definition nearest_double (n r : Z) : Prop := is_double r /\ forall g, is_double g -> Z.abs (r - n) <= Z.abs (g - n).

Definition doubles (x : ep) : Prop := is_double (value x) /\ is_double (compensation x) /\ is_double (compensation2 x).

(** The number held by a variable. *)
Definition total (x : ep) : Z := value x + compensation x + compensation2 x.
Definition magnitude (x : ep) : Z := Z.abs (value x) + Z.abs (compensation x) + Z.abs (compensation2 x).
Definition multiple (k : Z) (x : ep) : ep := mkEp (k * value x) (k * compensation x) (k * compensation2 x).

Definition abs_sum (l : list Z) : Z := zsum (map Z.abs l).

(** All parts are multiples of 2^u. *)
Definition grain (u : Z) (x : ep) : Prop :=
  (2 ^ u | value x) /\ (2 ^ u | compensation x) /\ (2 ^ u | compensation2 x).

(** Room for [n] additions of numbers with sum of magnitudes [s] to a variable: all bits
    down to 2^u can be kept (159 bits in all). *)
Definition room (u n s : Z) (x : ep) : Prop :=
  2 ^ 106 * Z.abs (compensation2 x) + n * (2 ^ 53 * Z.abs (compensation x) + 2 * n * (Z.abs (value x) + 2 * s)) <= 2 ^ (159 + u).

(** Far from overflow. *)
Definition moderate (s : Z) (x : ep) : Prop := magnitude x + 2 * s <= 2 ^ 2096.

(** The odd part of [k]. *)
Definition odd_part (k o : Z) : Prop := Z.odd o = true /\ exists j, 0 <= j /\ k = o * 2 ^ j.

(** Largest odd factor for which the doubling test of the multiplication stays in range:
    2^(bits-2) for signed types, 2^(bits-1) for unsigned ones. *)
Definition limit (t : int_type) : Z := if is_signed t then 2 ^ (bits t - 2) else 2 ^ (bits t - 1).
