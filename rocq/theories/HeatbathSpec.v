(** What is said of the functions and random numbers used by the heat bath. *)
Set Warnings "-notation-overridden,-ambiguous-paths".
From mathcomp Require Import all_ssreflect all_algebra.
Set Implicit Arguments.
Unset Strict Implicit.
Unset Printing Implicit Defensive.
Import GRing.Theory Num.Theory.
Local Open Scope ring_scope.

(** All that is used of log, exp, sin and cos. *)
Definition real_functions (F : numFieldType) (log exp sin cos : F -> F) : Prop :=
  [/\ forall x, 0 < x -> x <= 1 -> log x <= 0,
      forall x y, 0 < x -> x <= y -> y <= 1 -> log x <= log y,
      forall y, y <= 0 -> [/\ 0 < exp y, exp y <= 1 & log (exp y) = y] &
      forall x, x \is Num.real -> [/\ cos x \is Num.real, sin x \is Num.real & cos x ^+ 2 + sin x ^+ 2 = 1]].

(** Random numbers from 0 to 1, without 1. *)
Definition random_numbers (F : numFieldType) (rnd : nat -> F) : Prop := forall k, 0 <= rnd k < 1.

(** The rejection methods.  [chosen al a0 tries used] holds if they end with the
    first component a0 after that many trials, using that many random numbers. *)
Section Sampling.
Variables (F : numFieldType) (log exp sin cos root : F -> F) (pi2 : F) (rnd : nat -> F).

(** Kennedy and Pendleton: trial k takes the random numbers 4 k to 4 k + 3. *)
Definition kp_d (al : F) (k : nat) : F :=
  - (log (1 - rnd (4 * k + 1)) + log (1 - rnd (4 * k)) * cos (pi2 * rnd (4 * k + 2)) ^+ 2) / al.
Definition kp_accepted (al : F) (k : nat) : bool := rnd (4 * k + 3) ^+ 2 < 1 - kp_d al k / 2%:R.

(** Creutz: trial k takes the random numbers 4 + 2 k and 5 + 2 k. *)
Definition creutz_a (al : F) (k : nat) : F :=
  1 + log (exp (- (2%:R * al)) + (1 - exp (- (2%:R * al))) * rnd (4 + 2 * k)) / al.
Definition creutz_accepted (al : F) (k : nat) : bool := rnd (5 + 2 * k) ^+ 2 < 1 - creutz_a al k ^+ 2.

Definition chosen (al a0 : F) (tries used : nat) : Prop :=
  if kp_accepted al 0 then [/\ a0 = 1 - kp_d al 0, tries = 1%N & used = 4%N]
  else if 2%:R < al then
    [/\ kp_accepted al tries, forall i, (0 < i < tries)%N -> ~~ kp_accepted al i, (0 < tries <= 40)%N,
        a0 = 1 - kp_d al tries & used = (4 * tries.+1)%N]
  else
    [/\ creutz_accepted al tries.-1, forall i, (i < tries.-1)%N -> ~~ creutz_accepted al i, (0 < tries <= 40)%N,
        a0 = creutz_a al tries.-1 & used = (4 + 2 * tries)%N].

(** The components a, b and c for a first component d: a point of a sphere with a
    uniform third component and a uniform angle. *)
Definition uniform_c (a0 : F) (p : nat) : F := (2%:R * rnd p - 1) * root (1 - a0 ^+ 2).
Definition uniform_a (a0 : F) (p : nat) : F := root (1 - a0 ^+ 2 - uniform_c a0 p ^+ 2) * cos (pi2 * rnd p.+1).
Definition uniform_b (a0 : F) (p : nat) : F := root (1 - a0 ^+ 2 - uniform_c a0 p ^+ 2) * sin (pi2 * rnd p.+1).
End Sampling.
