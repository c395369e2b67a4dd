(** The exponential series of 2 by 2 complex matrices. *)
From Coq Require Import Reals Arith.
From Verif Require Import LinalgModel Su2Model.
Local Open Scope R_scope.

(** The real numbers as numbers of the model; [f] and [u] are not used here. *)
Definition below (x y : R) : bool := if Rle_dec x y then true else false.
Definition real_scalars (f : R -> R) (u : R) : scalars :=
  mkScalars R 0 1 Rplus Rminus Rmult Rdiv Ropp (fun x => if Req_EM_T x 0 then true else false)
    (fun x y => if Rlt_dec x y then true else false) below (fun x => x * x) Rabs f u.

(** Complex numbers as pairs of real and imaginary part; matrices with entries 11,
    12, 21, 22. *)
Definition cnum : Type := (R * R)%type.
Definition cadd (x y : cnum) : cnum := (fst x + fst y, snd x + snd y).
Definition cmul (x y : cnum) : cnum := (fst x * fst y - snd x * snd y, fst x * snd y + snd x * fst y).
Definition cscale (r : R) (x : cnum) : cnum := (r * fst x, r * snd x).
Record m2 : Type := mkM2 { c11 : cnum; c12 : cnum; c21 : cnum; c22 : cnum }.
Definition madd (A B : m2) : m2 :=
  mkM2 (cadd (c11 A) (c11 B)) (cadd (c12 A) (c12 B)) (cadd (c21 A) (c21 B)) (cadd (c22 A) (c22 B)).
Definition mmul (A B : m2) : m2 :=
  mkM2 (cadd (cmul (c11 A) (c11 B)) (cmul (c12 A) (c21 B))) (cadd (cmul (c11 A) (c12 B)) (cmul (c12 A) (c22 B)))
       (cadd (cmul (c21 A) (c11 B)) (cmul (c22 A) (c21 B))) (cadd (cmul (c21 A) (c12 B)) (cmul (c22 A) (c22 B))).
Definition mscale (r : R) (A : m2) : m2 := mkM2 (cscale r (c11 A)) (cscale r (c12 A)) (cscale r (c21 A)) (cscale r (c22 A)).
Definition mone : m2 := mkM2 (1, 0) (0, 0) (0, 0) (1, 0).

Fixpoint mpow (A : m2) (k : nat) : m2 := match k with O => mone | S k => mmul A (mpow A k) end.

(** 1 + A + A^2 / 2! + .. + A^n / n! *)
Fixpoint exp_sum (A : m2) (n : nat) : m2 :=
  match n with
  | O => mone
  | S k => madd (exp_sum A k) (mscale (/ INR (fact (S k))) (mpow A (S k)))
  end.

Definition ccv (x : nat -> cnum) (l : cnum) : Prop :=
  Un_cv (fun n => fst (x n)) (fst l) /\ Un_cv (fun n => snd (x n)) (snd l).
Definition mcv (x : nat -> m2) (l : m2) : Prop :=
  ccv (fun n => c11 (x n)) (c11 l) /\ ccv (fun n => c12 (x n)) (c12 l) /\
  ccv (fun n => c21 (x n)) (c21 l) /\ ccv (fun n => c22 (x n)) (c22 l).

(** B is exp(A). *)
Definition is_exp (A B : m2) : Prop := mcv (exp_sum A) B.

(** d + i (a s1 + b s2 + c s3) and (i / 2) (a s1 + b s2 + c s3), with the Pauli
    matrices s1, s2 and s3. *)
Definition group_matrix (a b c d : R) : m2 := mkM2 (d, c) (b, a) (- b, a) (d, - c).
Definition algebra_matrix (a b c : R) : m2 := mkM2 (0, c / 2) (b / 2, a / 2) (- (b / 2), a / 2) (0, - (c / 2)).

Section Spec.
Context (f : R -> R) (u : R).
Notation RS := (real_scalars f u).
Definition matrix_of (q : su2 RS) : m2 := group_matrix (qa RS q) (qb RS q) (qc RS q) (qd RS q).
Definition algebra_of (e : su2_algebra RS) : m2 := algebra_matrix (ea RS e) (eb RS e) (ec RS e).
(** The distance from the origin. *)
Definition length_of (e : su2_algebra RS) : R := sqrt (ea RS e * ea RS e + eb RS e * eb RS e + ec RS e * ec RS e).
Definition in_su2 (q : su2 RS) : Prop :=
  qa RS q * qa RS q + qb RS q * qb RS q + qc RS q * qc RS q + qd RS q * qd RS q = 1.
End Spec.
