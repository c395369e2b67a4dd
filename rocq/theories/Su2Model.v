(** Model of the class SU2 and its algebra: libraries/datatypes/su2.h (line
    numbers below refer to that file).

    The components are numbers of LinalgModel with exact arithmetic.  sqrt, exp,
    sin, cos and acos are arguments. *)
From Coq Require Import List Bool Arith.
From Verif Require Import LinalgModel MatrixModel SuModel AlgebraModel.

Section Su2.
Context (S : scalars) (re im root exp sin cos acos : num S -> num S) (im_unit : num S).
Notation T := (num S).
Notation "a * b" := (mul S a b).
Notation "a + b" := (add S a b).
Notation "a - b" := (sub S a b).
Notation "a / b" := (div S a b).
Notation "- a" := (opp S a).
Notation complex := (complex S im_unit).
Notation half := (half S).
Notation two := (of_nat S 2).

(** Lines 14-18 SU2: T a, b, c, d *)
Record su2 := mkSu2 { qa : T; qb : T; qc : T; qd : T }.

(** Lines 28-35: construct from a number *)
Definition su2_scalar (z : T) : su2 := mkSu2 (zero S) (zero S) (zero S) z.
(** Lines 63-71 dagger *)
Definition su2_dagger (q : su2) : su2 := mkSu2 (- qa q) (- qb q) (- qc q) (qd q).
(** Lines 78-86 trace, det, squarenorm *)
Definition su2_trace (q : su2) : T := two * qd q.
Definition su2_det (q : su2) : T := qa q * qa q + qb q * qb q + qc q * qc q + qd q * qd q.
Definition su2_squarenorm (q : su2) : T := su2_det q.
(** Lines 90-98 unary - *)
Definition su2_opp (q : su2) : su2 := mkSu2 (- qa q) (- qb q) (- qc q) (- qd q).
(** Lines 46-57 normalize; 59-62 reunitarize *)
Definition su2_normalize (q : su2) : su2 :=
  let len := root (su2_det q) in mkSu2 (qa q / len) (qb q / len) (qc q / len) (qd q / len).
Definition su2_reunitarize (q : su2) : su2 := su2_normalize q.

(** Lines 284-345: the operators *)
Definition su2_add (x y : su2) : su2 := mkSu2 (qa x + qa y) (qb x + qb y) (qc x + qc y) (qd x + qd y).
Definition su2_add_scalar (x : su2) (r : T) : su2 := mkSu2 (qa x) (qb x) (qc x) (qd x + r).
Definition su2_sub (x y : su2) : su2 := mkSu2 (qa x - qa y) (qb x - qb y) (qc x - qc y) (qd x - qd y).
Definition su2_sub_scalar (x : su2) (r : T) : su2 := mkSu2 (qa x) (qb x) (qc x) (qd x - r).
Definition su2_scalar_sub (r : T) (x : su2) : su2 := su2_add_scalar (su2_opp x) r.
Definition su2_mul (x y : su2) : su2 := mkSu2
  (qd x * qa y + qa x * qd y - qb x * qc y + qc x * qb y)
  (qd x * qb y + qb x * qd y - qc x * qa y + qa x * qc y)
  (qd x * qc y + qc x * qd y - qa x * qb y + qb x * qa y)
  (qd x * qd y - qa x * qa y - qb x * qb y - qc x * qc y).
(** Lines 346-351 mul_trace *)
Definition su2_mul_trace (x y : su2) : T :=
  two * (qd x * qd y - qa x * qa y - qb x * qb y - qc x * qc y).
(** Lines 360-392: times and divided by a number *)
Definition su2_scale (x : su2) (y : T) : su2 := mkSu2 (qa x * y) (qb x * y) (qc x * y) (qd x * y).
Definition su2_div (x : su2) (y : T) : su2 := mkSu2 (qa x / y) (qb x / y) (qc x / y) (qd x / y).

(** Lines 274-281 convert_to_2x2_matrix *)
Definition su2_matrix (q : su2) : mat S :=
  let res : mat S := fun _ _ => unassigned S in
  let res := set S res 0 0 (complex (qd q) (qc q)) in
  let res := set S res 0 1 (complex (qb q) (qa q)) in
  let res := set S res 1 0 (complex (- qb q) (qa q)) in
  set S res 1 1 (complex (qd q) (- qc q)).

(** Lines 422-432 project_from_matrix *)
Definition project_from_matrix (m : mat S) (i j : nat) : su2 := mkSu2
  ((im (m i j) + im (m j i)) * half) ((re (m i j) - re (m j i)) * half)
  ((im (m i i) - im (m j j)) * half) ((re (m i i) + re (m j j)) * half).

(** Lines 447-452 Algebra<SU2>: T a, b, c *)
Record su2_algebra := mkAlg { ea : T; eb : T; ec : T }.

(** Lines 218-234 project_to_algebra and project_to_algebra_scaled; 628-637 operator* *)
Definition alg_scale (y : T) (x : su2_algebra) : su2_algebra := mkAlg (ea x * y) (eb x * y) (ec x * y).
Definition su2_project (q : su2) : su2_algebra := alg_scale two (mkAlg (qa q) (qb q) (qc q)).
Definition su2_project_scaled (scf : T) (q : su2) : su2_algebra :=
  alg_scale (scf * two) (mkAlg (qa q) (qb q) (qc q)).
(** Lines 547-550 squarenorm, 593-596 dot, 675-679 su2_algebra_dot *)
Definition alg_squarenorm (e : su2_algebra) : T := ea e * ea e + eb e * eb e + ec e * ec e.
Definition alg_dot (x y : su2_algebra) : T := ea x * ea y + eb x * eb y + ec x * ec y.
(** Lines 555-563 expand *)
Definition alg_expand (e : su2_algebra) : su2 := su2_scale (mkSu2 (ea e) (eb e) (ec e) (zero S)) half.

(** Lines 649-660 right_conjugation, 662-673 left_conjugation *)
Definition su2_right (U : su2) (E : su2_algebra) : su2_algebra :=
  let t1 := two * qd U in
  let t3 := t1 * qd U - one S in
  let t2 := two * (ea E * qa U + eb E * qb U + ec E * qc U) in
  mkAlg (ea E * t3 + qa U * t2 - t1 * (eb E * qc U - ec E * qb U))
        (eb E * t3 + qb U * t2 - t1 * (ec E * qa U - ea E * qc U))
        (ec E * t3 + qc U * t2 - t1 * (ea E * qb U - eb E * qa U)).
Definition su2_left (U : su2) (E : su2_algebra) : su2_algebra :=
  let t1 := two * qd U in
  let t3 := t1 * qd U - one S in
  let t2 := two * (ea E * qa U + eb E * qb U + ec E * qc U) in
  mkAlg (ea E * t3 + qa U * t2 + t1 * (eb E * qc U - ec E * qb U))
        (eb E * t3 + qb U * t2 + t1 * (ec E * qa U - ea E * qc U))
        (ec E * t3 + qc U * t2 + t1 * (ea E * qb U - eb E * qa U)).

(** Lines 564-582 Algebra::exp *)
Definition alg_exp (e : su2_algebra) : su2 :=
  let tmp := alg_scale half e in
  let r := root (alg_squarenorm tmp) in
  if leq S r (zero S) then su2_scalar (one S)
  else
    let sr := sin r / r in
    mkSu2 (sr * ea tmp) (sr * eb tmp) (sr * ec tmp) (cos r).

(** Lines 235-253 SU2::exp.  [ret] is what the memory of the result holds before:
    lines 249-251 multiply its components instead of assigning them. *)
Definition su2_exp (ret : su2) (q : su2) : su2 :=
  let r := root (qa q * qa q + qb q * qb q + qc q * qc q) in
  if leq S r (zero S) then su2_scalar (exp (qd q))
  else
    let ed := exp (qd q) in
    let sr := ed * sin r / r in
    mkSu2 (qa ret * sr) (qb ret * sr) (qc ret * sr) (ed * cos r).

(** Lines 255-272 log *)
Definition su2_log (q : su2) : su2_algebra :=
  let r := root (qa q * qa q + qb q * qb q + qc q * qc q) in
  if leq S r (zero S) then mkAlg (zero S) (zero S) (zero S)
  else
    let r := acos (qd q) / r in
    mkAlg (two * r * qa q) (two * r * qb q) (two * r * qc q).

(** Lines 195-217 random and gaussian_random; the four numbers drawn are [w] *)
Definition su2_gaussian (width : T) (w : nat -> T) : su2 :=
  mkSu2 (width * w 0) (width * w 1) (width * w 2) (width * w 3).
Definition su2_random (width : T) (w : nat -> T) : su2 := su2_normalize (su2_gaussian width w).

End Su2.
