(** Model of the third form of project_to_algebra_bilinear:
    libraries/datatypes/sun_matrix.h (line numbers refer to that file).  The
    other two, and the lists of generators, are in AlgebraModel. *)
From Coq Require Import List Bool Arith.
From Verif Require Import LinalgModel MatrixModel SuModel AlgebraModel.
Import ListNotations.

Section Bilinear.
Context (S : scalars) (re : num S -> num S).
Notation "a * b" := (mul S a b).
Notation "a + b" := (add S a b).

(** Lines 703-725 project_to_algebra_bilinear(w, omat, genlist); w is an array of
    N times N matrices. *)
Definition bilinear_array (n : nat) (w : nat -> nat -> mat S) (gens : nat -> sparse S) (omat : mat S) : mat S :=
  let na := Nat.sub (Nat.mul n n) 1 in
  loop 0 na (fun i1 omat => loop 0 na (fun i2 omat =>
    let temp := fold_left (fun temp e1 => let '(a1, a2, v1) := e1 in
      fold_left (fun temp e2 => let '(b1, b2, v2) := e2 in
        temp + re (v1 * w b1 b2 a2 a1 * v2)) (gens i2) temp) (gens i1) (zero S) in
    set S omat i1 i2 (opp S (int S 2) * temp)) omat) omat.

End Bilinear.
