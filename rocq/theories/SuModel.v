(** Model of the SU(N) matrices: libraries/datatypes/sun_matrix.h (line numbers
    below refer to that file).

    Numbers and matrices are those of LinalgModel and MatrixModel; arithmetic is
    exact, and real numbers are elements of the same type as complex ones.  The
    complex conjugate, the square root and the imaginary unit are arguments. *)
From Coq Require Import List Bool Arith.
From Verif Require Import LinalgModel MatrixModel.

Section Su.
Context (S : scalars) (conj root : num S -> num S) (im_unit : num S) (turn : nat -> num S -> num S).
Notation T := (num S).
Notation mat := (mat S).
Notation vec := (vec S).
Notation "a * b" := (mul S a b).
Notation "a + b" := (add S a b).
Notation "a - b" := (sub S a b).
Notation "a / b" := (div S a b).

(** Division of floating point numbers: the result of a division by zero is not
    a number that could be relied on. *)
Definition quotient (x y : T) : T := if is_zero S y then unassigned S else x / y.

(** Lines 141-148: row r is normalised *)
Definition normalize_row (n r : nat) (M : mat) : mat :=
  let n2 := loop 0 n (fun i n2 => n2 + squarenorm S (M r i)) (zero S) in
  let n2 := quotient (one S) (root n2) in
  loop 0 n (fun i M => set S M r i (M r i * n2)) M.

(** Lines 154-163: row j is made orthogonal to row r *)
Definition orthogonalize_row (n r j : nat) (M : mat) : mat :=
  let d := loop 0 n (fun i d => d + conj (M r i) * M j i) (zero S) in
  loop 0 n (fun i M => set S M j i (M j i - d * M r i)) M.

(** Lines 137-167 make_unitary *)
Definition make_unitary (n : nat) (M : mat) : mat :=
  loop 0 n (fun r M =>
    loop (Nat.succ r) n (fun j M => orthogonalize_row n r j M) (normalize_row n r M)) M.

(** Lines 174-183 fix_det; [turn n d] is the complex number
    (cos(-t), sin(-t)) with t = d.arg() / n.  The loop over the array of all
    elements is written as one over rows and columns. *)
Definition fix_det (n : nat) (M : mat) : mat :=
  let d := det S n M in
  let d := turn n d in
  loop 0 n (fun i M => loop 0 n (fun j M => set S M i j (M i j * d)) M) M.

(** Lines 193-197 *)
Definition reunitarize (n : nat) (M : mat) : mat := fix_det n (make_unitary n M).

(** Complex<T>(re, im) *)
Definition complex (re im : T) : T := re + im_unit * im.

(** Lines 214-221 random for N == 2; [v] is what gaussian_random has put into
    the vector.  norm: matrix.h 1233-1251; operator/= divides all elements. *)
Definition random2 (v : vec) : mat :=
  let nn := root (loop 0 4 (fun i r => r + squarenorm S (v i)) (zero S)) in
  let v := fun i => quotient (v i) nn in
  let M := fun _ _ => unassigned S in
  let M := set S M 0 0 (complex (v 0) (v 3)) in
  let M := set S M 1 1 (complex (v 0) (opp S (v 3))) in
  let M := set S M 0 1 (complex (v 2) (v 1)) in
  set S M 1 0 (complex (opp S (v 2)) (v 1)).

(** Lines 223-242 random for N > 2 (nhits >= 0); [draw k] is the k-th vector of random
    numbers.  The state is the matrix and the number of vectors used. *)
Definition random_hit (n : nat) (draw : nat -> vec) (st : mat * nat) : mat * nat :=
  loop 0 (n - 1) (fun r st => loop (Nat.succ r) n (fun q st =>
    let '(M, k) := st in
    (mult_by_2x2_left S n r q (random2 (draw k)) M, Nat.succ k)) st) st.

Definition random (n nhits : nat) (draw : nat -> vec) : mat :=
  let '(M, _) := loop 1 (Nat.succ nhits) (fun h st =>
      let '(M, k) := random_hit n draw st in
      (if Nat.modulo h 16 =? 0 then reunitarize n M else M, k))
    (of_scalar S n (one S), 0) in
  if Nat.modulo nhits 16 =? 0 then M else reunitarize n M.

End Su.
