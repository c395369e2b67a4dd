(** Model of matrix arithmetic, libraries/datatypes/matrix.h (line numbers
    below refer to that file).  A matrix is a function of row and column, as in
    LinalgModel, from which numbers and loops are taken; [cj] is the complex
    conjugate (the identity for real types).  A fresh matrix has the value
    [unassigned] everywhere.

    Where a function writes to a matrix given by reference, its other arguments
    may be the same object.  They are therefore given as functions of the
    current value of the written matrix: [fun _ => a] for a different object
    [a], the identity for the same object. *)
From Coq Require Import List Bool Arith ZArith NArith.
From Verif Require Import LinalgModel.
Import ListNotations.

Section Matrix.
Context (S : scalars) (cj : num S -> num S).
Notation T := (num S).
Notation mat := (mat S).
Notation vec := (vec S).
Notation "a * b" := (mul S a b).
Notation "a + b" := (add S a b).
Notation "a - b" := (sub S a b).
Notation "a / b" := (div S a b).

Definition fresh : mat := fun _ _ => unassigned S.

(** Conversion of an integer to a number. *)
Fixpoint of_nat (k : nat) : T := match k with O => zero S | Datatypes.S k => of_nat k + one S end.

(** Lines 2544-2559 and 2599-2615: matrix * matrix (n x p times p x m). *)
Definition op_mul (n p m : nat) (a b : mat) : mat :=
  loop 0 n (fun i res => loop 0 m (fun j res =>
    loop 1 p (fun k res => set S res i j (res i j + a i k * b k j))
      (set S res i j (a i 0 * b 0 j))) res) fresh.

(** Lines 2616-2624 and 2625-2633: matrix * vector and vector * matrix; the
    vector is stored as a column or row, here a function of one index. *)
Definition mat_vec (n p : nat) (a : mat) (b : vec) : vec :=
  loop 0 n (fun i res => loop 1 p (fun k res => setv res i (res i + a i k * b k)) (setv res i (a i 0 * b 0)))
    (fun _ => unassigned S).
Definition vec_mat (p m : nat) (a : vec) (b : mat) : vec :=
  loop 0 m (fun j res => loop 1 p (fun k res => setv res j (res j + a k * b k j)) (setv res j (a 0 * b 0 j)))
    (fun _ => unassigned S).

(** Lines 2661-2671: row vector * vector. *)
Definition vec_vec (m : nat) (a b : vec) : T := loop 1 m (fun i r => r + a i * b i) (a 0 * b 0).

(** Lines 1063-1072 transpose, 1118-1126 dagger. *)
Definition transpose (n m : nat) (a : mat) : mat :=
  loop 0 n (fun i res => loop 0 m (fun j res => set S res j i (a i j)) res) fresh.
Definition dagger (n m : nat) (a : mat) : mat :=
  loop 0 n (fun i res => loop 0 m (fun j res => set S res j i (cj (a i j))) res) fresh.

(** Lines 1195-1202 trace, 1216-1227 mul_trace. *)
Definition trace (n : nat) (a : mat) : T := loop 0 n (fun i r => r + a i i) (zero S).
Definition mul_trace (n m : nat) (a b : mat) : T :=
  loop 0 n (fun i r => loop 0 m (fun j r => r + a i j * b j i) r) (zero S).

(** Lines 1395-1405 dot, 1438-1449 outer_product. *)
Definition dot (n : nat) (a b : vec) : T := loop 0 n (fun i r => r + cj (a i) * b i) (zero S).
Definition outer_product (n p : nat) (a b : vec) : mat :=
  loop 0 n (fun i res => loop 0 p (fun j res => set S res i j (a i * cj (b j))) res) fresh.

(** Lines 2797-2814 mult(a,b,res), 2826-2843 mult_aa: n x l times l x m. *)
Definition mult (n m l : nat) (a b : mat -> mat) (res : mat) : mat :=
  loop 0 n (fun i res => loop 0 m (fun j res =>
    loop 1 l (fun k res => set S res i j (res i j + a res i k * b res k j))
      (set S res i j (a res i 0 * b res 0 j))) res) res.
Definition mult_aa (n m l : nat) (a b : mat -> mat) (res : mat) : mat :=
  loop 0 n (fun i res => loop 0 m (fun j res =>
    loop 1 l (fun k res => set S res j i (res j i + cj (a res i k * b res k j)))
      (set S res j i (cj (a res i 0 * b res 0 j)))) res) res.

(** Lines 2907-2923 mult_add, 2988-3004 mult_sub. *)
Definition mult_add (n m l : nat) (a b : mat -> mat) (res : mat) : mat :=
  loop 0 n (fun i res => loop 0 m (fun j res =>
    loop 0 l (fun k res => set S res i j (res i j + a res i k * b res k j)) res) res) res.
Definition mult_sub (n m l : nat) (a b : mat -> mat) (res : mat) : mat :=
  loop 0 n (fun i res => loop 0 m (fun j res =>
    loop 0 l (fun k res => set S res i j (res i j - a res i k * b res k j)) res) res) res.

(** Lines 2857-2868 and 2883-2894 (scalar arguments are references, too). *)
Definition mult_scalar (n m : nat) (a : mat -> mat) (b : mat -> T) (res : mat) : mat :=
  loop 0 n (fun i res => loop 0 m (fun j res => set S res i j (a res i j * b res)) res) res.
(** Lines 2937-2948 and 2963-2974. *)
Definition mult_add_scalar (n m : nat) (a : mat -> mat) (b : mat -> T) (res : mat) : mat :=
  loop 0 n (fun i res => loop 0 m (fun j res => set S res i j (res i j + a res i j * b res)) res) res.

(** Lines 813-821 operator+= scalar (by reference), 839-846 operator-= (by
    value), 921-927 operator*= scalar (by value), 869-875 operator*= matrix. *)
Definition add_scalar (n : nat) (rhs : mat -> T) (M : mat) : mat :=
  loop 0 n (fun i M => set S M i i (M i i + rhs M)) M.
Definition sub_scalar (n : nat) (rhs : T) (M : mat) : mat :=
  loop 0 n (fun i M => set S M i i (M i i - rhs)) M.
Definition scale (n m : nat) (rhs : T) (M : mat) : mat :=
  loop 0 n (fun i M => loop 0 m (fun j M => set S M i j (M i j * rhs)) M) M.
Definition mul_assign (n : nat) (rhs : mat -> mat) (M : mat) : mat := op_mul n n n M (rhs M).

(** operator+= matrix, lines 764-769; the loop over the array of all elements
    is written as one over rows and columns (also in [scale]). *)
Definition add_assign (n m : nat) (rhs : mat) (M : mat) : mat :=
  loop 0 n (fun i M => loop 0 m (fun j M => set S M i j (M i j + rhs i j)) M) M.

(** Lines 682-697: assignment of a scalar to a square matrix. *)
Definition of_scalar (n : nat) (x : T) : mat :=
  loop 0 n (fun i res => loop 0 n (fun j res => set S res i j (if i =? j then x else zero S)) res) fresh.

(** Lines 1676-1690 mult_by_2x2_left, 1705-1719 mult_by_2x2_right. *)
Definition mult_by_2x2_left (m p q : nat) (M B : mat) : mat :=
  loop 0 m (fun i B =>
    let a := mat_vec 2 2 M (setv (setv (fun _ => unassigned S) 0 (B p i)) 1 (B q i)) in
    set S (set S B p i (a 0)) q i (a 1)) B.
Definition mult_by_2x2_right (n p q : nat) (M B : mat) : mat :=
  loop 0 n (fun i B =>
    let a := vec_mat 2 2 (setv (setv (fun _ => unassigned S) 0 (B i p)) 1 (B i q)) M in
    set S (set S B i p (a 0)) i q (a 1)) B.

(** Lines 1529-1534 permute_columns, 1543-1548 permute_rows (with set_column
    448-452, set_row 400-404). *)
Definition permute_columns (n m : nat) (perm : nat -> nat) (M : mat) : mat :=
  loop 0 m (fun i res => loop 0 n (fun k res => set S res k i (M k (perm i))) res) fresh.
Definition permute_rows (n m : nat) (perm : nat -> nat) (M : mat) : mat :=
  loop 0 n (fun i res => loop 0 m (fun k res => set S res i k (M (perm i) k)) res) fresh.

(** Lines 3246-3269 pow: the exponent is converted to uint32_t; the loop halves
    it, so 32 turns are enough. *)
Fixpoint pow_loop (fuel : nat) (n : nat) (p : N) (res p2 : mat) : option mat :=
  match fuel with
  | O => None
  | Datatypes.S k =>
      if N.eqb p 0 then Some res
      else
        let p2 := op_mul n n n p2 p2 in
        let res := if N.odd p then op_mul n n n res p2 else res in
        pow_loop k n (N.div p 2) res p2
  end.
Definition pow (n : nat) (a : mat) (p : Z) : option mat :=
  let p := Z.to_N (p mod 2 ^ 32)%Z in
  let res := if N.odd p then a else of_scalar n (one S) in
  pow_loop 33 n (N.div p 2) res a.

(** Lines 3289-3308 exp. *)
Definition exp (n : nat) (a : mat) (order : nat) : mat :=
  if 0 <? order then
    let r := fold_left (fun r k =>
        mul_assign n (fun _ => a) (add_scalar n (fun _ => one S) (scale n n (one S / of_nat k) r)))
      (rev (seq 2 (order - 1))) a in
    add_scalar n (fun _ => one S) r
  else of_scalar n (one S).

(** Lines 1233-1239: squarenorm of a matrix. *)
Definition mat_squarenorm (n m : nat) (a : mat) : T :=
  loop 0 n (fun i r => loop 0 m (fun j r => r + squarenorm S (a i j)) r) (zero S).

(** Lines 3322-3344 altexp: the result and niter.  [same] is the comparison ==
    of the squared norms (an argument, as it is of rounded numbers); [count] is
    the number of turns left. *)
Fixpoint altexp_loop (same : T -> T -> bool) (n : nat) (a : mat) (count k : nat)
    (r mpow : mat) (rsqnorm : T) : mat * nat :=
  match count with
  | O => (r, 1)
  | Datatypes.S count =>
      let mpow := mul_assign n (fun _ => a) mpow in
      let mpow := scale n n (one S / of_nat k) mpow in
      let r := add_assign n n mpow r in
      let orsqnorm := rsqnorm in
      let rsqnorm := mat_squarenorm n n r in
      if same rsqnorm orsqnorm then (r, k)
      else altexp_loop same n a count (Nat.succ k) r mpow rsqnorm
  end.
Definition altexp (same : T -> T -> bool) (n : nat) (a : mat) : mat * nat :=
  let r := add_scalar n (fun _ => one S) a in
  altexp_loop same n a (Nat.sub (Nat.mul n 15) 2) 2 r a (mat_squarenorm n n r).

(** Lines 3389-3417 mult_exp: the pair (r, dr), which are taken to be objects
    different from the arguments and from each other. *)
Definition mult_exp (n : nat) (a mm : mat) (order : nat) : mat * mat :=
  if 0 <? order then
    let '(r, dr) := fold_left (fun st k =>
        let '(r, dr) := st in
        let r := add_scalar n (fun _ => one S) (scale n n (one S / of_nat k) r) in
        let dr := mul_assign n (fun _ => a) dr in
        let dr := scale n n (one S / of_nat k) dr in
        let dr := add_assign n n (op_mul n n n r mm) dr in
        let r := mul_assign n (fun _ => a) r in
        (r, dr)) (rev (seq 2 (order - 1))) (a, mm) in
    let r := add_scalar n (fun _ => one S) r in
    (op_mul n n n mm r, dr)
  else (mm, of_scalar n (zero S)).

End Matrix.
