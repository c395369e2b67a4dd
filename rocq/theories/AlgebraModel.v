(** Model of the Lie algebra of SU(N): libraries/datatypes/sun_matrix.h (line
    numbers below refer to that file).

    Numbers and matrices are those of LinalgModel and MatrixModel; arithmetic is
    exact, and real numbers are elements of the same type as complex ones.  The
    complex conjugate, real and imaginary part, the square root and the imaginary
    unit are arguments.  An Algebra<SU<N>> is a vector of N * N - 1 numbers, a
    function of the index. *)
From Coq Require Import List Bool Arith.
From Verif Require Import LinalgModel MatrixModel SuModel.
Import ListNotations.

Section Algebra.
Context (S : scalars) (conj re im root : num S -> num S) (im_unit : num S).
Notation T := (num S).
Notation mat := (mat S).
Notation vec := (vec S).
Notation "a * b" := (mul S a b).
Notation "a + b" := (add S a b).
Notation "a - b" := (sub S a b).
Notation "a / b" := (div S a b).
Notation quotient := (quotient S).
Notation complex := (complex S im_unit).

Definition half : T := one S / of_nat S 2.
Definition int (i : nat) : T := of_nat S i.

(** Lines 281-306 project_to_algebra.  First the diagonal generators: the
    vector and the sum of the imaginary parts. *)
Definition project_diag (n : nat) (A : mat) (a : vec) : vec * T :=
  loop 1 n (fun i st =>
    let '(a, sum) := st in
    let a := setv a (i - 1) (quotient (sum - int i * im (A i i)) (root (half * int i * int (i + 1)))) in
    (a, sum + im (A i i)))
  (a, im (A 0 0)).

(** Lines 294-304: the others, two for each pair i < j *)
Definition project_offdiag (n : nat) (A : mat) (a : vec) : vec * nat :=
  loop 0 (n - 1) (fun i st => loop (Nat.succ i) n (fun j st =>
    let '(a, k) := st in
    let od := A i j - conj (A j i) in
    let a := setv a k (re od) in
    let a := setv a (Nat.succ k) (im od) in
    (a, Nat.add k 2)) st) (a, Nat.sub n 1).

Definition project_to_algebra (n : nat) (A : mat) : vec :=
  let a := fst (project_diag n A (fun _ => unassigned S)) in
  fst (project_offdiag n A a).

(** Lines 308-331 project_to_algebra_scaled *)
Definition project_to_algebra_scaled (scf : T) (n : nat) (A : mat) : vec :=
  let a := fst (loop 1 n (fun i st =>
      let '(a, sum) := st in
      let a := setv a (i - 1)
        (quotient (scf * (sum - int i * im (A i i))) (root (half * int i * int (i + 1)))) in
      (a, sum + im (A i i)))
    (fun _ => unassigned S, im (A 0 0))) in
  fst (loop 0 (n - 1) (fun i st => loop (Nat.succ i) n (fun j st =>
    let '(a, k) := st in
    let od := A i j - conj (A j i) in
    let a := setv a k (scf * re od) in
    let a := setv a (Nat.succ k) (scf * im od) in
    (a, Nat.add k 2)) st) (a, Nat.sub n 1)).

(** Lines 333-361 project_to_algebra with the sum of the absolute values *)
Definition project_to_algebra_norm (n : nat) (A : mat) : vec * T :=
  let '(a, _, onenorm) := loop 1 n (fun i st =>
      let '(a, sum, onenorm) := st in
      let a := setv a (i - 1) (quotient (sum - int i * im (A i i)) (root (half * int i * int (i + 1)))) in
      (a, sum + im (A i i), onenorm + absolute S (a (Nat.sub i 1))))
    (fun _ => unassigned S, im (A 0 0), zero S) in
  let '(a, _, onenorm) := loop 0 (n - 1) (fun i st => loop (Nat.succ i) n (fun j st =>
      let '(a, k, onenorm) := st in
      let od := A i j - conj (A j i) in
      let a := setv a k (re od) in
      let a := setv a (Nat.succ k) (im od) in
      (a, Nat.add k 2, onenorm + (absolute S (a k) + absolute S (a (Nat.succ k))))) st)
    (a, Nat.sub n 1, onenorm) in
  (a, onenorm).

(** Lines 471-481 (and 503-513): the imaginary parts on the diagonal *)
Definition expand_diag (n : nat) (c : vec) : vec :=
  let d := setv (fun _ => unassigned S) 0 (zero S) in
  loop 1 n (fun i d =>
    let r := c (Nat.sub i 1) * root (half / (int i * int (i + 1))) in
    let d := loop 0 i (fun j d => setv d j (d j + r)) d in
    setv d i (opp S (int i) * r)) d.

(** Lines 468-498 expand *)
Definition expand (n : nat) (c : vec) : mat :=
  let d := expand_diag n c in
  let m := loop 0 n (fun i m => set S m i i (complex (zero S) (d i))) (fun _ _ => unassigned S) in
  fst (loop 0 (n - 1) (fun i st => loop (Nat.succ i) n (fun j st =>
    let '(m, k) := st in
    let v := complex (c k * half) (c (Nat.succ k) * half) in
    let m := set S m i j v in
    let m := set S m j i (opp S (conj v)) in
    (m, Nat.add k 2)) st) (m, Nat.sub n 1)).

(** Lines 501-531 expand_scaled *)
Definition expand_scaled (scf : T) (n : nat) (c : vec) : mat :=
  let d := expand_diag n c in
  let m := loop 0 n (fun i m => set S m i i (complex (zero S) (scf * d i))) (fun _ _ => unassigned S) in
  let inv2 := half * scf in
  fst (loop 0 (n - 1) (fun i st => loop (Nat.succ i) n (fun j st =>
    let '(m, k) := st in
    let v := complex (c k * inv2) (c (Nat.succ k) * inv2) in
    let m := set S m i j v in
    let m := set S m j i (opp S (conj v)) in
    (m, Nat.add k 2)) st) (m, Nat.sub n 1)).

(** Lines 563-570 dot *)
Definition algebra_dot (n : nat) (a b : vec) : T :=
  loop 0 (Nat.sub (Nat.mul n n) 1) (fun i r => r + a i * b i) (zero S) * half.

(** Lines 737-749 right_conjugation, left_conjugation *)
Definition right_conjugation (n : nat) (U : mat) (E : vec) : vec :=
  project_to_algebra n (op_mul S n n n (op_mul S n n n (dagger S conj n n U) (expand n E)) U).
Definition left_conjugation (n : nat) (U : mat) (E : vec) : vec :=
  project_to_algebra n (op_mul S n n n (op_mul S n n n U (expand n E)) (dagger S conj n n U)).

(** ** The generators as lists of the elements that are not zero *)

(** Lines 21-91: class Alg_gen.  The array has room for N elements; None: an
    element is stored behind its end. *)
Definition sparse := list (nat * nat * T).
Definition push (n : nat) (l : sparse) (i1 i2 : nat) (v : T) : option sparse :=
  if length l <? n then Some (l ++ [(i1, i2, v)]) else None.
Definition to_matrix (l : sparse) : mat :=
  fold_left (fun res e => let '(i1, i2, v) := e in set S res i1 i2 v) l (fun _ _ => zero S).

(** Lines 406-430 generator_list; [gens] is the array before. *)
Definition generator_diag (n i : nat) : option sparse :=
  let r := root (int 2 * (int i * int (i + 1))) in
  match loopo 0 i (fun j l => push n l j j (complex (zero S) (quotient (one S) r))) [] with
  | None => None
  | Some l => push n l i i (complex (zero S) (quotient (opp S (int i)) r))
  end.

Definition generator_pair (n : nat) (i j : nat) (v w : T) : option sparse :=
  match push n [] i j v with
  | None => None
  | Some l => push n l j i w
  end.

Definition generator_list (n : nat) (gens : nat -> sparse) : option (nat -> sparse) :=
  match loopo 1 n (fun i gens =>
      match generator_diag n i with
      | None => None
      | Some l => Some (setv gens (i - 1) l)
      end) gens with
  | None => None
  | Some gens =>
      option_map fst (loopo 0 (n - 1) (fun i st => loopo (Nat.succ i) n (fun j st =>
        let '(gens, k) := st in
        match generator_pair n i j (complex half (zero S)) (complex (opp S half) (zero S)) with
        | None => None
        | Some l =>
            let gens := setv gens k l in
            match generator_pair n i j (complex (zero S) half) (complex (zero S) half) with
            | None => None
            | Some l => Some (setv gens (Nat.succ k) l, Nat.add k 2)
            end
        end) st) (gens, Nat.sub n 1))
  end.

(** Lines 432-458 generator_product_list: temp is the product of two
    generators; the elements of it that are not zero are appended to what the
    array holds. *)
Definition generator_product (n : nat) (g1 g2 : sparse) (l : sparse) : option sparse :=
  let temp := fold_left (fun temp e1 => let '(a1, a2, v1) := e1 in
    fold_left (fun temp e2 => let '(b1, b2, v2) := e2 in
      if a2 =? b1 then set S temp a1 b2 (temp a1 b2 + v1 * v2) else temp) g2 temp)
    g1 (fun _ _ => zero S) in
  loopo 0 n (fun j1 l => loopo 0 n (fun j2 l =>
    if is_zero S (temp j1 j2) then Some l else push n l j1 j2 (temp j1 j2)) l) l.

Definition generator_product_list (n : nat) (gens : nat -> sparse) (prods : nat -> nat -> sparse)
    : option (nat -> nat -> sparse) :=
  let na := Nat.sub (Nat.mul n n) 1 in
  loopo 0 na (fun i1 prods => loopo 0 na (fun i2 prods =>
    match generator_product n (gens i1) (gens i2) (prods i1 i2) with
    | None => None
    | Some l => Some (fun a b => if (a =? i1) && (b =? i2) then l else prods a b)
    end) prods) prods.

(** Lines 641-663 project_to_algebra_bilinear(w1, w2, omat, genlist) *)
Definition bilinear (n : nat) (w1 w2 : mat) (gens : nat -> sparse) (omat : mat) : mat :=
  let na := Nat.sub (Nat.mul n n) 1 in
  loop 0 na (fun i1 omat => loop 0 na (fun i2 omat =>
    let temp := fold_left (fun temp e1 => let '(a1, a2, v1) := e1 in
      fold_left (fun temp e2 => let '(b1, b2, v2) := e2 in
        temp + re (v1 * w1 a2 b1 * v2 * w2 b2 a1)) (gens i2) temp) (gens i1) (zero S) in
    set S omat i1 i2 (opp S (int 2) * temp)) omat) omat.

(** Lines 674-692 project_to_algebra_bilinear(w1, omat, genprodlist) *)
Definition bilinear_products (n : nat) (w1 : mat) (prods : nat -> nat -> sparse) (omat : mat) : mat :=
  let na := Nat.sub (Nat.mul n n) 1 in
  loop 0 na (fun i1 omat => loop 0 na (fun i2 omat =>
    let temp := fold_left (fun temp e1 => let '(a1, a2, v1) := e1 in
      temp + re (v1 * w1 a2 a1)) (prods i2 i1) (zero S) in
    set S omat i1 i2 (opp S (int 2) * temp)) omat) omat.

End Algebra.
