(** Model of the eigenvalues of hermitean matrices and of the singular value
    decomposition: libraries/datatypes/matrix_linalg.h 9-555 (line numbers below
    refer to that file).

    Numbers and matrices are those of LinalgModel and MatrixModel; arithmetic is
    exact, and real numbers are elements of the same type as complex ones.  The
    complex conjugate, the real part, the square root and the constant eps are
    arguments.  A Vector or DiagonalMatrix is a function of the index. *)
From Coq Require Import List Bool Arith.
From Verif Require Import LinalgModel MatrixModel SortModel.

Section Eigen.
Context (S : scalars) (conj re root stale : num S -> num S) (eps : num S).
Notation T := (num S).
Notation mat := (mat S).
Notation vec := (vec S).
Notation "a * b" := (mul S a b).
Notation "a + b" := (add S a b).
Notation "a - b" := (sub S a b).
Notation "a / b" := (div S a b).

(** Lines 12-28 find_largest_offdiag: the result and (p, q), which are not
    assigned if there is no element off the diagonal. *)
Definition find_largest_offdiag (n : nat) (M : mat) : T * option (nat * nat) :=
  let '(abs_mpq, pq) := loop 0 (n - 1) (fun i st => loop (Nat.succ i) n (fun j st =>
      let '(abs_mpq, pq) := st in
      let t := squarenorm S (M i j) in
      if less S abs_mpq t then (t, Some (i, j)) else (abs_mpq, pq)) st)
    (opp S (one S), None) in
  (root abs_mpq, pq).

(** Lines 41-94 GivensMatrix *)
Record givens := mkGivens { gs : T; gc : T }.

Definition givens_dagger (P : givens) : givens := mkGivens (opp S (gs P)) (gc P).

Definition mult_vector_left (P : givens) (v : T * T) : T * T :=
  let '(v0, v1) := v in
  let t0 := gc P * v0 + gs P * v1 in
  let v1 := gc P * v1 - conj (gs P) * v0 in
  (t0, v1).

Definition mult_row_right (P : givens) (v : T * T) : T * T :=
  let '(v0, v1) := v in
  let t0 := v0 * gc P - conj (gs P) * v1 in
  let v1 := v0 * gs P + v1 * gc P in
  (t0, v1).

Definition mult_by_Givens_left (columns : nat) (P : givens) (M : mat) (p q : nat) : mat :=
  loop 0 columns (fun i M =>
    let a := mult_vector_left P (M p i, M q i) in
    set S (set S M p i (fst a)) q i (snd a)) M.

Definition mult_by_Givens_right (rows : nat) (P : givens) (M : mat) (p q : nat) : mat :=
  loop 0 rows (fun i M =>
    let a := mult_row_right P (M i p, M i q) in
    set S (set S M i p (fst a)) i q (snd a)) M.

(** Lines 136-153 diagonalize_2x2 *)
Definition diagonalize_2x2 (mpp mqq mpq : T) : givens :=
  let mpq2 := squarenorm S mpq in
  let a := mqq - mpp in
  let t := of_nat S 2 / (absolute S a + root (a * a + of_nat S 4 * mpq2)) in
  let t := if less S a (zero S) then opp S t else t in
  let c := one S / root (mpq2 * t * t + one S) in
  mkGivens (mpq * (t * c)) c.

(** ** Lines 196-277 eigen_hermitean *)

(** Lines 226-261: the loop; [count] turns are left.  None: p and q are used
    although they have not been assigned. *)
Fixpoint jacobi (n count rot : nat) (M V : mat) (ev : vec) : option (mat * mat * vec * nat) :=
  match count with
  | O => Some (M, V, ev, rot)
  | Datatypes.S count =>
      let '(abs_mpq, pq) := find_largest_offdiag n M in
      match pq with
      | None => None
      | Some (p, q) =>
          if leq S abs_mpq (eps * root (absolute S (ev p) * absolute S (ev q)))
          then Some (M, V, ev, rot)
          else
            let P := diagonalize_2x2 (ev p) (ev q) (M p q) in
            let M := mult_by_Givens_left n (givens_dagger P) M p q in
            let M := mult_by_Givens_right n P M p q in
            let ev := setv ev p (re (M p p)) in
            let ev := setv ev q (re (M q q)) in
            let M := set S M p q (zero S) in
            let M := set S M q p (zero S) in
            let V := mult_by_Givens_right n P V p q in
            jacobi n count (Nat.succ rot) M V ev
      end
  end.

(** Lines 264-275 (and 415-428, 540-553): the permutation of the columns that
    belongs to the order of the numbers. *)
Definition sorted_order (n : nat) (ord : order) (ev : vec) : vec * (nat -> nat) :=
  sort (less S) (unassigned S) n ord ev (fun _ => 0).

(** The result: eigenvalues, eigenvectors and the number of rotations. *)
Definition eigen_hermitean (n : nat) (ord : order) (A : mat) : option (vec * mat * nat) :=
  let V := of_scalar S n (one S) in
  let M := A in
  let ev := fun i => re (M i i) in
  match jacobi n (Nat.mul (Nat.mul 100 n) n) 0 M V ev with
  | None => None
  | Some (M, V, ev, rot) =>
      match ord with
      | unsorted => Some (ev, V, rot)
      | _ =>
          let '(E, perm) := sorted_order n ord ev in
          Some (E, permute_columns S n n perm V, rot)
      end
  end.

(** ** Lines 339-430 svd_pivot *)

(** matrix.h 1233-1239 squarenorm, 1249-1251 norm of a vector; 415-420 column *)
Definition squarenorm_vec (n : nat) (v : vec) : T :=
  loop 0 n (fun i r => r + squarenorm S (v i)) (zero S).
Definition column (M : mat) (c : nat) : vec := fun i => M i c.

(** Division of floating point numbers: the result of a division by zero is not
    a number that could be relied on. *)
Definition quotient (x y : T) : T := if is_zero S y then unassigned S else x / y.

(** Lines 387-404: the elements of the Gram matrix in rows and columns p and q *)
Definition update_gram (n : nat) (M B : mat) (p q : nat) : mat :=
  let col := column M p in
  let B := loop 0 n (fun i B =>
      if i =? q then B else
      let B := set S B p i (dot S conj n col (column M i)) in
      set S B i p (conj (B p i))) B in
  let col := column M q in
  let B := loop 0 n (fun i B =>
      if i =? p then B else
      let B := set S B q i (dot S conj n col (column M i)) in
      set S B i q (conj (B q i))) B in
  let B := set S B q p (zero S) in
  set S B p q (zero S).

(** Lines 371-405: the loop *)
Fixpoint svd_pivot_loop (n count rot : nat) (M V B : mat) : option (mat * mat * nat) :=
  match count with
  | O => Some (M, V, rot)
  | Datatypes.S count =>
      let '(abs_pq, pq) := find_largest_offdiag n B in
      match pq with
      | None => None
      | Some (p, q) =>
          if leq S abs_pq (eps * root (absolute S (re (B p p) * re (B q q))))
          then Some (M, V, rot)
          else
            let P := diagonalize_2x2 (re (B p p)) (re (B q q)) (B p q) in
            let M := mult_by_Givens_right n P M p q in
            let V := mult_by_Givens_right n P V p q in
            let B := update_gram n M B p q in
            svd_pivot_loop n count (Nat.succ rot) M V B
      end
  end.

(** Lines 407-413 and 532-538: M = U S *)
Definition normalize (n : nat) (M : mat) : mat * vec :=
  loop 0 n (fun i st =>
    let '(M, s) := st in
    let col := column M i in
    let s := setv s i (root (squarenorm_vec n col)) in
    (loop 0 n (fun k M => set S M k i (quotient (col k) (s i))) M, s))
    (M, fun _ => unassigned S).

(** The singular values, U, V and the number of rotations. *)
Definition finish (n : nat) (ord : order) (M V : mat) (rot : nat) : vec * mat * mat * nat :=
  let '(M, s) := normalize n M in
  match ord with
  | unsorted => (s, M, V, rot)
  | _ =>
      let '(s, perm) := sorted_order n ord s in
      (s, permute_columns S n n perm M, permute_columns S n n perm V, rot)
  end.

Definition svd_pivot (n : nat) (ord : order) (A : mat) : option (vec * mat * mat * nat) :=
  let V := of_scalar S n (one S) in
  let M := A in
  let B := op_mul S n n n (dagger S conj n n M) M in
  match svd_pivot_loop n (Nat.mul 100 (Nat.mul n n)) 0 M V B with
  | None => None
  | Some (M, V, rot) => Some (finish n ord M V rot)
  end.

(** ** Lines 464-555 svd *)

(** What changes in a sweep: M, V, rot and cont. *)
Record sweep_state := mkSweep { sM : mat; sV : mat; srot : nat; scont : bool }.

(** Lines 499-529: one value of p.  Bpp is declared inside the loop over q
    (line 503; it hides the one of line 488) and is assigned only if need_pp is
    set.  Otherwise its value is [stale x], where x is the value of the variable
    of the turn before; a compiler that keeps the variable in its place makes
    that x, but nothing requires this. *)
Definition sweep_row (n p : nat) (st : sweep_state) : sweep_state :=
  fst (loop (Nat.succ p) n (fun q (stt : sweep_state * (bool * vec * T)) =>
    let '(st, (need_pp, colp, before)) := stt in
    let '(colp, Bpp) :=
      if need_pp then let colp := column (sM st) p in (colp, squarenorm_vec n colp)
      else (colp, stale before) in
    let colq := column (sM st) q in
    let Bqq := squarenorm_vec n colq in
    let Bpq := dot S conj n colp colq in
    let rot := Nat.succ (srot st) in
    if less S (eps * root (Bpp * Bqq)) (absolute S Bpq)
    then
      let P := diagonalize_2x2 Bpp Bqq Bpq in
      (mkSweep (mult_by_Givens_right n P (sM st) p q) (mult_by_Givens_right n P (sV st) p q) rot true,
       (true, colp, Bpp))
    else (mkSweep (sM st) (sV st) rot (scont st), (false, colp, Bpp)))
    (st, (true, fun _ => unassigned S, unassigned S))).

(** Lines 494-530 *)
Fixpoint sweeps (n fuel : nat) (st : sweep_state) : option sweep_state :=
  match fuel with
  | O => None
  | Datatypes.S fuel =>
      if scont st && (srot st <? Nat.mul 100 (Nat.mul n n))
      then sweeps n fuel (loop 0 (n - 1) (fun p st => sweep_row n p st)
             (mkSweep (sM st) (sV st) (srot st) false))
      else Some st
  end.

Definition svd (n : nat) (ord : order) (A : mat) : option (vec * mat * mat * nat) :=
  match sweeps n (Nat.succ (Nat.succ (Nat.mul 100 (Nat.mul n n))))
    (mkSweep A (of_scalar S n (one S)) 0 true) with
  | None => None
  | Some st => Some (finish n ord (sM st) (sV st) (srot st))
  end.

End Eigen.

Arguments gs {S}.
Arguments gc {S}.
Arguments sM {S}.
Arguments sV {S}.
Arguments srot {S}.
Arguments scont {S}.
