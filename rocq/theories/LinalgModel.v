(** Model of the determinants, the LU decomposition and what is solved with it:
    libraries/datatypes/matrix_linalg.h.

    A matrix is a function of row and column; the elements are numbers with
    exact arithmetic.  Loops are folds; the matrix in a loop is updated
    element by element. *)
From Coq Require Import List Bool Arith.
Import ListNotations.

(** for (int k = a; k < b; k++) *)
Definition loop {S} (a b : nat) (body : nat -> S -> S) (s : S) : S :=
  fold_left (fun s k => body k s) (seq a (b - a)) s.

(** The same with a body that may leave the function (None). *)
Definition loopo {S} (a b : nat) (body : nat -> S -> option S) (s : S) : option S :=
  fold_left (fun s k => match s with None => None | Some s => body k s end) (seq a (b - a)) (Some s).

(** for (int k = b - 1; k >= 0; k--) *)
Definition loop_down {S} (b : nat) (body : nat -> S -> option S) (s : S) : option S :=
  fold_left (fun s k => match s with None => None | Some s => body k s end)
    (rev (seq 0 b)) (Some s).

(** The numbers: the arithmetic of T, the order of the real numbers,
    squarenorm and abs, 1.0 / sqrt(x), and the value of an element that has not
    been assigned. *)
Record scalars := mkScalars {
  num : Type;
  zero : num;
  one : num;
  add : num -> num -> num;
  sub : num -> num -> num;
  mul : num -> num -> num;
  div : num -> num -> num;
  opp : num -> num;
  is_zero : num -> bool;
  less : num -> num -> bool;
  leq : num -> num -> bool;
  squarenorm : num -> num;
  absolute : num -> num;
  over_sqrt : num -> num;
  unassigned : num
}.

Section Linalg.
Context (S : scalars).
Notation T := (num S).

Definition mat := nat -> nat -> T.
Definition vec := nat -> T.

Definition set (M : mat) (i j : nat) (v : T) : mat :=
  fun r c => if (r =? i) && (c =? j) then v else M r c.

Definition setv {A} (f : nat -> A) (i : nat) (v : A) : nat -> A :=
  fun k => if k =? i then v else f k.

(** hila::swap of the elements of two rows, column by column. *)
Definition swap_rows (n : nat) (i i' : nat) (M : mat) : mat :=
  loop 0 n (fun j M => let a := M i j in let b := M i' j in set (set M i j b) i' j a) M.

Definition swapv {A} (f : nat -> A) (i i' : nat) : nat -> A :=
  setv (setv f i (f i')) i' (f i).

(** ** matrix_linalg.h 690-713 hila::Minor *)
Definition Minor (n m : nat) (bigger : mat) (row col : nat) : mat :=
  fst (loop 0 n (fun i st =>
    let '(result, ri) := st in
    if i =? row then st else
    let '(result, _) :=
      loop 0 m (fun j st =>
        let '(result, ci) := st in
        if j =? col then st else (set result ri ci (bigger i j), Nat.succ ci)) (result, 0) in
    (result, Nat.succ ri)) (fun _ _ => unassigned S, 0)).

Notation "a * b" := (mul S a b).
Notation "a + b" := (add S a b).
Notation "a - b" := (sub S a b).
Notation "a / b" := (div S a b).

(** ** matrix_linalg.h 729-757 det_laplace (n > 0) *)
Fixpoint det_laplace (n : nat) (A : mat) : T :=
  match n with
  | 0 => zero S
  | 1 => A 0 0
  | 2 => A 0 0 * A 1 1 - A 1 0 * A 0 1
  | 3 => A 0 0 * (A 1 1 * A 2 2 - A 2 1 * A 1 2)
         - A 0 1 * (A 1 0 * A 2 2 - A 1 2 * A 2 0)
         + A 0 2 * (A 1 0 * A 2 1 - A 1 1 * A 2 0)
  | Datatypes.S n' =>
      fst (loop 0 n (fun i st =>
        let '(result, parity) := st in
        let minor := Minor n n A 0 i in
        (result + parity * det_laplace n' minor * A 0 i, parity * opp S (one S)))
        (zero S, one S))
  end.

(** ** matrix_linalg.h 594-637 LU_decompose

    None: division by zero.  squarenorm has real values. *)
Definition find_pivot (n i : nat) (LU : mat) : T * nat :=
  loop i n (fun k st =>
    let '(max, imax) := st in
    let norm := squarenorm S (LU k i) in
    if less S max norm then (norm, k) else (max, imax)) (zero S, 0).

Definition eliminate (n i j : nat) (LU : mat) : option mat :=
  if is_zero S (LU i i) then None else
  let LU := set LU j i (LU j i / LU i i) in
  Some (loop (Datatypes.S i) n (fun k LU => set LU j k (LU j k - LU j i * LU i k)) LU).

Definition lu_step (n i : nat) (st : mat * (nat -> nat)) : option (mat * (nat -> nat)) :=
  let '(LU, P) := st in
  let '(_, imax) := find_pivot n i LU in
  let '(LU, P) :=
    if imax =? i then (LU, P) else (swap_rows n i imax LU, swapv P i imax) in
  match loopo (Datatypes.S i) n (eliminate n i) LU with
  | None => None
  | Some LU => Some (LU, P)
  end.

Definition LU_decompose (n : nat) (A : mat) : option (mat * (nat -> nat)) :=
  loopo 0 n (lu_step n) (A, fun i => i).

(** ** matrix_linalg.h 640-663 LU_result::solve *)
Definition solve (n : nat) (LU : mat) (P : nat -> nat) (rhs : vec) : option vec :=
  let res :=
    loop 0 n (fun i res =>
      loop 0 i (fun k res => setv res i (res i - LU i k * res k)) (setv res i (rhs (P i))))
      (fun _ => unassigned S) in
  loop_down n (fun i res =>
    let res := loop (Datatypes.S i) n (fun k res => setv res i (res i - LU i k * res k)) res in
    if is_zero S (LU i i) then None else Some (setv res i (res i / LU i i))) res.

(** ** matrix_linalg.h 665-686 LU_result::invert *)
Definition invert (n : nat) (LU : mat) (P : nat -> nat) : option mat :=
  loopo 0 n (fun j r =>
    let r := loop 0 n (fun i r =>
        loop 0 i (fun k r => set r i j (r i j - LU i k * r k j))
          (set r i j (if P i =? j then one S else zero S))) r in
    loop_down n (fun i r =>
      let r := loop (Datatypes.S i) n (fun k r => set r i j (r i j - LU i k * r k j)) r in
      if is_zero S (LU i i) then None else Some (set r i j (r i j / LU i i))) r)
    (fun _ _ => unassigned S).

(** ** matrix_linalg.h 769-850 det_lu

    The scale factors; None: a row of zeros, the determinant is zero. *)
Definition row_scales (n : nat) (a : mat) : option vec :=
  loopo 0 n (fun i vv =>
    let big := loop 0 n (fun j big =>
      let tmp := squarenorm S (a i j) in if less S big tmp then tmp else big) (zero S) in
    if is_zero S big then None else Some (setv vv i (over_sqrt S big))) (fun _ => unassigned S).

(** One column; None: a zero on the diagonal, the determinant is zero.  The
    state is the matrix, the scale factors, the sign and imax (which starts as
    -1, here 0; every column assigns it before it is used). *)
Definition det_column (n j : nat) (st : mat * vec * T * nat) : option (mat * vec * T * nat) :=
  let '(a, vv, d, imax) := st in
  let a := loop 0 j (fun i a =>
      loop 0 i (fun k a => set a i j (a i j - a i k * a k j)) a) a in
  let '(a, imax, _) := loop j n (fun i st =>
      let '(a, imax, big) := st in
      let csum := loop 0 j (fun k csum => csum - a i k * a k j) (a i j) in
      let a := set a i j csum in
      let dum := vv i * absolute S csum in
      if leq S big dum then (a, i, dum) else (a, imax, big)) (a, imax, zero S) in
  let '(a, vv, d) :=
    if j =? imax then (a, vv, d)
    else (swap_rows n imax j a, setv vv imax (vv j), opp S d) in
  if is_zero S (a j j) then None else
  let a := if Datatypes.S j =? n then a else
    let dum := one S / a j j in
    loop (Datatypes.S j) n (fun i a => set a i j (a i j * dum)) a in
  Some (a, vv, d, imax).

Definition det_lu (n : nat) (A : mat) : T :=
  match row_scales n A with
  | None => zero S
  | Some vv =>
      match loopo 0 n (det_column n) (A, vv, one S, 0) with
      | None => zero S
      | Some (a, _, d, _) => loop 0 n (fun j ret => ret * a j j) d
      end
  end.

(** ** matrix_linalg.h 857-865 det *)
Definition det (n : nat) (A : mat) : T :=
  if n <? 5 then det_laplace n A else det_lu n A.
End Linalg.
