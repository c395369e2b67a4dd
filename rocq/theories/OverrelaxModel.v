(** Model of the updates of an SU(N) link in libraries/gauge/sun_overrelax.h lines
    18-62 and libraries/gauge/sun_max_staple_sum_rot.h.

    Numbers as in Su2Model.  Where the code divides by the length of a quaternion
    that is zero, its result is no number: this is the outcome None. *)
From Coq Require Import List Bool Arith.
From Verif Require Import LinalgModel MatrixModel SuModel AlgebraModel Su2Model.

Section Overrelax.
Context (S : scalars) (cj re im root exp : num S -> num S) (im_unit : num S).
Notation T := (num S).
Notation mat := (nat -> nat -> T).
Notation "a * b" := (mul S a b).
Notation "a + b" := (add S a b).
Notation "a - b" := (sub S a b).
Notation "a / b" := (div S a b).
Notation "- a" := (opp S a).
Notation complex := (complex S im_unit).
Notation half := (half S).
Notation two := (of_nat S 2).

(** sun_overrelax.h lines 44-48: the hit, from the normalized projection *)
Definition hit_matrix (a : su2 S) : su2 S :=
  let r := qd S a * qd S a - qa S a * qa S a - qb S a * qb S a - qc S a * qc S a in
  mkSu2 S (qa S a * (- two * qd S a)) (qb S a * (- two * qd S a)) (qc S a * (- two * qd S a)) r.

(** Lines 33-57: one subgroup *)
Definition overrelax_hit (n ina inb : nat) (st : mat * mat) : option (mat * mat) :=
  let '(U, action) := st in
  let a := project_from_matrix S re im action ina inb in
  if is_zero S (su2_det S a) then None
  else
    let u := su2_matrix S im_unit (hit_matrix (su2_normalize S root a)) in
    Some (mult_by_2x2_left S n ina inb u U, mult_by_2x2_left S n ina inb u action).

(** Lines 18-62 suN_overrelax: U and staple, n by n *)
Definition overrelax (n : nat) (U staple : mat) : option mat :=
  let action := op_mul S n n n U (dagger S cj n n staple) in
  option_map fst
    (loopo 0 (Nat.pred n) (fun ina st => loopo (Nat.succ ina) n (fun inb st => overrelax_hit n ina inb st) st)
      (U, action)).

(** sun_max_staple_sum_rot.h lines 77-82 and 85-90: the rows t1 and t2 of a matrix *)
Definition rotate_rows (n t1 t2 : nat) (v11 v12 v21 v22 : T) (m : mat) : mat :=
  loop 0 n (fun ic1 m =>
    let l1 := m t1 ic1 in
    let l2 := m t2 ic1 in
    set S (set S m t1 ic1 (v11 * l1 + v12 * l2)) t2 ic1 (v21 * l1 + v22 * l2)) m.

(** Lines 46-90: one pair of rows *)
Definition max_hit (n t1 t2 : nat) (st : mat * mat) : option (mat * mat) :=
  let '(tl0, U) := st in
  let tv11 := tl0 t1 t1 in
  let tv12 := tl0 t1 t2 in
  let tv21 := tl0 t2 t1 in
  let tv22 := tl0 t2 t2 in
  let tu1 := half * (re tv11 + re tv22) in
  let tu2 := half * (im tv12 + im tv21) in
  let tu3 := half * (re tv12 - re tv21) in
  let tu4 := half * (im tv11 - im tv22) in
  let k2 := tu1 * tu1 + tu2 * tu2 + tu3 * tu3 + tu4 * tu4 in
  if is_zero S k2 then None
  else
    let ki := one S / root k2 in
    let tu1 := tu1 * ki in
    let tu2 := tu2 * ki in
    let tu3 := tu3 * ki in
    let tu4 := tu4 * ki in
    let v11 := complex tu1 (- tu4) in
    let v12 := complex (- tu3) (- tu2) in
    let v21 := complex tu3 (- tu2) in
    let v22 := complex tu1 tu4 in
    Some (rotate_rows n t1 t2 v11 v12 v21 v22 tl0, rotate_rows n t1 t2 v11 v12 v21 v22 U).

(** Lines 96-110: whether to leave the iteration *)
Definition max_done (eps : T) (n : nat) (tl0 : mat) : bool :=
  let l := tl0 (Nat.pred n) (Nat.pred n) in
  let dil := im l in
  let '(lnorm, dlnorm) := loop 0 (Nat.pred n) (fun t1 st =>
    let '(lnorm, dlnorm) := st in
    let l := tl0 t1 t1 in
    let lnorm := lnorm + squarenorm S l in
    let dlnorm := dlnorm + squarenorm S (im l - dil) in
    (lnorm, loop (Nat.succ t1) n (fun t2 dlnorm =>
      dlnorm + half * squarenorm S (tl0 t1 t2 - cj (tl0 t2 t1))) dlnorm))
    (squarenorm S l, zero S) in
  less S (root dlnorm) (eps * (root lnorm + of_nat S n) * of_nat S n).

(** Lines 41-92: all pairs, in the order of the permutation; 40-113: the iteration *)
Definition max_sweep (n : nat) (perm : nat -> nat) (st : mat * mat) : option (mat * mat) :=
  loopo 0 (Nat.pred n) (fun tt1 st => loopo (Nat.succ tt1) n (fun tt2 st =>
    max_hit n (perm tt1) (perm tt2) st) st) st.
Fixpoint max_iter (eps : T) (n : nat) (perm : nat -> nat) (k : nat) (st : mat * mat) : option (mat * mat) :=
  match k with
  | O => Some st
  | Datatypes.S k =>
    match max_sweep n perm st with
    | None => None
    | Some st => if max_done eps n (fst st) then Some st else max_iter eps n perm k st
    end
  end.

(** Lines 20-118 suN_max_staple_sum_rot; [perm] is the shuffled array, [eps] is
    fp<T>::epsilon *)
Definition max_rot (eps : T) (n : nat) (perm : nat -> nat) (staple : mat) : option mat :=
  let niter := if Nat.eqb n 2 then 1 else Nat.mul 15 (Nat.mul (Nat.pred n) n) in
  option_map snd (max_iter eps n perm niter (staple, of_scalar S n (one S))).

(** Lines 129-145 suN_overrelax with beta; [draw] is the random number.  The
    result is the return value and U *)
Definition overrelax_max (eps : T) (n : nat) (perm : nat -> nat) (beta draw : T) (U staple : mat)
    : option (nat * mat) :=
  let tstaple := dagger S cj n n staple in
  match max_rot eps n perm tstaple with
  | None => None
  | Some tU =>
    let tU := op_mul S n n n (op_mul S n n n tU (dagger S cj n n U)) tU in
    if Nat.eqb n 2 then Some (1, tU)
    else
      let ds := re (mul_trace S n n (fun i j => tU i j - U i j) tstaple) in
      if less S (zero S) ds || less S draw (exp (beta / of_nat S n * ds)) then Some (1, tU)
      else Some (0, U)
  end.

End Overrelax.
