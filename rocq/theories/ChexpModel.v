(** Model of chexp, the exponential of a square matrix by the Cayley-Hamilton
    theorem: libraries/datatypes/matrix.h 3433-3559 (line numbers below refer to
    that file).

    Numbers and matrices are those of LinalgModel and MatrixModel.  Arrays are
    functions of the index.  The square root, the norm of a matrix, the limit
    sqrt(2.0) and the comparison == of rounded numbers are arguments. *)
From Coq Require Import List Bool Arith.
From Verif Require Import LinalgModel MatrixModel.
Import ListNotations.

(** for (i = n - 1; i > 0; --i) *)
Definition down {A} (n : nat) (body : nat -> A -> A) (s : A) : A :=
  fold_left (fun s i => body i s) (rev (seq 1 (n - 1))) s.

(** What can happen: an element outside of the array pl is written (n = 1); the
    matrix is still too large after [fuel] halvings; the result with the
    returned number. *)
Inductive outcome (M : Type) :=
  | Outside
  | Out_of_fuel
  | Done (omat : M) (niter : nat).
Arguments Outside {M}.
Arguments Out_of_fuel {M}.
Arguments Done {M}.

Section Chexp.
Context (S : scalars) (root : num S -> num S) (norm : mat S -> num S) (sclim : num S)
  (same : num S -> num S -> bool).
Notation T := (num S).
Notation mat := (mat S).
Notation vec := (vec S).
Notation "a * b" := (mul S a b).
Notation "a + b" := (add S a b).
Notation "a - b" := (sub S a b).
Notation "a / b" := (div S a b).

Definition freshv : vec := fun _ => unassigned S.

(** Lines 3439-3445: sfac and nb; [half] is 0.5. *)
Definition half : T := one S / (one S + one S).
Fixpoint scaling (fuel : nat) (matnorm sfac : T) (nb : nat) : option (T * nat) :=
  match fuel with
  | O => None
  | Datatypes.S fuel =>
      if leq S sclim (matnorm * sfac) then scaling fuel matnorm (sfac * half) (Nat.succ nb)
      else Some (sfac, nb)
  end.

(** Lines 3448-3463: the powers pl[1], ..., pl[n-1] and the traces trpl[0], ...,
    trpl[n] (n > 1). *)
Definition powers (n : nat) (a : mat) (sfac : T) : (nat -> mat) * vec :=
  let pl := fun _ => fresh S in
  let trpl := setv freshv 0 (of_nat S n) in
  let pl := setv pl 1 a in
  let pl := setv pl 1 (scale S n n sfac (pl 1)) in
  let trpl := setv trpl 1 (trace S n (pl 1)) in
  let '(pl, trpl) := loop 2 n (fun i st =>
      let '(pl, trpl) := st in
      let j := Nat.div i 2 in
      let k := Nat.modulo i 2 in
      let pl := setv pl i (mult S n n n (fun _ => pl j) (fun _ => pl (Nat.add j k)) (pl i)) in
      (pl, setv trpl i (trace S n (pl i)))) (pl, trpl) in
  let j := Nat.div n 2 in
  let k := Nat.modulo n 2 in
  (pl, setv trpl n (mul_trace S n n (pl j) (pl (Nat.add j k)))).

(** Lines 3465-3474: the coefficients of the characteristic polynomial. *)
Definition coefficients (n : nat) (trpl : vec) : vec :=
  loop 1 (Nat.succ n) (fun j crpl =>
    let crpl := setv crpl (n - j) (opp S (trpl j)) in
    let crpl := loop 1 j (fun i crpl =>
        setv crpl (n - j) (crpl (n - j)%nat - crpl (n - (j - i))%nat * trpl i)) crpl in
    setv crpl (n - j) (crpl (n - j)%nat / of_nat S j)) (setv freshv n (one S)).

(** Lines 3477-3491: al, pal, wpf and twpf before the iteration. *)
Definition initial (n : nat) : vec * vec * T * T :=
  let '(al, pal, wpf, twpf) := loop 0 n (fun i st =>
      let '(al, pal, wpf, twpf) := st in
      let pal := setv pal i (zero S) in
      let al := setv al i wpf in
      let wpf := wpf / of_nat S (Nat.succ i) in
      (al, pal, wpf, twpf + wpf)) (freshv, freshv, one S, one S) in
  (al, setv pal (n - 1) (one S), wpf, twpf).

(** Lines 3500-3532: the iteration; [count] turns are left.  The result is al
    and j. *)
Fixpoint iterate (n : nat) (crpl : vec) (count j : nat) (al pal : vec) (wpf twpf rs : T)
    : vec * nat :=
  match count with
  | O => (al, j)
  | Datatypes.S count =>
      let cho := pal (n - 1)%nat * rs in
      let '(al, pal, s) := down n (fun i st =>
          let '(al, pal, s) := st in
          let pal := setv pal i (pal (i - 1)%nat * rs - cho * crpl i) in
          let s := s + squarenorm S (pal i) in
          (setv al i (al i + wpf * pal i), pal, s)) (al, pal, zero S) in
      let pal := setv pal 0 (opp S cho * crpl 0) in
      let s := s + squarenorm S (pal 0) in
      let al := setv al 0 (al 0 + wpf * pal 0) in
      let s := root s in
      let '(wpf, rs, rss) :=
        if less S (one S) s then (wpf * (s / of_nat S (Nat.succ j)), one S / s, one S)
        else (wpf / of_nat S (Nat.succ j), one S, s) in
      let ttwpf := twpf in
      let twpf := twpf + wpf * rss in
      if same ttwpf twpf then (al, j)
      else iterate n crpl count (Nat.succ j) al pal wpf twpf rs
  end.

(** Lines 3538-3551: the square of the polynomial al modulo the characteristic
    polynomial; trpl and pal are temporary arrays. *)
Definition square (n : nat) (crpl : vec) (st : vec * vec * vec) : vec * vec * vec :=
  let '(al, pal, trpl) := st in
  let cho := al 0 in
  let '(al, pal, trpl) := loop 0 n (fun i st =>
      let '(al, pal, trpl) := st in
      let pal := setv pal i (al i) in
      let trpl := setv trpl i (pal i) in
      (setv al i (al i * cho), pal, trpl)) (al, pal, trpl) in
  let '(al, pal) := loop 1 n (fun j st =>
      let '(al, pal) := st in
      let cho := pal (n - 1)%nat in
      let '(al, pal) := down n (fun i st =>
          let '(al, pal) := st in
          let pal := setv pal i (pal (i - 1)%nat - cho * crpl i) in
          (setv al i (al i + trpl j * pal i), pal)) (al, pal) in
      let pal := setv pal 0 (opp S cho * crpl 0) in
      (setv al 0 (al 0 + trpl j * pal 0), pal)) (al, pal) in
  (al, pal, trpl).

(** The indices with which the array pl, of n matrices, is accessed: lines
    3450-3463 and 3555. *)
Definition pl_accesses (n : nat) : list nat :=
  [1]
  ++ flat_map (fun i => [Nat.div i 2; Nat.add (Nat.div i 2) (Nat.modulo i 2); i]) (seq 2 (n - 2))
  ++ [Nat.div n 2; Nat.add (Nat.div n 2) (Nat.modulo n 2)]
  ++ seq 1 (n - 1).

(** Lines 3433-3559.  The variable j, which is returned, is used again by the
    squaring, after which it is n.  The array [pal] at the beginning of the
    squaring, and [trpl], are overwritten before they are read; here they are
    fresh. *)
Definition chexp (fuel n : nat) (a : mat) : outcome mat :=
  if negb (forallb (fun i => i <? n) (pl_accesses n)) then Outside
  else match scaling fuel (norm a) (one S) 0 with
  | None => Out_of_fuel
  | Some (sfac, nb) =>
      let '(pl, trpl) := powers n a sfac in
      let crpl := coefficients n trpl in
      let '(al, pal, wpf, twpf) := initial n in
      let '(al, j) := iterate n crpl (Nat.sub (Nat.mul 25 n) n) n al pal wpf twpf (one S) in
      let '(al, _, _) := loop 0 nb (fun _ st => square n crpl st) (al, freshv, freshv) in
      let j := if 0 <? nb then n else j in
      let omat := of_scalar S n (al 0) in
      let omat := loop 1 n (fun k omat =>
          mult_add_scalar S n n (fun _ => pl k) (fun _ => al k) omat) omat in
      Done omat j
  end.

End Chexp.
