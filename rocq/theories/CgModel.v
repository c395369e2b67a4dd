(** Model of the conjugate gradient solver (libraries/dirac/conjugate_gradient.h).

    Numbers belong to any type with the operations of [scalar]; arithmetic is
    whatever these operations do (exact in the theorems).  A field is the list
    of the real components of its elements on the sites of the parity M.par;
    values on other sites are neither read nor written by the solver. *)
From Coq Require Import List Bool.
Import ListNotations.

Record scalar := mkScalar {
  num : Type;
  zero : num;
  one : num;
  plus : num -> num -> num;
  minus : num -> num -> num;
  times : num -> num -> num;
  over : num -> num -> num;
  is_zero : num -> bool;
  less : num -> num -> bool
}.

Fixpoint zip {A B C} (f : A -> B -> C) (l : list A) (m : list B) : list C :=
  match l, m with
  | a :: l', b :: m' => f a b :: zip f l' m'
  | _, _ => []
  end.

Section Cg.
Context (S : scalar).
Notation T := (num S).

(** squarenorm of the elements, summed over the sites (61, 72, 79, 87). *)
Definition squarenorm (v : list T) : T :=
  fold_left (fun s x => plus S s (times S x x)) v (zero S).

(** Lines 67-70 and 83-86: sums and multiples, site by site. *)
Definition vsub (u v : list T) : list T := zip (minus S) u v.
Definition vadd (u v : list T) : list T := zip (plus S) u v.
Definition scale (c : T) (v : list T) : list T := map (times S c) v.

(** What a call ends with: a division by zero, or the solution with the number
    of the last iteration, the sum of squares of the residual that is printed
    (102), and whether the loop was left because it was small enough. *)
Inductive outcome :=
  | Undefined
  | Finished (iterations : nat) (out : list T) (rrnew : T) (converged : bool).

Context (apply dagger : list T -> list T).

(** conjugate_gradient.h 75-96: the loop, with [left] iterations left. *)
Fixpoint loop (target : T) (left i : nat) (out r p : list T) (rr rrnew : T) : outcome :=
  match left with
  | O => Finished i out rrnew false
  | Datatypes.S left' =>
    let Dp := apply p in
    let DDp := dagger Dp in
    let pDp := squarenorm Dp in
    if is_zero S pDp then Undefined else
    let alpha := over S rr pDp in
    let out := vadd out (scale alpha p) in
    let r := vsub r (scale alpha DDp) in
    let rrnew := squarenorm r in
    if less S rrnew target then Finished i out rrnew true else
    if is_zero S rr then Undefined else
    let beta := over S rrnew rr in
    let p := vadd (scale beta p) r in
    loop target left' (Datatypes.S i) out r p rrnew rrnew
  end.

(** conjugate_gradient.h 46-103 CG::apply.  [guess] is the field out at the
    call. *)
Definition cg (accuracy : T) (maxiters : nat) (source guess : list T) : outcome :=
  let source_norm := squarenorm source in
  let target := times S (times S accuracy accuracy) source_norm in
  let r := vsub source (dagger (apply guess)) in
  loop target maxiters 0 guess r r (squarenorm r) (zero S).

End Cg.

Arguments Undefined {S}.
Arguments Finished {S}.
