(** Model of the heat bath of an SU(N) link, libraries/gauge/sun_heatbath.h (line
    numbers below refer to that file).

    Numbers as in Su2Model, with exact arithmetic; log, exp, sin and cos are
    arguments, and so are the random numbers: the k-th call of hila::random()
    returns [rnd k].  Division by zero is the outcome None. *)
From Coq Require Import List Bool Arith.
From Verif Require Import LinalgModel MatrixModel SuModel AlgebraModel Su2Model.

Section Heatbath.
Context (S : scalars) (cj re im root log exp sin cos : num S -> num S) (im_unit pi2 : num S).
Context (rnd : nat -> num S).
Notation T := (num S).
Notation mat := (nat -> nat -> T).
Notation "a * b" := (mul S a b).
Notation "a + b" := (add S a b).
Notation "a - b" := (sub S a b).
Notation "a / b" := (div S a b).
Notation "- a" := (opp S a).
Notation half := (half S).
Notation two := (of_nat S 2).
Notation one := (one S).

(** Lines 75-80, 105 and 116-123: the number d from four random numbers, and the
    last of these *)
Definition trial (al : T) (p : nat) : T * T :=
  let xr1 := log (one - rnd p) in
  let xr2 := log (one - rnd (Nat.add p 1)) in
  let xr3 := cos (pi2 * rnd (Nat.add p 2)) in
  let xr4 := rnd (Nat.add p 3) in
  (- (xr2 + xr1 * xr3 * xr3) / al, xr4).

(** Lines 113-126, with [turns] turns left: d, k, the next random number, test *)
Fixpoint kp_loop (al : T) (turns k p : nat) (d : T) : T * nat * nat * bool :=
  match turns with
  | O => (d, k, p, false)
  | Datatypes.S turns =>
    let '(d, xr4) := trial al p in
    if less S (xr4 * xr4) (one - half * d) then (d, Nat.succ k, Nat.add p 4, true)
    else kp_loop al turns (Nat.succ k) (Nat.add p 4) d
  end.

(** Lines 138-149: a0, k, the next random number *)
Fixpoint creutz_loop (al xl xd : T) (turns k p : nat) (a0 : T) : T * nat * nat :=
  match turns with
  | O => (a0, k, p)
  | Datatypes.S turns =>
    let xr1 := rnd p in
    let xr2 := rnd (Nat.add p 1) in
    let r := xl + xd * xr1 in
    let a0 := one + log r / al in
    if less S (xr2 * xr2) (one - a0 * a0) then (a0, Nat.succ k, Nat.add p 2)
    else creutz_loop al xl xd turns (Nat.succ k) (Nat.add p 2) a0
  end.

(** Lines 75-162: d, what is added to utry, the next random number.  The last
    component is not in the code: it is false if 40 trials failed at line 124. *)
Definition choose (al : T) (p : nat) : T * nat * nat * bool :=
  let '(d, xr4) := trial al p in
  let p := Nat.add p 4 in
  if leq S (one - half * d) (xr4 * xr4) then
    if less S two al then kp_loop al 40 0 p d
    else
      let xl := exp (- two * al) in
      let xd := one - xl in
      let '(a0, k, p) := creutz_loop al xl xd 40 0 p (unassigned S) in
      (one - a0, k, p, true)
  else (d, 1, p, true).

(** Lines 166-183: the SU(2) matrix with the first component 1 - d *)
Definition direction (d : T) (p : nat) : su2 S :=
  let ad := one - d in
  let r2 := absolute S (one - ad * ad) in
  let r := root r2 in
  let ac := (two * rnd p - one) * r in
  let rho := root (absolute S (r2 - ac * ac)) in
  let xr2 := pi2 * rnd (Nat.add p 1) in
  mkSu2 S (rho * cos xr2) (rho * sin xr2) ac ad.

(** Lines 61-64 *)
Definition heat_staple (action : mat) (ina inb : nat) : su2 S := mkSu2 S
  (- (im (action ina inb) + im (action inb ina)))
  (- (re (action ina inb) - re (action inb ina)))
  (- (im (action ina ina) - im (action inb inb)))
  (re (action ina ina) + re (action inb inb)).

(** The variables U, action, utry and uhit, the number of random numbers used, and
    whether no 40 trials failed *)
Record heat := mkHeat { h_U : mat; h_action : mat; h_try : nat; h_hit : nat; h_pos : nat; h_ok : bool }.

(** Lines 55-196: one subgroup *)
Definition heat_hit (n : nat) (b3 : T) (ina inb : nat) (st : heat) : option heat :=
  let v := heat_staple (h_action st) ina inb in
  let z := root (su2_det S v) in
  let al := b3 * z in
  if is_zero S al then None
  else
    let v := su2_div S v z in
    let '(d, k, p, ok) := choose al (h_pos st) in
    let a := direction d p in
    let h := su2_matrix S im_unit (su2_mul S a v) in
    Some (mkHeat (mult_by_2x2_left S n ina inb h (h_U st)) (mult_by_2x2_left S n ina inb h (h_action st))
      (Nat.add (h_try st) k) (Nat.succ (h_hit st)) (Nat.add p 2) (h_ok st && ok)).

(** Lines 27-202 suN_heatbath; lines 43-196 *)
Definition heat_sweep (n : nat) (beta : T) (U staple : mat) : option heat :=
  let b3 := beta / of_nat S n in
  let action := op_mul S n n n U (dagger S cj n n staple) in
  loopo 0 (Nat.pred n) (fun ina st => loopo (Nat.succ ina) n (fun inb st => heat_hit n b3 ina inb st) st)
    (mkHeat U action 0 0 0 true).
(** U and the return value, None for 0 / 0 *)
Definition heatbath (n : nat) (beta : T) (U staple : mat) : option (mat * option T) :=
  match heat_sweep n beta U staple with
  | None => None
  | Some st => Some (h_U st,
      if Nat.eqb (h_try st) 0 then None else Some (of_nat S (h_hit st) / of_nat S (h_try st)))
  end.

End Heatbath.
