(** Model of the integration of the gradient flow: do_gradient_flow_adapt of
    libraries/gauge/gradient_flow.h (283-464).

    The force is an argument, a function of the gauge field (get_gf_force; see
    [FlowModel] and C92).  Numbers are exact.  A loop over directions and sites
    gives a new field, as a function of direction and site.  The maximum of a
    field is that of its values (C21).  The while loop has fuel: None means that
    it is not over after that many turns. *)
From Coq Require Import ZArith List Bool.
From Verif Require Import Common GaugeModel ForceModel GaussModel FlowModel.
Import ListNotations.

Section Flowstep.
Context (M : matrices) (LM : linear M) (G : algebras M) (P : gauss_ops M G) (Q : flow_ops M G) (L : list Z).
Context (get_force : gauge M -> momenta M G).
Notation "a * b" := (rmul M LM a b).
Notation "a + b" := (radd M a b).
Notation "a - b" := (rsub M G Q a b).
Notation "a / b" := (rdiv M G Q a b).
Notation "p /// q" := (frac M G Q p q) (at level 40).
Notation "a >=? b" := (at_least M G Q a b) (at level 70).
Notation "k *. a" := (ascale M G P a k) (at level 40, left associativity).
Notation "a +. b" := (aadd M G a b) (at level 50, left associativity).
Notation "a -. b" := (asub M G a b) (at level 50, left associativity).
Notation zero := (rzero M).

(** min(a, b), a < b, a == 0. *)
Definition rmin (a b : re M) : re M := if b >=? a then a else b.
Definition less (a b : re M) : bool := negb (a >=? b).
Definition is_zero (a : re M) : bool := (a >=? zero) && (zero >=? a).

(** Field::max(). *)
Definition field_max (f : site -> re M) : re M :=
  match sites L with
  | [] => zero
  | x0 :: l => fold_left (fun m x => if m >=? f x then m else f x) l (f x0)
  end.

(** 350-358 and 420-433: the largest value in any direction, and 0. *)
Definition all_max (f : nat -> site -> re M) : re M :=
  fold_left (fun m d => let tm := field_max (f d) in if less m tm then tm else m) (directions L) zero.

(** chexp(K) * V on every link. *)
Definition rotate (K : momenta M G) (V : gauge M) : gauge M := fun d x => mul M (aexp M G P (K d x)) (V d x).

(** 338-377: the initial step size. *)
Definition initial_step (V : gauge M) (t ubstep tstep : re M) : re M :=
  let step := rmin tstep ubstep in
  if is_zero t || is_zero step then
    let maxstk := (1 /// 10)%Z in
    let tk := get_force V in
    let maxtk := all_max (fun d x => anorm2 M G (tk d x)) in
    let maxtk := rsqrt M G Q ((1 /// 2)%Z * maxtk) in
    if is_zero step then
      if less maxstk maxtk then rmin (maxstk / maxtk) ubstep
      else rmin (1 /// 1)%Z ubstep
    else if less maxstk (step * maxtk) then rmin (maxstk / maxtk) ubstep
    else step
  else step.

(** 388-418: one step of both methods.  The result is (V, V2, tk). *)
Definition rk_step (step : re M) (V : gauge M) : gauge M * gauge M * momenta M G :=
  let a11 := (25 /// 100)%Z in
  let a21 := (-17 /// 36)%Z in
  let a22 := (8 /// 9)%Z in
  let a33 := (75 /// 100)%Z in
  let b21 := (-125 /// 100)%Z in
  let b22 := (2 /// 1)%Z in
  let k1 := get_force V in
  let V := rotate (fun d x => k1 d x *. (step * a11)) V in
  let k2 := get_force V in
  let tk := fun d x => (k2 d x *. (step * b22)) +. (k1 d x *. (step * b21)) in
  let V2 := rotate tk V in
  let k2 := fun d x => (k2 d x *. (step * a22)) +. (k1 d x *. (step * a21)) in
  let V := rotate k2 V in
  let k1 := get_force V in
  let k1 := fun d x => (k1 d x *. (step * a33)) -. k2 d x in
  let V := rotate k1 V in
  (V, V2, tk).

(** 420-433: the largest difference of the two, relative to the wanted accuracy. *)
Definition relative_error (tatol rtol step : re M) (V V2 : gauge M) (tk : momenta M G) : re M :=
  all_max (fun d x =>
    rsqrt M G Q (anorm2 M G (to_algebra M G P (mul M (V2 d x) (dagger M (V d x)))))
    / (tatol + rtol * rsqrt M G Q (anorm2 M G (tk d x)) / step)).

(** 447-457: the next step size. *)
Definition next_step (relerr step ubstep : re M) : re M :=
  let maxstepmf := (10 /// 1)%Z in
  let minstepmf := (1 /// 10)%Z in
  let stepmf := inv_cube_root M G Q relerr in
  let stepmf := if minstepmf >=? stepmf then minstepmf
                else if stepmf >=? maxstepmf then maxstepmf else stepmf in
  rmin ((9 /// 10)%Z * stepmf * step) ubstep.

(** 382-460: the loop, with (V, tstep) at its end. *)
Fixpoint flow_loop (fuel : nat) (tmax ubstep tatol rtol : re M)
    (V V0 : gauge M) (t step tstep : re M) (stop : bool) : option (gauge M * re M) :=
  if less t tmax && negb stop then
    match fuel with
    | O => None
    | S fuel =>
        let tstep := step in
        let '(step, stop) := if t + step >=? tmax then (tmax - t, true) else (step, stop) in
        let '(V, V2, tk) := rk_step step V in
        let relerr := relative_error tatol rtol step V V2 tk in
        let '(t, V, V0, stop) :=
          if less relerr (1 /// 1)%Z then
            let V := fun d x => reunitarize M G Q (V d x) in
            (t + step, V, V, stop)
          else (t, V0, V0, false) in
        flow_loop fuel tmax ubstep tatol rtol V V0 t (next_step relerr step ubstep) tstep stop
    end
  else Some (V, tstep).

(** 283-464.  The result is the field V and the returned step size. *)
Definition do_gradient_flow_adapt (fuel : nat) (V : gauge M) (l_start l_end atol rtol tstep : re M) :
    option (gauge M * re M) :=
  let t := l_start * l_start / (8 /// 1)%Z in
  let tmax := l_end * l_end / (8 /// 1)%Z in
  let ubstep := (tmax - t) / (2 /// 1)%Z in
  let tatol := atol * rsqrt M G Q (2 /// 1)%Z in
  let step := initial_step V t ubstep tstep in
  flow_loop fuel tmax ubstep tatol rtol V V t step tstep false.
End Flowstep.
