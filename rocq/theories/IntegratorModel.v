(** Model of the molecular dynamics integrators (libraries/hmc/integrator.h),
    of the updates of gauge field and momentum (libraries/hmc/gauge_field.h) and
    of the hybrid Monte Carlo update (libraries/hmc/hmc.h).

    Step sizes are rationals, arithmetic is exact.  Link matrices and momenta
    are elements of arbitrary types; what the code does with them is given by
    the operations of [dynamics].  A field is the list of its values on all
    links. *)
From Coq Require Import ZArith QArith List.
Import ListNotations.
Open Scope Q_scope.

Record dynamics := mkDynamics {
  link : Type;
  momentum : Type;
  (* exp(eps * momentum) * link, gauge_field.h 241-242 *)
  rotate : Q -> momentum -> link -> link;
  (* momentum + eps * force, gauge_field.h 252-254 and 481 (the force is
     proportional to eps) *)
  kick : Q -> momentum -> momentum -> momentum;
  (* the force of action term number i on the links *)
  force : nat -> list link -> list momentum
}.

Definition state (D : dynamics) := (list (link D) * list (momentum D))%type.

Fixpoint zip {A B C} (f : A -> B -> C) (l : list A) (m : list B) : list C :=
  match l, m with
  | a :: l', b :: m' => f a b :: zip f l' m'
  | _, _ => []
  end.

(** gauge_field.h 238-245 gauge_update, called by gauge_momentum_action::step
    (441). *)
Definition gauge_update (D : dynamics) (eps : Q) (s : state D) : state D :=
  (zip (fun p g => rotate D eps p g) (snd s) (fst s), snd s).

(** gauge_field.h 476-484 force_step with add_momentum (249-257). *)
Definition force_step_term (D : dynamics) (i : nat) (eps : Q) (s : state D) : state D :=
  (fst s, zip (fun p f => kick D eps f p) (snd s) (force D i (fst s))).

(** integrator.h 33-72: an action term, or the sum of two. *)
Inductive action := Term (i : nat) | Sum (a1 a2 : action).

(** integrator.h 56-59. *)
Fixpoint force_step (D : dynamics) (a : action) (eps : Q) (s : state D) : state D :=
  match a with
  | Term i => force_step_term D i eps s
  | Sum a1 a2 => force_step D a2 eps (force_step D a1 eps s)
  end.

(** integrator.h 153-198: the hierarchy of integrators; the lowest one is the
    momentum action. *)
Inductive integrator :=
  | Lowest
  | Leapfrog (a : action) (lower : integrator) (n : nat)
  | O2 (a : action) (lower : integrator) (n : nat).

Fixpoint repeatedly {A} (n : nat) (f : A -> A) (x : A) : A :=
  match n with
  | O => x
  | S n' => repeatedly n' f (f x)
  end.

Definition qnat (n : nat) : Q := inject_Z (Z.of_nat n).

(** integrator.h 184. *)
Definition zeta_factor : Q := 1931833275037836 # 10000000000000000.

(** integrator.h 163-169 and 183-197. *)
Fixpoint step (D : dynamics) (i : integrator) (eps : Q) (s : state D) : state D :=
  match i with
  | Lowest => gauge_update D eps s
  | Leapfrog a lower n =>
    let s := repeatedly n (step D lower ((1 # 2) * eps / qnat n)) s in
    let s := force_step D a eps s in
    repeatedly n (step D lower ((1 # 2) * eps / qnat n)) s
  | O2 a lower n =>
    let zeta := eps * zeta_factor in
    let middlestep := eps - 2 * zeta in
    let s := repeatedly n (step D lower (zeta / qnat n)) s in
    let s := force_step D a ((1 # 2) * eps) s in
    let s := repeatedly n (step D lower (middlestep / qnat n)) s in
    let s := force_step D a ((1 # 2) * eps) s in
    repeatedly n (step D lower (zeta / qnat n)) s
  end.

(** hmc.h 15-63 update_hmc: [draw] is the fresh momentum, [accept] the outcome
    of the comparison with the random number, given the fields before and
    after.  The backup (gauge_field.h 260, called through 431) holds the gauge
    field only.  Returned: the fields, and whether the update was accepted. *)
Definition update_hmc (D : dynamics) (i : integrator) (steps : nat) (length : Q)
    (draw : list (momentum D)) (accept : state D -> state D -> bool) (s : state D) :
    state D * bool :=
  let s := (fst s, draw) in
  let backup := fst s in
  let s' := repeatedly steps (step D i (length / qnat steps)) s in
  if accept s s' then (s', true) else ((backup, snd s'), false).
