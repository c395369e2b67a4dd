(** What the integrators rely on and what they should guarantee. *)
From Coq Require Import ZArith QArith List.
From Verif Require Import IntegratorModel.
Import ListNotations.
Open Scope Q_scope.

(** Rotations by multiples of one momentum undo each other, and so do momentum
    changes by multiples of one force; momentum changes commute (they are
    additions); a force has a value on each link. *)
Record reversible (D : dynamics) : Prop := {
  r_rotate : forall e e' p g, e' == - e -> rotate D e' p (rotate D e p g) = g;
  r_kick : forall e e' f p, e' == - e -> kick D e' f (kick D e f p) = p;
  r_commute : forall e e' f f' p,
    kick D e f (kick D e' f' p) = kick D e' f' (kick D e f p);
  r_force : forall i u, length (force D i u) = length u
}.

(** They add up, and momentum changes commute. *)
Record additive (D : dynamics) : Prop := {
  a_rotate : forall e e' e'' p g, e'' == e + e' ->
    rotate D e' p (rotate D e p g) = rotate D e'' p g;
  a_kick : forall e e' e'' f p, e'' == e + e' ->
    kick D e' f (kick D e f p) = kick D e'' f p;
  a_commute : forall e e' f f' p,
    kick D e f (kick D e' f' p) = kick D e' f' (kick D e f p)
}.

(** A reversal of the momentum acts like a reversal of time. *)
Record flips (D : dynamics) (neg : momentum D -> momentum D) : Prop := {
  f_twice : forall p, neg (neg p) = p;
  f_rotate : forall e e' p g, e' == - e -> rotate D e (neg p) g = rotate D e' p g;
  f_kick : forall e e' f p, e' == - e -> kick D e f (neg p) = neg (kick D e' f p)
}.

Definition flip {D} (neg : momentum D -> momentum D) (s : state D) : state D :=
  (fst s, map neg (snd s)).

(** A momentum on each link. *)
Definition matching {D} (s : state D) : Prop := length (snd s) = length (fst s).

(** Every level makes at least one step of the level below. *)
Fixpoint proper (i : integrator) : Prop :=
  match i with
  | Lowest => True
  | Leapfrog _ lower n => (1 <= n)%nat /\ proper lower
  | O2 _ lower n => (1 <= n)%nat /\ proper lower
  end.

(** The forces change nothing: free motion. *)
Definition no_force (D : dynamics) : Prop := forall e i u f p,
  In f (force D i u) -> kick D e f p = p.

(** The links do not move. *)
Definition frozen (D : dynamics) : Prop := forall e p g, rotate D e p g = g.

(** The terms of the top level. *)
Fixpoint terms (a : action) : list nat :=
  match a with
  | Term i => [i]
  | Sum a1 a2 => terms a1 ++ terms a2
  end.

Fixpoint all_terms (i : integrator) : list nat :=
  match i with
  | Lowest => []
  | Leapfrog a lower _ => terms a ++ all_terms lower
  | O2 a lower _ => terms a ++ all_terms lower
  end.

(** The momenta after the forces of the given terms have acted for a time. *)
Definition pushed (D : dynamics) (l : list nat) (eps : Q) (s : state D) : state D :=
  fold_left (fun s i => force_step_term D i eps s) l s.
