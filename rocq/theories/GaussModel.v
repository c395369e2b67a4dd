(** Model of Gauss' law: libraries/gauge/degauss.h and the time evolution of
    applications/sun_realtime/src/sun_realtime.cpp.

    Sites, neighbours, matrices and site loops are those of [GaugeModel] and
    [ForceModel].  Numbers are exact.  A sum over the lattice is the sum of the
    values of the sites (C18-C20). *)
From Coq Require Import ZArith List Bool.
From Verif Require Import Common GaugeModel ForceModel.
Import ListNotations.

(** More operations on the Lie algebra and on numbers. *)
Record gauss_ops (M : matrices) (G : algebras M) := mkGaussOps {
  to_matrix : alg M G -> mat M;          (* E.expand() *)
  to_algebra : mat M -> alg M G;         (* A.project_to_algebra() *)
  ascale : re M -> alg M G -> alg M G;   (* s * E *)
  aexp : alg M G -> mat M;               (* exp(E) *)
  greater : re M -> re M -> bool;        (* a > b *)
  over_volume : re M -> Z -> re M;       (* a / lattice.volume() *)
  onealeph : re M;                       (* 1.25 / 12.0 *)
  twoaleph : re M                        (* 2.0 * onealeph *)
}.

Section Gauss.
Context (M : matrices) (LM : linear M) (G : algebras M) (P : gauss_ops M G) (L : list Z).
Notation "a * b" := (mul M a b).
Notation dag := (dagger M).
Notation "x +/ d" := (up L d x) (at level 45, left associativity).
Notation "x -/ d" := (down L d x) (at level 45, left associativity).
Notation afield := (site -> alg M G).

(** ** degauss.h *)

(** 20-33 get_gauss_violation. *)
Definition get_gauss_violation (U : gauge M) (E : momenta M G) : afield :=
  fold_left (fun (gauss : afield) d => fun x =>
      aadd M G (gauss x)
        (asub M G (E d x)
          (to_algebra M G P (dag (U d (x -/ d)) * to_matrix M G P (E d (x -/ d)) * U d (x -/ d)))))
    (directions L) (fun _ => azero M G).

(** 36-49 gauss_fix_step. *)
Definition gauss_fix_step (U : gauge M) (E : momenta M G) (violation : afield) (mag : re M) : momenta M G :=
  fold_left (fun E dir =>
      set_dir M G E dir (fun x =>
        let ta := to_algebra M G P (U dir x * to_matrix M G P (violation (x +/ dir)) * dag (U dir x)) in
        asub M G (E dir x) (ascale M G P mag (asub M G (violation x) ta))))
    (directions L) E.

(** Field::squarenorm(). *)
Definition total_squarenorm (v : afield) : re M :=
  fold_left (fun s x => radd M s (anorm2 M G (v x))) (sites L) (rzero M).

(** 52-80 degauss_step: the fields and the returned violation. *)
Definition degauss_step (U : gauge M) (E : momenta M G) : momenta M G * re M :=
  let violation := get_gauss_violation U E in
  let E := gauss_fix_step U E violation (onealeph M G P) in
  let violation := get_gauss_violation U E in
  let E := gauss_fix_step U E violation (twoaleph M G P) in
  (E, over_volume M G P (total_squarenorm violation) (zprod L)).

(** 86-111 degauss: the loop, with the fields, the number of turns and the last
    value of viol.  None: more than [fuel] further turns. *)
Fixpoint degauss_loop (loop_max fuel : nat) (U : gauge M) (quality : re M) (loop : nat) (E : momenta M G) :
    option (momenta M G * nat * re M) :=
  let loop := S loop in
  let '(E, viol) := degauss_step U E in
  if greater M G P viol quality && (loop <=? loop_max)%nat then
    match fuel with
    | O => None
    | S fuel => degauss_loop loop_max fuel U quality loop E
    end
  else Some (E, loop, viol).

Definition degauss (U : gauge M) (E : momenta M G) (quality : re M) : option (momenta M G * nat * re M) :=
  let loop_max := Z.to_nat 10000 in
  degauss_loop loop_max loop_max U quality 0 E.

(** ** sun_realtime.cpp *)

(** The values of a field, if it was assigned on the whole lattice. *)
Definition read_field (f : field M) : option (site -> mat M) :=
  if forallb (fun x => match f x with Some _ => true | None => false end) (sites L)
  then Some (fun x => match f x with Some a => a | None => mzero M end)
  else None.

(** 16-30 update_E.  None: staple is read where nothing was assigned. *)
Definition update_E_dir (U : gauge M) (delta : re M) (st : option (field M * momenta M G)) (d : nat) :
    option (field M * momenta M G) :=
  match st with
  | None => None
  | Some (staple, E) =>
      let staple := staplesum M L U staple d ALL in
      match read_field staple with
      | None => None
      | Some s =>
          Some (staple, set_dir M G E d (fun x =>
            asub M G (E d x) (ascale M G P delta (to_algebra M G P (U d x * dag (s x))))))
      end
  end.

Definition update_E (U : gauge M) (E : momenta M G) (delta : re M) : option (momenta M G) :=
  option_map snd (fold_left (update_E_dir U delta) (directions L) (Some (fun _ => None, E))).

(** 32-40 update_U. *)
Definition update_U (U : gauge M) (E : momenta M G) (delta : re M) : gauge M :=
  fold_left (fun U d => fun d' x =>
      if (d' =? d)%nat then aexp M G P (ascale M G P delta (E d x)) * U d x else U d' x)
    (directions L) U.

(** 246-254 the leapfrog of one interval between measurements. *)
Fixpoint leapfrog_steps (steps : nat) (dt : re M) (U : gauge M) (E : momenta M G) : option (gauge M * momenta M G) :=
  match steps with
  | O => Some (U, E)
  | S steps =>
      match update_E U E dt with
      | None => None
      | Some E => leapfrog_steps steps dt (update_U U E dt) E
      end
  end.

Definition leapfrog (measure_interval : nat) (dt : re M) (U : gauge M) (E : momenta M G) :
    option (gauge M * momenta M G) :=
  let half := rmul M LM dt (rhalf M LM) in
  let U := update_U U E half in
  match leapfrog_steps (measure_interval - 1) dt U E with
  | None => None
  | Some (U, E) =>
      match update_E U E dt with
      | None => None
      | Some E => Some (update_U U E half, E)
      end
  end.

(** 162-164 of measure_stuff: the violation of the whole system. *)
Definition measure_violation (U : gauge M) (E : momenta M G) : re M :=
  total_squarenorm (get_gauss_violation U E).

(** 236-259 do_trajectory, for a positive measure_interval, with the number of
    turns of the loop over n: the fields at the end and the violations that
    were measured. *)
Fixpoint trajectory_turns (turns measure_interval : nat) (dt : re M) (U : gauge M) (E : momenta M G) (meas : list (re M)) :
    option (gauge M * momenta M G * list (re M)) :=
  match turns with
  | O => Some (U, E, meas)
  | S turns =>
      match leapfrog measure_interval dt U E with
      | None => None
      | Some (U, E) => trajectory_turns turns measure_interval dt U E (meas ++ [measure_violation U E])
      end
  end.

Definition do_trajectory (trajlen measure_interval : nat) (dt : re M) (U : gauge M) (E : momenta M G) :
    option (gauge M * momenta M G * list (re M)) :=
  let turns := Nat.div (trajlen + measure_interval - 1) measure_interval in
  trajectory_turns turns measure_interval dt U E [measure_violation U E].

End Gauss.
