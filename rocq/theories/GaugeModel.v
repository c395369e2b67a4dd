(** Model of the gauge observables: plaquettes (libraries/plumbing/gaugefield.h,
    libraries/hmc/gauge_field.h), sums of staples (libraries/gauge/staples.h,
    libraries/hmc/gauge_field.h) and Polyakov loops (libraries/gauge/polyakov.h,
    libraries/hmc/gauge_field.h).

    The lattice is the torus of the given sizes; a site is the list of its
    coordinates.  The neighbour of a site is the periodic one (C08), values at
    neighbours are current (C05-C07).  Matrices are elements of any type with
    the operations of [matrices]; a site loop over a parity is the simultaneous
    assignment at the sites of this parity (no loop below reads what it
    writes at other sites, except the Polyakov loops, which go plane by
    plane). *)
From Coq Require Import ZArith List Bool.
From Verif Require Import Common.
Import ListNotations.
Open Scope Z_scope.

(** ** The torus *)

Definition site := list Z.

(** The coordinate in direction [d] moved by [s], modulo the size. *)
Fixpoint move (s : Z) (L : list Z) (d : nat) (x : site) : site :=
  match L, x with
  | l :: L', a :: x' =>
      match d with
      | O => (a + s) mod l :: x'
      | S d' => a :: move s L' d' x'
      end
  | _, _ => x
  end.

(** X + d and X - d. *)
Definition up (L : list Z) (d : nat) (x : site) : site := move 1 L d x.
Definition down (L : list Z) (d : nat) (x : site) : site := move (-1) L d x.

Fixpoint sites (L : list Z) : list site :=
  match L with
  | [] => [[]]
  | l :: L' => flat_map (fun a => map (cons a) (sites L')) (zrange 0 (Z.to_nat l))
  end.

Definition coordinate (d : nat) (x : site) : Z := nth d x 0.

Inductive parity := EVEN | ODD | ALL.

Definition opp_parity (p : parity) : parity :=
  match p with EVEN => ODD | ODD => EVEN | ALL => ALL end.

Definition has_parity (p : parity) (x : site) : bool :=
  match p with
  | ALL => true
  | EVEN => Z.even (zsum x)
  | ODD => negb (Z.even (zsum x))
  end.

Definition directions (L : list Z) : list nat := seq 0 (length L).

(** ** Matrices *)

Record matrices := mkMatrices {
  mat : Type;      (* link matrices *)
  cx : Type;       (* traces *)
  re : Type;       (* real numbers *)
  mone : mat;
  mzero : mat;
  mul : mat -> mat -> mat;
  madd : mat -> mat -> mat;
  dagger : mat -> mat;
  trace : mat -> cx;
  czero : cx;
  cadd : cx -> cx -> cx;
  real : cx -> re;
  rzero : re;
  radd : re -> re -> re;
  one_minus_over_n : re -> re;   (* 1 - t / N *)
  cover : cx -> Z -> cx;         (* division by an integer *)
  rover_n : re -> Z -> re        (* division by N times an integer *)
}.

Section Gauge.
Context (M : matrices).
Notation "a * b" := (mul M a b).
Notation "a + b" := (madd M a b).
Notation dag := (dagger M).

(** A gauge field: a matrix for each direction and site. *)
Definition gauge := nat -> site -> mat M.

Context (L : list Z).
Notation "x +/ d" := (up L d x) (at level 45, left associativity).
Notation "x -/ d" := (down L d x) (at level 45, left associativity).

(** gaugefield.h 141-158 measure_plaq. *)
Definition measure_plaq (U : gauge) : re M :=
  fold_left (fun s dd =>
      let '(dir1, dir2) := dd in
      if (dir1 <? dir2)%nat then
        fold_left (fun s x =>
            radd M s (one_minus_over_n M (real M (trace M
              (U dir1 x * U dir2 (x +/ dir1) * dag (U dir1 (x +/ dir2)) * dag (U dir2 x))))))
          (sites L) s
      else s)
    (list_prod (directions L) (directions L)) (rzero M).

(** gauge_field.h 160-173 plaquette_sum. *)
Definition plaquette_sum (U : gauge) : re M :=
  fold_left (fun s dd =>
      let '(dir1, dir2) := dd in
      if (dir2 <? dir1)%nat then
        fold_left (fun s x =>
            radd M s (one_minus_over_n M (real M (trace M
              (U dir1 x * U dir2 (x +/ dir1) * dag (U dir1 (x +/ dir2)) * dag (U dir2 x))))))
          (sites L) s
      else s)
    (list_prod (directions L) (directions L)) (rzero M).

(** A field variable: [None] where nothing was assigned. *)
Definition field := site -> option (mat M).

(** staples.h 28-59 staplesum.  State: the fields lower and staples, and the
    flag first.  A read of an unassigned value of lower leaves None. *)
Definition staples_dir (U : gauge) (d1 : nat) (par : parity)
    (st : field * field * bool) (d2 : nat) : field * field * bool :=
  let '(lower, staples, first) := st in
  if (d2 =? d1)%nat then st else
  let lower : field := fun x =>
    if has_parity (opp_parity par) x
    then Some (dag (U d2 x) * U d1 x * U d2 (x +/ d1))
    else lower x in
  let staples : field := fun x =>
    if has_parity par x then
      match lower (x -/ d2) with
      | None => None
      | Some l =>
          let s := U d2 x * U d1 (x +/ d2) * dag (U d2 (x +/ d1)) + l in
          if first then Some s
          else match staples x with None => None | Some old => Some (old + s) end
      end
    else staples x in
  (lower, staples, false).

Definition staplesum (U : gauge) (staples : field) (d1 : nat) (par : parity) : field :=
  let '(_, staples, _) :=
    fold_left (staples_dir U d1 par) (directions L) (fun _ => None, staples, true) in
  staples.

(** gauge_field.h 142-157 calc_staples. *)
Definition calc_staples (U : gauge) (dir : nat) (x : site) : mat M :=
  fold_left (fun s dir2 =>
      if (dir2 =? dir)%nat then s else
      let down_staple y := dag (U dir2 (y +/ dir)) * dag (U dir y) * U dir2 y in
      let s := s + U dir2 (x +/ dir) * dag (U dir (x +/ dir2)) * dag (U dir2 x) in
      s + down_staple (x -/ dir2))
    (directions L) (mzero M).

(** polyakov.h 17-45 measure_polyakov: the planes from size-2 down to 0. *)
Definition polyakov_plane (U : gauge) (dir : nat) (poly : site -> mat M) (plane : Z) :
    site -> mat M :=
  fun x => if coordinate dir x =? plane then U dir x * poly (x +/ dir) else poly x.

Definition polyakov_field (U : gauge) (dir : nat) : site -> mat M :=
  fold_left (polyakov_plane U dir)
    (map (fun k => nth dir L 0 - 2 - k) (zrange 0 (Z.to_nat (nth dir L 0 - 1)))) (U dir).

Definition measure_polyakov (U : gauge) (dir : nat) : cx M :=
  cover M
    (fold_left (fun s x =>
        if coordinate dir x =? 0 then cadd M s (trace M (polyakov_field U dir x)) else s)
      (sites L) (czero M))
    (zprod L / nth dir L 0).

(** gauge_field.h 94-118 polyakov_loop. *)
Definition loop_plane (U : gauge) (dir : nat) (poly : site -> mat M) (t : Z) : site -> mat M :=
  fun x => if coordinate dir x =? (t + 1)%Z mod nth dir L 0 then poly x * U dir (x -/ dir)
           else poly x.

Definition loop_field (U : gauge) (dir : nat) : site -> mat M :=
  fold_left (loop_plane U dir) (zrange 0 (Z.to_nat (nth dir L 0))) (fun _ => mone M).

Definition polyakov_loop (U : gauge) (dir : nat) : re M :=
  rover_n M
    (fold_left (fun s x =>
        if coordinate dir x =? 0 then radd M s (real M (trace M (loop_field U dir x))) else s)
      (sites L) (rzero M))
    (zprod L / nth dir L 0).

End Gauge.
