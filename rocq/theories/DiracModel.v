(** Model of the staggered Dirac operator, libraries/dirac/staggered.h.

    Sites, parities and link matrices are those of GaugeModel.  Colour vectors
    are elements of any type with the operations of [vectors].  A field is a
    function of the site. *)
From Coq Require Import ZArith List Bool.
From Verif Require Import Common GaugeModel.
Import ListNotations.
Open Scope Z_scope.

Record vectors (M : matrices) := mkVectors {
  vec : Type;
  vzero : vec;
  vadd : vec -> vec -> vec;
  vsub : vec -> vec -> vec;
  vneg : vec -> vec;
  vscale : re M -> vec -> vec;
  act : mat M -> vec -> vec;          (* matrix times vector *)
  half : Z -> re M;                   (* 0.5 * k *)
  rinv : re M -> re M                 (* 1.0 / m *)
}.
Arguments vec {M}. Arguments vzero {M}. Arguments vadd {M}. Arguments vsub {M}.
Arguments vneg {M}. Arguments vscale {M}. Arguments act {M}. Arguments half {M}.
Arguments rinv {M}.

Section Staggered.
Context {M : matrices} (V : vectors M).
Context (L : list Z).

Definition vfield := site -> vec V.

(** The value of a field at X+d and X-d: the boundary condition in direction d
    is periodic, or antiperiodic, [anti d] (field_comm.h 116-125 and
    comm of boundary elements): values fetched across the boundary change
    sign.  Vectorised layouts are not modelled. *)
Definition next (anti : nat -> bool) (v : vfield) (d : nat) (x : site) : vec V :=
  if anti d && (coordinate d x =? nth d L 0 - 1) then vneg V (v (up L d x)) else v (up L d x).

Definition prev (anti : nat -> bool) (v : vfield) (d : nat) (x : site) : vec V :=
  if anti d && (coordinate d x =? 0) then vneg V (v (down L d x)) else v (down L d x).

(** staggered.h 14-28 init_staggered_eta: coordinates are not negative. *)
Definition staggered_eta (d : nat) (x : site) : Z :=
  let sumcoord := fold_left (fun s d2 => s + coordinate d2 x) (seq 0 d) 0 in
  (Z.rem sumcoord 2) * 2 - 1.

(** staggered.h 31-35 dirac_staggered_diag. *)
Definition diag (mass : re M) (v_in v_out : vfield) (par : parity) : vfield :=
  fun x => if has_parity par x then vadd V (v_out x) (vscale V mass (v_in x)) else v_out x.

(** staggered.h 39-42 dirac_staggered_diag_inverse. *)
Definition diag_inverse (mass : re M) (v_out : vfield) (par : parity) : vfield :=
  fun x => if has_parity par x then vscale V (rinv V mass) (v_out x) else v_out x.

(** staggered.h 45-66 dirac_staggered_hop.  [stale] is what earlier calls left
    in the static temporary fields; the fields v_in and v_out may be the same
    field, [v_in] here is read before each direction's assignment, [aliased]
    says that v_in is v_out. *)
Definition hop (anti : nat -> bool) (stale : nat -> vfield) (gauge : nat -> site -> mat M)
    (aliased : bool) (v_in v_out : vfield) (par : parity) (sign : Z) : vfield :=
  let vtemp : nat -> vfield := fun d x =>
    if has_parity (opp_parity par) x then act V (dagger M (gauge d x)) (v_in x)
    else stale d x in
  fold_left (fun (v_out : vfield) d =>
      let v_in := if aliased then v_out else v_in in
      fun x => if has_parity par x then
          vadd V (v_out x)
            (vscale V (half V (sign * staggered_eta d x))
              (vsub V (act V (gauge d x) (next anti v_in d x)) (prev anti (vtemp d) d x)))
        else v_out x)
    (directions L) v_out.

(** staggered.h 136-140 dirac_staggered::apply and 143-147 dagger. *)
Definition operator (sign : Z) (anti : nat -> bool) (stale : nat -> vfield)
    (gauge : nat -> site -> mat M) (mass : re M) (v_in : vfield) : vfield :=
  let out : vfield := fun _ => vzero V in
  let out := diag mass v_in out ALL in
  hop anti stale gauge false v_in out ALL sign.

Definition apply := operator 1.
Definition dagger_op := operator (-1).

(** staggered.h 239-246 dirac_staggered_evenodd::apply and 249-256 dagger.
    [stale'] is the content of the temporary fields at the second hop. *)
Definition evenodd (sign : Z) (anti : nat -> bool) (stale stale' : nat -> vfield)
    (gauge : nat -> site -> mat M) (mass : re M) (v_in : vfield) : vfield :=
  let out : vfield := fun _ => vzero V in
  let out := diag mass v_in out EVEN in
  let out := hop anti stale gauge false v_in out ODD sign in
  let out := diag_inverse mass out ODD in
  hop anti stale' gauge true out out EVEN sign.

Definition evenodd_apply := evenodd 1.
Definition evenodd_dagger := evenodd (-1).
End Staggered.
