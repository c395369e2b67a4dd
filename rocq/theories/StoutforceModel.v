(** Model of the force under stout smearing: libraries/gauge/stout_smear.h (177-255)
    stout_smear_force.

    Fields as in [StoutModel].  mult_chexp (matrix.h 3849-) is not modelled: what it
    returns is taken from its description, omat = Q.dagger() * K * Q with Q = exp(X),
    and domat = [dexp] X K, an argument, domat[i][j] = trace(Q.dagger() * K * dQ/dX[j][i]). *)
From Coq Require Import ZArith List Bool.
From Verif Require Import Common GaugeModel ForceModel GaussModel StoutModel.
Import ListNotations.

Section Force.
Context (M : matrices) (LM : linear M) (G : algebras M) (P : gauss_ops M G) (L : list Z).
Context (dexp : alg M G -> alg M G -> mat M).
Notation "a * b" := (mul M a b).
Notation "a + b" := (madd M a b).
Notation "a - b" := (msub M LM a b).
Notation dag := (dagger M).
Notation "x +/ d" := (up L d x) (at level 45, left associativity).
Notation "x -/ d" := (down L d x) (at level 45, left associativity).
Notation mfield := (mfield M).
Notation gauge := (gauge M).
Notation momenta := (momenta M G).

(** 197-227: K1 and KS in the direction d1. *)
Definition force_dir (U staps : gauge) (coeff : re M) (st : gauge * momenta) (d1 : nat) : gauge * momenta :=
  let '(K1, KS) := st in
  let tplaqs : mfield := fun x => U d1 x * staps d1 x in
  let a := fun x => project M G (ropp M G coeff) (tplaqs x) in
  let mtexp : mfield := fun x => dag (aexp M G P (a x)) * to_matrix M G P (KS d1 x) * aexp M G P (a x) in
  let mdtexp : mfield := fun x => dexp (a x) (KS d1 x) in
  let k1 : mfield := fun x => to_matrix M G P (project M G coeff (mdtexp x)) in
  (set_links M K1 d1 (fun x => k1 x * U d1 x),
   set_dir M G KS d1 (fun x => to_algebra M G P (mtexp x - tplaqs x * k1 x))).

(** 230-252: the staples of the directions d1 and d2. *)
Definition force_pair (U K1 : gauge) (d1 : nat) (KS : momenta) (d2 : nat) : momenta :=
  if (d1 =? d2)%nat then KS else
  let U2 : mfield := fun x => U d2 (x +/ d1) in
  let U4 : mfield := fun x => dag (U d2 x) in
  let tM1 : mfield := fun x => U2 x * dag (U d1 (x +/ d2)) in
  let K21 : mfield := fun x => U4 x * K1 d1 x * tM1 x in
  let tM1' : mfield := fun x => tM1 x * U4 x in
  let K22 : mfield := fun x => tM1' x * K1 d1 x in
  let K24 : mfield := fun x => K1 d1 x * tM1' x in
  let tM1'' : mfield := fun x => U2 x * dag (K1 d1 (x +/ d2)) * U4 x in
  let K23 : mfield := fun x => U d1 x * tM1'' x in
  let K22' : mfield := fun x => K22 x + tM1'' x * U d1 x in
  let K24' : mfield := fun x => K24 x + K23 x in
  let KS := set_dir M G KS d2 (fun x => asub M G (KS d2 x) (to_algebra M G P (K22' (x -/ d1) - K24' x))) in
  set_dir M G KS d1 (fun x => asub M G (KS d1 x) (to_algebra M G P (K23 x - K21 (x -/ d2)))).

(** 191-253: one step of the loop.  K10: the contents of K1. *)
Definition force_step (U staps K10 : gauge) (coeff : re M) (KS : momenta) : gauge * momenta :=
  let '(K1, KS) := fold_left (force_dir U staps coeff) (directions L) (K10, KS) in
  (K1, fold_left (fun KS d1 => fold_left (force_pair U K1 d1) (directions L) KS) (directions L) KS).

(** 177-255 stout_smear_force: i = stoutlist.size() - 2, .., 0. KS0: the contents of
    KS.  U0 = stoutlist[i + 1] is not used.  An element outside of a list: None. *)
Fixpoint force_loop (turns : nat) (stoutlist staplist : list gauge) (coeff : re M) (K1 : gauge) (KS : momenta) : option momenta :=
  match turns with
  | O => Some KS
  | S i =>
      match nth_error stoutlist i, nth_error staplist i with
      | Some U, Some staps =>
          let '(K1, KS) := force_step U staps K1 coeff KS in
          force_loop i stoutlist staplist coeff K1 KS
      | _, _ => None
      end
  end.
Definition stout_smear_force (stoutlist staplist : list gauge) (K KS0 : momenta) (K10 : gauge) (coeff : re M) : option momenta :=
  let KS := fold_left (fun KS d1 => set_dir M G KS d1 (fun x => K d1 x)) (directions L) KS0 in
  force_loop (length stoutlist - 1) stoutlist staplist coeff K10 KS.
End Force.
