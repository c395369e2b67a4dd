(** Model of stout smearing that keeps the coefficients of the derivative, and of its
    use in HMC: libraries/gauge/stout_smear.h (257-381) stout_smear1k, stout_smeark,
    stout_smeark_force; applications/suN_hmc/src/suN_hmc.cpp (70-161) measure_s and
    update_E with STOUTSTEPS > 0.

    Fields as in [StoutModel].  chexpk (matrix.h 4071-4243) and mult_chexpk_fast (4266-)
    are not modelled: chexpk returns the exponential and stores [kexp] X;
    mult_chexpk_fast gives omat = texp.dagger() * mmat * texp and domat = [fast] mat
    texp kmats mmat. *)
From Coq Require Import ZArith List Bool.
From Verif Require Import Common GaugeModel ForceModel GaussModel StoutModel StoutforceModel.
Import ListNotations.

Section Stoutk.
Context (M : matrices) (LM : linear M) (G : algebras M) (P : gauss_ops M G) (L : list Z).
Context (kexp : alg M G -> mat M) (fast : alg M G -> mat M -> mat M -> alg M G -> mat M).
Notation "a * b" := (mul M a b).
Notation "a - b" := (msub M LM a b).
Notation dag := (dagger M).
Notation mfield := (mfield M).
Notation gauge := (gauge M).
Notation momenta := (momenta M G).

(** 257-267 stout_smear1k: (stout, stap, stoutk). *)
Definition stout_smear1k (U stout stap stoutk : gauge) (coeff : re M) : gauge * gauge * gauge :=
  let stap := staplesums M L U stap in
  let '(stout, stoutk) :=
    fold_left (fun st d =>
        let '(stout, stoutk) := st in
        let a := fun x => project M G (ropp M G coeff) (U d x * stap d x) in
        (set_links M stout d (fun x => aexp M G P (a x) * U d x),
         set_links M stoutk d (fun x => kexp (a x))))
      (directions L) (stout, stoutk) in
  (stout, stap, stoutk).

(** 269-280 stout_smeark.  An element outside of a list: None. *)
Fixpoint smeark_list (U : gauge) (stoutlist staplist stoutklist : list gauge) (coeff : re M) :
    option (list gauge * list gauge * list gauge) :=
  match stoutlist, staplist, stoutklist with
  | [], _, _ => Some ([], staplist, stoutklist)
  | stout :: stoutlist, stap :: staplist, stoutk :: stoutklist =>
      let '(stout, stap, stoutk) := stout_smear1k U stout stap stoutk coeff in
      match smeark_list stout stoutlist staplist stoutklist coeff with
      | Some (sl, pl, kl) => Some (stout :: sl, stap :: pl, stoutk :: kl)
      | None => None
      end
  | _, _, _ => None
  end.
Definition stout_smeark (U : gauge) (stoutlist staplist stoutklist : list gauge) (coeff : re M) :
    option (list gauge * list gauge * list gauge) :=
  match stoutlist with
  | [] => None
  | _ :: stoutlist =>
      match smeark_list U stoutlist staplist stoutklist coeff with
      | Some (sl, pl, kl) => Some (U :: sl, pl, kl)
      | None => None
      end
  end.

(** 303-333: K1 and KS in the direction d1. *)
Definition forcek_dir (U0 U dUK staps : gauge) (coeff : re M) (st : gauge * momenta) (d1 : nat) : gauge * momenta :=
  let '(K1, KS) := st in
  let tplaqs : mfield := fun x => U d1 x * staps d1 x in
  let a := fun x => project M G (ropp M G coeff) (tplaqs x) in
  let texp : mfield := fun x => U0 d1 x * dag (U d1 x) in
  let mtexp : mfield := fun x => dag (texp x) * to_matrix M G P (KS d1 x) * texp x in
  let mdtexp : mfield := fun x => fast (a x) (texp x) (dUK d1 x) (KS d1 x) in
  let k1 : mfield := fun x => to_matrix M G P (project M G coeff (mdtexp x)) in
  (set_links M K1 d1 (fun x => k1 x * U d1 x),
   set_dir M G KS d1 (fun x => to_algebra M G P (mtexp x - tplaqs x * k1 x))).

(** 297-380: one step of the loop.  The second part (337-379) is that of stout_smear_force. *)
Definition forcek_step (U0 U dUK staps K10 : gauge) (coeff : re M) (KS : momenta) : gauge * momenta :=
  let '(K1, KS) := fold_left (forcek_dir U0 U dUK staps coeff) (directions L) (K10, KS) in
  (K1, fold_left (fun KS d1 => fold_left (force_pair M LM G P L U K1 d1) (directions L) KS) (directions L) KS).

(** 281-381 stout_smeark_force. *)
Fixpoint forcek_loop (turns : nat) (stoutlist staplist stoutklist : list gauge) (coeff : re M) (K1 : gauge) (KS : momenta) :
    option momenta :=
  match turns with
  | O => Some KS
  | S i =>
      match nth_error stoutlist (i + 1), nth_error stoutlist i, nth_error stoutklist i, nth_error staplist i with
      | Some U0, Some U, Some dUK, Some staps =>
          let '(K1, KS) := forcek_step U0 U dUK staps K1 coeff KS in
          forcek_loop i stoutlist staplist stoutklist coeff K1 KS
      | _, _, _, _ => None
      end
  end.
Definition stout_smeark_force (stoutlist staplist stoutklist : list gauge) (K KS0 : momenta) (K10 : gauge) (coeff : re M) :
    option momenta :=
  let KS := fold_left (fun KS d1 => set_dir M G KS d1 (fun x => K d1 x)) (directions L) KS0 in
  forcek_loop (length stoutlist - 1) stoutlist staplist stoutklist coeff K10 KS.

(** suN_hmc.cpp 105-161 update_E with STOUTSTEPS > 0; add_force U E is
    get_force_.._add(U, E, eps).  f0, tE0, KS0, K10: what new fields hold. *)
Definition update_E_stout (add_force : gauge -> momenta -> momenta) (stout_nsteps : nat) (stoutc : re M)
    (f0 K10 : gauge) (tE0 KS0 : momenta) (U : gauge) (E : momenta) : option momenta :=
  match stout_smeark U (repeat f0 (stout_nsteps + 1)) (repeat f0 stout_nsteps) (repeat f0 stout_nsteps) stoutc with
  | None => None
  | Some (tUl, tstapl, tUKl) =>
      let tE := fold_left (fun tE d1 => set_dir M G tE d1 (fun _ => azero M G)) (directions L) tE0 in
      match nth_error tUl stout_nsteps with
      | None => None
      | Some tU =>
          let tE := add_force tU tE in
          match stout_smeark_force tUl tstapl tUKl tE KS0 K10 stoutc with
          | None => None
          | Some KS => Some (fold_left (fun E d1 => set_dir M G E d1 (fun x => aadd M G (E d1 x) (KS d1 x))) (directions L) E)
          end
      end
  end.
(** 105-161 with the plaquette action and the improved actions. *)
Definition update_E_stout_wplaq (stout_nsteps : nat) (stoutc : re M) f0 K10 tE0 KS0 (stale : mfield) (U : gauge) (E : momenta) (delta : re M) :=
  let eps := over_n M LM delta in
  update_E_stout (fun U E => get_force_wplaq_add M G L U stale E eps) stout_nsteps stoutc f0 K10 tE0 KS0 U E.
Definition update_E_stout_impr (stout_nsteps : nat) (stoutc : re M) f0 K10 tE0 KS0 (stale : mfield) (c11 c12 : re M) (U : gauge) (E : momenta) (delta : re M) :=
  let eps := over_n M LM delta in
  update_E_stout (fun U E => get_force_impr_add M G L U stale E (rmul M LM eps c11) (rmul M LM eps c12)) stout_nsteps stoutc f0 K10 tE0 KS0 U E.

(** 70-103 measure_s with STOUTSTEPS > 0; s is the action.  tU0, tmp0: what new fields hold. *)
Definition measure_s_stout (s : gauge -> re M) (stout_nsteps : nat) (stoutc : re M) (tU0 tmp0 U : gauge) : re M :=
  s (stout_smear M G P L U tU0 tmp0 stoutc (Z.of_nat stout_nsteps)).
End Stoutk.
