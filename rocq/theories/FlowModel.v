(** Model of the gradient flow: libraries/gauge/gradient_flow.h (without the
    bulk-prevention and the log-plaquette actions, which are arguments here) and
    libraries/gauge/energy_and_topo_charge_clover.h.

    Sites, neighbours, matrices and site loops are those of [GaugeModel],
    [ForceModel] and [GaussModel].  Numbers are exact.  A sum over the lattice is
    the sum of the values of the sites (C18-C20).  A field that is declared and
    not yet assigned has an arbitrary value: [stale] for the sum of staples
    inside the forces (the same value in all calls), [K0] for algebra fields. *)
From Coq Require Import ZArith List Bool.
From Verif Require Import Common GaugeModel ForceModel GaussModel.
Import ListNotations.

(** More operations on numbers. *)
Record flow_ops (M : matrices) (G : algebras M) := mkFlowOps {
  frac : Z -> Z -> re M;                   (* the number p / q *)
  rsub : re M -> re M -> re M;
  rdiv : re M -> re M -> re M;
  rsqrt : re M -> re M;
  at_least : re M -> re M -> bool;         (* a >= b *)
  inv_cube_root : re M -> re M;            (* pow(a, -1.0 / 3.0) *)
  over_4pi2 : re M -> re M;                (* a / (4.0 * M_PI * M_PI) *)
  adot : alg M G -> alg M G -> re M;       (* a.dot(b) *)
  reunitarize : mat M -> mat M             (* A.reunitarize() *)
}.

(** gradient_flow.h 20-29. *)
Inductive flow_action :=
  Wilson | Bulk_Prevention | Luscher_Weisz | Iwasaki | DBW2 | Log_Plaq | Zeuthen.

Section Flow.
Context (M : matrices) (LM : linear M) (G : algebras M) (P : gauss_ops M G) (Q : flow_ops M G) (L : list Z).
Context (force_bp force_log_plaq : gauge M -> momenta M G) (s_bp s_log_plaq : gauge M -> re M).
Notation "a * b" := (mul M a b).
Notation "a + b" := (madd M a b).
Notation dag := (dagger M).
Notation "x +/ d" := (up L d x) (at level 45, left associativity).
Notation "x -/ d" := (down L d x) (at level 45, left associativity).
Notation momenta := (momenta M G).
Notation mfield := (mfield M).
Notation "p /// q" := (frac M G Q p q) (at level 40).

(** sun_matrix.h 737-749 (C73). *)
Definition right_conjugation (U : mat M) (E : alg M G) : alg M G :=
  to_algebra M G P (dag U * to_matrix M G P E * U).
Definition left_conjugation (U : mat M) (E : alg M G) : alg M G :=
  to_algebra M G P (U * to_matrix M G P E * dag U).

(** ** The force *)

(** 73-98 get_zeuthen_flow_force. *)
Definition get_zeuthen_flow_force (U : gauge M) (stale : mfield) (K0 E : momenta) (eps : re M) : momenta :=
  let c12 := (-1 /// 12)%Z in
  let c11 := (5 /// 3)%Z in
  let F_LW := get_force_impr M G L U stale K0 (rmul M LM eps c11) (rmul M LM eps c12) in
  fold_left (fun E d => set_dir M G E d (fun x =>
      aadd M G (F_LW d x)
        (ascale M G P (1 /// 12)%Z
          (aadd M G
            (asub M G (left_conjugation (U d x) (F_LW d x)) (ascale M G P (2 /// 1)%Z (F_LW d x)))
            (right_conjugation (U d (x -/ d)) (F_LW d (x -/ d)))))))
    (directions L) E.

(** 115-131, 157-173: the weights of the rectangles and of the plaquettes. *)
Definition rectangle_weight (a : flow_action) : re M :=
  match a with
  | Iwasaki => (-331 /// 1000)%Z
  | DBW2 => (-14088 /// 10000)%Z
  | _ => (-1 /// 12)%Z
  end.
Definition plaquette_weight (a : flow_action) : re M :=
  rsub M G Q (1 /// 1)%Z (rmul M LM (8 /// 1)%Z (rectangle_weight a)).

(** 100-142 get_gf_force. *)
Definition get_gf_force (a : flow_action) (U : gauge M) (stale : mfield) (K0 E : momenta) : momenta :=
  let eps := (1 /// 1)%Z in
  match a with
  | Wilson => get_force_wplaq M G L U stale E eps
  | Bulk_Prevention => force_bp U
  | Luscher_Weisz | Iwasaki | DBW2 =>
      get_force_impr M G L U stale E (rmul M LM eps (plaquette_weight a)) (rmul M LM eps (rectangle_weight a))
  | Log_Plaq => force_log_plaq U
  | Zeuthen => get_zeuthen_flow_force U stale K0 E eps
  end.

(** 144-183 measure_gf_s. *)
Definition measure_gf_s (a : flow_action) (U : gauge M) : re M :=
  match a with
  | Wilson => measure_s_wplaq M L U
  | Bulk_Prevention => s_bp U
  | Zeuthen | Luscher_Weisz | Iwasaki | DBW2 =>
      measure_s_impr M LM L U (plaquette_weight a) (rectangle_weight a)
  | Log_Plaq => s_log_plaq U
  end.

(** ** The measured derivatives *)

(** 191-195, 206-210: the sum of the scalar products. *)
Definition sum_dot (Kc K : momenta) : re M :=
  fold_left (fun de d => fold_left (fun de x => radd M de (adot M G Q (Kc d x) (K d x))) (sites L) de)
    (directions L) (rzero M).

(** 185-198 measure_dE_wplaq_dt. *)
Definition measure_dE_wplaq_dt (a : flow_action) (U : gauge M) (stale : mfield) (K0 K Kc : momenta) : re M :=
  let K := get_gf_force a U stale K0 K in
  let Kc := get_force_wplaq M G L U stale Kc (-2 /// 1)%Z in
  sum_dot Kc K.

(** 200-213 measure_dE_clov_dt. *)
Definition measure_dE_clov_dt (a : flow_action) (U : gauge M) (stale : mfield) (K0 K Kc : momenta) : re M :=
  let K := get_gf_force a U stale K0 K in
  let Kc := get_force_clover M LM G L U Kc (-2 /// 1)%Z in
  sum_dot Kc K.

(** 252-257: the average of the plaquette action and the energy density of it. *)
Definition plaquette_energy (U : gauge M) : re M :=
  let ndim := Z.of_nat (length L) in
  let plaq := rdiv M G Q (measure_s_wplaq M L U)
                ((zprod L * ndim * (ndim - 1) / 2)%Z /// 1%Z) in
  rmul M LM plaq ((ndim * (ndim - 1))%Z /// 1%Z) .

(** times group::size(). *)
Definition eplaq (size : nat) (U : gauge M) : re M :=
  rmul M LM (plaquette_energy U) (Z.of_nat size /// 1%Z).

(** ** energy_and_topo_charge_clover.h *)

(** 47-79: one component of the field strength. *)
Definition field_strength (U : gauge M) (dir1 dir2 : nat) : mfield :=
  let tF0 : mfield := fun x =>
    let a := U dir1 x * U dir2 (x +/ dir1) * dag (U dir2 x * U dir1 (x +/ dir2)) in
    let b := msub M LM a (dag a) in
    let c := mscale M LM (rhalf M LM) b in
    untrace M LM c in
  let tF1 : mfield := fun x => dag (U dir1 x) * tF0 x * U dir1 x in
  let tF0' : mfield := fun x => tF0 x + tF1 (x -/ dir1) in
  fun x => mscale M LM (rquarter M LM)
    (tF0' x + dag (U dir2 (x -/ dir2)) * tF0' (x -/ dir2) * U dir2 (x -/ dir2)).

(** 44-80: the array F[6] and the counter k. *)
Definition field_strengths (U : gauge M) (F : nat -> mfield) : (nat -> mfield) * nat :=
  fold_left (fun st dd =>
      let '(dir1, dir2) := dd in
      let '(F, k) := st in
      if (dir1 <? dir2)%nat then
        ((fun k' => if (k' =? k)%nat then field_strength U dir1 dir2 else F k'), S k)
      else st)
    (list_prod (directions L) (directions L)) (F, O).

(** 10-98 measure_topo_charge_and_energy_clover: (qtopo_out, energy_out).  In
    other than four dimensions there is no loop. *)
Definition measure_topo_charge_and_energy_clover (U : gauge M) (F0 : nat -> mfield) : re M * re M :=
  let '(qtopo, energy) :=
    if (length L =? 4)%nat then
      let F := fst (field_strengths U F0) in
      let mul_trace (A B : mat M) : re M := real M (trace M (A * B)) in
      fold_left (fun st x =>
          let '(qtopo, energy) := st in
          let qtopo := radd M qtopo (mul_trace (F 0%nat x) (F 5%nat x)) in
          let qtopo := radd M qtopo (ropp M G (mul_trace (F 1%nat x) (F 4%nat x))) in
          let qtopo := radd M qtopo (mul_trace (F 2%nat x) (F 3%nat x)) in
          let energy := radd M energy (squarenorm M LM (F 0%nat x)) in
          let energy := radd M energy (squarenorm M LM (F 1%nat x)) in
          let energy := radd M energy (squarenorm M LM (F 2%nat x)) in
          let energy := radd M energy (squarenorm M LM (F 3%nat x)) in
          let energy := radd M energy (squarenorm M LM (F 4%nat x)) in
          let energy := radd M energy (squarenorm M LM (F 5%nat x)) in
          (qtopo, energy))
        (sites L) (rzero M, rzero M)
    else (rzero M, rzero M) in
  (over_4pi2 M G Q qtopo, energy).

End Flow.
