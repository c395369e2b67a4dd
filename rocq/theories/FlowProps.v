(** C92: the gradient flow lowers the action.
    C93: what is measured along the flow. *)
Set Warnings "-notation-overridden,-ambiguous-paths".
From Coq Require Import ZArith List.
From mathcomp Require Import all_ssreflect all_algebra.
From Verif Require Import LinalgSpec AlgebraModel AlgebraSpec
  GaugeModel GaugeSpec GaugeMatrix GaugeProofs1 GaugeProofs2 MatrixSpec ForceModel ForceSpec
  ForceProofs1 ForceProofs2 ForceProofs3 ForceProofs4 ForceProofs5 ForceProofs10 ForceProps
  GaussModel GaussSpec GaussProofs1 GaussProofs2
  FlowModel FlowSpec FlowProofs1 FlowProofs2 FlowProofs3 FlowProofs4 FlowProofs5 FlowProofs6 FlowProofs7 FlowProofs8 FlowProofs9.
Set Implicit Arguments.
Unset Strict Implicit.
Unset Printing Implicit Defensive.
Import Order.TTheory GRing.Theory Num.Theory.
Local Open Scope ring_scope.

Section Props.
Variables (C : numClosedFieldType) (n : nat).
(** Not used by what is proved here: the exponential function, pow(a,-1/3),
    4 pi^2, reunitarize() and the two actions that are not modelled. *)
Variables (ex : (nat -> C) -> 'M[C]_n) (power : C -> C) (fourpi2 : C) (reu : 'M[C]_n -> 'M[C]_n).
Variables (fbp flp : links C n -> moments C) (sbp slp : links C n -> C).
Notation CM := (complex_matrices C n).
Notation LM := (complex_linear C n).
Notation SU := (su_algebra C n).
Notation PG := (su_gauss ex).
Notation QF := (su_flow power fourpi2 reu).
Notation force L := (get_gf_force CM LM SU PG QF L fbp flp).
Notation action L := (measure_gf_s CM LM SU QF L sbp slp).

(** ** C92 *)

(** Links that move with the force as momenta lower the action of the flow: its
    derivative is minus the squared length of the force over 2n. *)
Theorem C92_decrease : forall L a U V stale K0 E, (0 < n)%N -> sizes L -> (1 < length L)%N -> modelled a -> a <> Zeuthen ->
  unitary_links L V -> links_move L U V (force L a V stale K0 E) ->
  derivative (fun t => action L a (U t)) (action L a V) (- (length2 n L (force L a V stale K0 E) / (2%:R * n%:R))).
Proof. by move=> L a U V stale K0 E n0 HL hL m z HV H; exact: (gf_decrease sbp slp n0 HL hL m z HV H). Qed.

(** The Zeuthen flow lowers the Luescher-Weisz action at least as fast as 2/3 of
    the flow of that action. *)
Theorem C92_zeuthen_decrease : forall L U V stale K0 E, (0 < n)%N -> sizes L -> (1 < length L)%N ->
  unitary_links L V -> links_move L U V (force L Zeuthen V stale K0 E) ->
  exists2 D, derivative (fun t => action L Zeuthen (U t)) (action L Zeuthen V) D &
    D <= - (length2 n L (force L Luscher_Weisz V stale K0 K0) / (3%:R * n%:R)).
Proof. by move=> L U V stale K0 E n0 HL hL HV H; exact: (gf_decrease_zeuthen sbp slp n0 HL hL HV H). Qed.

(** The components of the force are real, so its squared length is positive
    unless every component is 0. *)
Theorem C92_stationary : forall L a V stale K0 E, (0 < n)%N -> sizes L -> (1 < length L)%N -> modelled a -> unitary_links L V ->
  let F := force L a V stale K0 E in
  [/\ real_momenta n L F, 0 <= length2 n L F &
      length2 n L F = 0 -> forall d x k, (d < length L)%N -> on_lattice L x -> (k < n * n - 1)%N -> F d x k = 0].
Proof.
move=> L a V stale K0 E n0 HL hL m HV F.
have R : real_momenta n L F by exact: (gf_real ex power fourpi2 reu fbp flp (fun _ => 0) (fun _ => 0) n0 HL hL stale K0 E m HV).
by split; [exact: R|exact: length2_ge0|exact: length2_eq0].
Qed.

(** The force follows gauge transformations. *)
Theorem C92_covariant : forall L a V stale stale' K0 K0' E E' g, (0 < n)%N -> sizes L -> (1 < length L)%N ->
  modelled a -> a <> Zeuthen -> unitary_links L V -> (forall x, on_lattice L x -> GaugeSpec.unitary CM (g x)) ->
  transformed L g (force L a V stale K0 E) (force L a (transform CM L g V) stale' K0' E').
Proof.
move=> L a V stale stale' K0 K0' E E' g n0 HL hL [m1 m2] m3 HV Hg.
have I a' : transformed L g
   (get_force_impr CM SU L V stale E (frc C (Zpos xH) (Zpos xH) * @plaqw C n power fourpi2 reu a') (frc C (Zpos xH) (Zpos xH) * @rect C n power fourpi2 reu a'))
   (get_force_impr CM SU L (transform CM L g V) stale' E' (frc C (Zpos xH) (Zpos xH) * @plaqw C n power fourpi2 reu a') (frc C (Zpos xH) (Zpos xH) * @rect C n power fourpi2 reu a')).
  exact: (impr_covariant n0 HL Hg stale E stale' E' hL HV (frc_real C (Zpos xH) (Zpos xH)) (plaqw_real power fourpi2 reu a') (rect_real power fourpi2 reu a')).
case: a m1 m2 m3 => // _ _ _; [|exact: I|exact: I|exact: I].
exact: (wplaq_covariant n0 HL Hg V stale E stale' E' hL (frc_real C (Zpos xH) (Zpos xH))).
Qed.

(** That of the Zeuthen flow does not: if the Luescher-Weisz force of a link
    between two different sites is not 0, there is a gauge transformation of
    SU(n) that it does not follow. *)
Theorem C92_zeuthen_covariant_refuted : forall L V stale K0 E d x, (0 < n)%N -> sizes L -> (1 < length L)%N -> unitary_links L V ->
  (d < length L)%N -> on_lattice L x -> up L d x <> x ->
  algebra_matrix n (force L Luscher_Weisz V stale K0 K0 d x) <> 0 ->
  exists2 g, (forall y, special (g y)) &
    ~ transformed L g (force L Zeuthen V stale K0 E) (force L Zeuthen (transform CM L g V) stale K0 E).
Proof.
move=> L V stale K0 E d x n0 HL hL HV hd hx ne nz.
pose F' g := force L Luscher_Weisz (transform CM L g V) stale K0 K0.
have m : modelled Luscher_Weisz by split.
have [|g sg N] := zeuthen_not_covariant n0 HL (gf_real ex power fourpi2 reu fbp flp (fun _ => 0) (fun _ => 0) n0 HL hL stale K0 K0 m HV) HV (F' := F') _ hd hx ne nz.
  move=> g Hg; split; last exact: C92_covariant.
  exact: (gf_real ex power fourpi2 reu fbp flp (fun _ => 0) (fun _ => 0) n0 HL hL stale K0 K0 m (transform_unitary HL Hg HV)).
exists g => // T; apply: N => d' x' hd' hx'.
have e (U : links C n) : algebra_matrix n (force L Zeuthen U stale K0 E d' x')
    = algebra_matrix n (zeuthen L U (force L Luscher_Weisz U stale K0 K0) d' x').
  by apply: Ex_ext => k hk; exact: gf_zeuthen.
by rewrite -!e; exact: T.
Qed.

(** ** C93 *)

(** measure_dE_wplaq_dt is the derivative of the plaquette energy along the flow:
    the lattice volume times the energy density that is printed. *)
Theorem C93_plaquette : forall L a U V stale K0 K Kc, (0 < n)%N -> sizes L -> (1 < length L)%N -> modelled a ->
  unitary_links L V -> links_move L U V (force L a V stale K0 K) ->
  derivative (fun t => volume C L * eplaq CM LM SU QF L n (U t)) (volume C L * eplaq CM LM SU QF L n V)
    (measure_dE_wplaq_dt CM LM SU PG QF L fbp flp a V stale K0 K Kc).
Proof.
move=> L a U V stale K0 K Kc n0 HL hL m HV H; rewrite (eplaq_value power fourpi2 reu HL hL).
apply: deriv_ext (dE_wplaq (fun _ => 0) (fun _ => 0) n0 HL hL Kc m HV H) => t _.
by rewrite (eplaq_value power fourpi2 reu HL hL).
Qed.

(** In four dimensions the two values of measure_topo_charge_and_energy_clover are
    the topological charge and the energy of the clover field strength, and the
    energy is 2n times the clover action. *)
Theorem C93_clover : forall L V F0, (0 < n)%N -> sizes L -> length L = 4%N -> unitary_links L V ->
  measure_topo_charge_and_energy_clover CM LM SU QF L V F0 = (topological_charge fourpi2 L V, clover_energy L V) /\
  clover_energy L V = 2%:R * n%:R * measure_s_clover CM LM L V.
Proof.
move=> L V F0 n0 HL h4 HV; split; first exact: measured_clover.
by rewrite C88_action //; apply: energy_clover; rewrite pnatr_eq0 -lt0n.
Qed.

(** measure_dE_clov_dt is the derivative along the flow of 2n times the clover
    action, which is that energy when the links are unitary. *)
Theorem C93_clover_derivative : forall L a U V stale K0 K Kc, (0 < n)%N -> sizes L -> (1 < length L)%N -> modelled a ->
  unitary_links L V -> links_move L U V (force L a V stale K0 K) ->
  derivative (fun t => 2%:R * n%:R * measure_s_clover CM LM L (U t)) (2%:R * n%:R * measure_s_clover CM LM L V)
    (measure_dE_clov_dt CM LM SU PG QF L fbp flp a V stale K0 K Kc).
Proof.
move=> L a U V stale K0 K Kc n0 HL hL m HV H.
exact: (dE_clov (fun _ => 0) (fun _ => 0) n0 HL hL Kc m HV H).
Qed.

(** Both values do not depend on the gauge. *)
Theorem C93_invariant : forall L V F0 F0' g, (0 < n)%N -> sizes L -> length L = 4%N -> unitary_links L V ->
  (forall x, on_lattice L x -> GaugeSpec.unitary CM (g x)) ->
  measure_topo_charge_and_energy_clover CM LM SU QF L (transform CM L g V) F0 =
  measure_topo_charge_and_energy_clover CM LM SU QF L V F0'.
Proof.
move=> L V F0 F0' g n0 HL h4 HV Hg.
rewrite (measured_clover n0 HL power fourpi2 reu F0' h4 HV).
rewrite (measured_clover n0 HL power fourpi2 reu F0 h4 (transform_unitary HL Hg HV)).
by rewrite (charge_invariant HL fourpi2 Hg) (energy_invariant HL Hg).
Qed.

(** In another number of dimensions both are 0, whatever the field. *)
Theorem C93_dimensions : forall L V F0, length L <> 4%N ->
  measure_topo_charge_and_energy_clover CM LM SU QF L V F0 = (0, 0).
Proof. by move=> L V F0 H; exact: not_four. Qed.
End Props.

Print Assumptions C92_decrease.
Print Assumptions C92_zeuthen_decrease.
Print Assumptions C92_stationary.
Print Assumptions C92_covariant.
Print Assumptions C92_zeuthen_covariant_refuted.
Print Assumptions C93_plaquette.
Print Assumptions C93_clover.
Print Assumptions C93_clover_derivative.
Print Assumptions C93_invariant.
Print Assumptions C93_dimensions.

(** ** Examples *)

(** A field of SU(3) on a lattice of 4 x 6 sites, and links that move with its
    force, for every action. *)
Example C92_example (C : numClosedFieldType) (ex : (nat -> C) -> 'M[C]_3) power fourpi2 reu fbp flp a stale K0 E :
  let L := [:: Z.of_nat 4; Z.of_nat 6] in let V := example_links C in
  let F := get_gf_force (complex_matrices C 3) (complex_linear C 3) (su_algebra C 3) (su_gauss ex)
             (su_flow power fourpi2 reu) L fbp flp a V stale K0 E in
  [/\ sizes L, (1 < length L)%N, unitary_links L V & links_move L (curve V F) V F].
Proof. by move=> L V F; split; [exact: example_sizes| |exact: example_unitary|exact: curve_moves]. Qed.

(** On 2 x 2 sites, with all links of SU(2) but one equal to 1, the force is not
    0: the action is really lowered, and the Zeuthen force is not covariant. *)
Example C92_force_example (C : numClosedFieldType) (ex : (nat -> C) -> 'M[C]_2) power fourpi2 reu fbp flp stale K0 :
  [/\ sizes square2, unitary_links square2 (@one_link (complex_matrices C 2) (root1 C)), on_lattice square2 origin,
    up square2 0 origin <> origin &
    algebra_matrix 2 (get_gf_force (complex_matrices C 2) (complex_linear C 2) (su_algebra C 2) (su_gauss ex)
      (su_flow power fourpi2 reu) square2 fbp flp Luscher_Weisz (@one_link (complex_matrices C 2) (root1 C)) stale K0 K0 0%N origin) <> 0].
Proof.
have HV : unitary_links square2 (@one_link (complex_matrices C 2) (root1 C)).
  have U : GaugeSpec.unitary (complex_matrices C 2) (root1 C).
    have := turn_unitary (real0 C); rewrite /turn /cosl /sinl expr0n !mul0r subr0 addr0 divr1 scale1r scale0r subr0; exact.
  exact: one_link_unitary.
split; [exact: square2_sizes|exact: HV|exact: origin_on|by []|].
have m : modelled Luscher_Weisz by split.
have z : Luscher_Weisz <> Zeuthen by [].
have G := gf_gradient ex power fourpi2 reu fbp flp (fun _ => 0) (fun _ => 0) (ltn0Sn 1) square2_sizes isT stale K0 K0 m z HV.
apply: (one_link_force G).
have r : @rect C 2 power fourpi2 reu Luscher_Weisz = - (1 / 12%:R) by exact: frc_neg.
have q : @plaqw C 2 power fourpi2 reu Luscher_Weisz = 20%:R / 12%:R.
  rewrite -five_thirds frc_pos; apply/eqP; rewrite eqr_div ?pnatr_eq0 //; apply/eqP; by rewrite -!natrM.
have -> : 2%:R * @plaqw C 2 power fourpi2 reu Luscher_Weisz + 4%:R * @rect C 2 power fourpi2 reu Luscher_Weisz = 3%:R.
  rewrite q r mulrN !mulrA -mulrBl mulr1 -natrM -natrB //.
  by rewrite -[(2 * 20 - 4)%N]/(3 * 12)%N natrM mulfK // pnatr_eq0.
by apply/eqP; rewrite mulf_neq0 ?pnatr_eq0 // oppr_eq0 -natrM pnatr_eq0.
Qed.

(** Four dimensions. *)
Example C93_example (C : numClosedFieldType) : let L := [:: Z.of_nat 4; Z.of_nat 6; Z.of_nat 2; Z.of_nat 4] in
  [/\ sizes L, length L = 4%N & unitary_links L (example_links C)].
Proof.
move=> L; split; [by repeat constructor|by []|move=> d x _ _; split; rewrite /= /example_links; case: Z.even;
  by rewrite map_scalar_mx tr_scalar_mx -scalar_mxM ?conjCi ?rmorph1 ?mulNr ?mulrN -?expr2 ?sqrCi ?opprK ?mulr1 ?expr1n].
Qed.
