(** The Zeuthen force does not follow gauge transformations; measured derivatives. *)
Set Warnings "-notation-overridden,-ambiguous-paths".
From Coq Require Import ZArith List.
From mathcomp Require Import all_ssreflect all_fingroup all_algebra.
From Verif Require Import LinalgSpec FieldTac AlgebraModel AlgebraSpec AlgebraProofs2 AlgebraProofs4 AlgebraProofs5 AlgebraProps
  GaugeModel GaugeSpec GaugeMatrix GaugeProofs1 GaugeProofs2 MatrixSpec ForceModel ForceSpec
  ForceProofs1 ForceProofs2 ForceProofs3 ForceProofs4 ForceProofs5 ForceProofs7 ForceProofs10 ForceProps
  GaussModel GaussSpec GaussProofs1 GaussProofs2 GaussProofs3 GaussProofs4 GaussProofs7
  FlowModel FlowSpec FlowProofs1 FlowProofs2 FlowProofs3 FlowProofs4.
Set Implicit Arguments.
Unset Strict Implicit.
Unset Printing Implicit Defensive.
Import Order.TTheory GRing.Theory Num.Theory.
Local Open Scope ring_scope.

Section Gauge.
Variables (C : numClosedFieldType) (n : nat) (L : list Z).
Hypothesis n0 : (0 < n)%N.
Hypothesis HL : sizes L.
Notation CM := (complex_matrices C n).
Notation LM := (complex_linear C n).
Notation SU := (su_algebra C n).
Notation Ex := (@algebra_matrix C n).
Notation dn := (GaugeModel.down L).
Notation twelfth := (frc C (Zpos xH) (Zpos (xO (xO (xI xH))))).

Lemma Ex_zeuthen V F d x : real_momenta n L F -> unitary_links L V -> (d < length L)%N -> on_lattice L x ->
  Ex (zeuthen L V F d x) = Ex (F d x) + twelfth *: (V d x *m Ex (F d x) *m dg (V d x) + (- 2%:R) *: Ex (F d x)
    + dg (V d (dn d x)) *m Ex (F d (dn d x)) *m V d (dn d x)).
Proof.
move=> R HV hd hx; have hy := down_on L d x HL hx.
have RF y : on_lattice L y -> real_components (n * n - 1) (F d y) by move=> h k hk; exact: R.
have [_ u] := unitary_dg (HV d _ hd hx); have [_ w] := unitary_dg (HV d _ hd hy).
rewrite -(Ex_push n0 (RF _ hx) u) -(Ex_pull n0 (RF _ hy) w) -[Ex (pull _ _)]scale1r.
rewrite -!Ex_lin ?real1 ?rpredN ?realn //; last exact: frc_real.
by apply: Ex_ext => // k hk; rewrite mul1r mulNr.
Qed.

Lemma zeuthen_not_covariant V F F' : real_momenta n L F -> unitary_links L V ->
  (forall g, (forall x, on_lattice L x -> GaugeSpec.unitary CM (g x)) ->
     real_momenta n L (F' g) /\ @transformed C n L g F (F' g)) ->
  forall d x, (d < length L)%N -> on_lattice L x -> up L d x <> x -> Ex (F d x) <> 0 ->
  exists2 g, (forall y, special (g y)) &
    ~ @transformed C n L g (zeuthen L V F) (zeuthen L (transform CM L g V) (F' g)).
Proof.
move=> R HV HF d x hd hx ne nz.
have RF y : on_lattice L y -> real_components (n * n - 1) (F d y) by move=> h k hk; exact: R.
have [_ T0] := Ex_anti n0 (RF _ hx).
have [h sh hne] := rotated (introN eqP nz) T0.
have s1 : @special C n 1%:M.
  by apply: special_r; rewrite ?det1 // mul1mx /dg map_mx1 trmx1.
pose g (y : site) : 'M[C]_n := if list_eq_dec Z.eq_dec y (up L d x) then h else 1%:M.
have gu : g (up L d x) = h by rewrite /g; destruct (list_eq_dec Z.eq_dec _ _).
have gx : g x = 1%:M by rewrite /g; destruct (list_eq_dec Z.eq_dec x _) => //; case: ne.
have Hg y : special (g y) by rewrite /g; destruct (list_eq_dec Z.eq_dec _ _).
have Ug y : on_lattice L y -> GaugeSpec.unitary CM (g y) by move=> _; case: (Hg y).
exists g; first exact: Hg.
move=> /(_ d x hd hx); have [R' TF] := HF g Ug.
have HV' := transform_unitary HL Ug HV.
have hy := down_on L d x HL hx; have hu := up_on L d x HL hx.
rewrite (Ex_zeuthen R' HV' hd hx) (Ex_zeuthen R HV hd hx) /conjugate -/(dg _).
have EFx : Ex (F' g d x) = Ex (F d x) by rewrite (TF d x hd hx) /conjugate -/(dg _) gx mul1mx dg1 mulmx1.
have EFy : Ex (F' g d (dn d x)) = g (dn d x) *m Ex (F d (dn d x)) *m dg (g (dn d x)) by exact: (TF d _ hd hy).
rewrite EFx EFy gx mul1mx dg1 mulmx1.
have E1 : transform CM L g V d x = V d x *m dg h by rewrite (trE L g V) gx mul1mx gu.
have E2 : transform CM L g V d (dn d x) = g (dn d x) *m V d (dn d x) by rewrite (trE L g V) up_down // gx dg1 mulmx1.
rewrite E1 E2 => /addrI.
have -> : dg (g (dn d x) *m V d (dn d x)) *m (g (dn d x) *m Ex (F d (dn d x)) *m dg (g (dn d x)))
     *m (g (dn d x) *m V d (dn d x)) = dg (V d (dn d x)) *m Ex (F d (dn d x)) *m V d (dn d x).
  have [_ u] := unitary_dg (Ug _ hy); move: (g _) u => a u.
  by rewrite dg_mul !mulmxA -(mulmxA _ (dg a) a) u mulmx1 -(mulmxA _ (dg a) a) u mulmx1.
have t12 : twelfth != 0 by rewrite frc_pos mulf_neq0 ?invr_eq0 ?pnatr_eq0.
move=> /(scalerI t12) /addIr /addIr.
rewrite dg_mul dgK !mulmxA => E; apply: hne.
have [_ u] := unitary_dg (HV d x hd hx).
have : dg (V d x) *m (V d x *m dg h *m Ex (F d x) *m h *m dg (V d x)) *m V d x
     = dg (V d x) *m (V d x *m Ex (F d x) *m dg (V d x)) *m V d x by rewrite E.
by rewrite !mulmxA u !mul1mx -!(mulmxA _ (dg (V d x)) (V d x)) u !mulmx1.
Qed.
End Gauge.
