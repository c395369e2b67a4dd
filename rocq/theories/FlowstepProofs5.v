(** A run of the integration that comes to its end. *)
Set Warnings "-notation-overridden,-ambiguous-paths".
From Coq Require Import ZArith List.
From mathcomp Require Import all_ssreflect all_algebra.
From Verif Require Import LinalgSpec AlgebraModel AlgebraSpec
  GaugeModel GaugeSpec GaugeMatrix GaugeProofs1 GaugeProofs2 MatrixSpec ForceModel ForceSpec
  ForceProofs1 ForceProofs3 GaussModel GaussSpec FlowModel FlowSpec FlowProofs1 FlowProofs4 FlowstepModel FlowstepSpec FlowstepProofs1.
Set Implicit Arguments.
Unset Strict Implicit.
Unset Printing Implicit Defensive.
Import Order.TTheory GRing.Theory Num.Theory.
Local Open Scope ring_scope.

Section Run.
Variables (C : numClosedFieldType) (n : nat) (L : list Z).
Variables (ex : (nat -> C) -> 'M[C]_n) (fourpi2 : C) (reu : 'M[C]_n -> 'M[C]_n).
Variable F : links C n -> moments C.
Definition ten (_ : C) : C := 10%:R.
Lemma ten_real (a : C) : a \is Num.real -> ten a \is Num.real. Proof. by move=> _; exact: realn. Qed.
Notation CM := (complex_matrices C n).
Notation LM := (complex_linear C n).
Notation SU := (su_algebra C n).
Notation PG := (su_gauss ex).
Notation QF := (su_flow ten fourpi2 reu).
Notation rmin := (rmin CM SU QF).
Notation less := (less CM SU QF).
Notation field_max := (field_max CM SU QF L).
Notation all_max := (all_max CM SU QF L).

Lemma field_max_lt (f : site -> C) (c : C) : 0 < c -> (forall x, on_lattice L x -> f x < c) -> field_max f < c.
Proof.
move=> c0 H; have : forall x, In x (sites L) -> f x < c by move=> x /sites_In; exact: H.
rewrite /field_max; case: (sites L) => [//|x0 l] {}H.
have : f x0 < c by apply: H; left.
move: (f x0); have {H} : forall x, In x l -> f x < c by move=> x h; apply: H; right.
elim: l => [|y l IH] H m hm //=; apply: IH => [x h|]; first by apply: H; right.
by case: ifP => _ //; apply: H; left.
Qed.

Lemma all_max_lt (f : nat -> site -> C) (c : C) : 0 < c ->
  (forall d x, (d < length L)%N -> on_lattice L x -> f d x < c) -> all_max f < c.
Proof.
move=> c0 H; rewrite /all_max.
have : forall d, In d (directions L) -> field_max (f d) < c.
  by move=> d /directions_lt hd; apply: field_max_lt => // x; exact: H.
have G (l : list nat) (m : C) : m < c -> (forall d, In d l -> field_max (f d) < c) ->
   fold_left (fun m d => let tm := field_max (f d) in if less m tm then tm else m) l m < c.
  elim: l m => [|d l IH] m hm {}H //=.
  apply: IH => [|d' h]; last by apply: H; right.
  by case: ifP => _ //; apply: H; left.
exact: G.
Qed.

Notation rk3 := (runge_kutta3 ex F).
Notation relerr V h tatol := (relative_error CM LM SU PG QF L tatol 0 h (rk3 h V) (runge_kutta2 ex F h V) (exponent_low ex F h V)) (only parsing).

(** The step is accepted with a large enough tolerance. *)
Lemma tolerance (h : C) (V : links C n) : exists2 B : C, 0 <= B & forall tatol, B < tatol -> relerr V h tatol < 1.
Proof.
pose f (d : nat) (x : site) := size_of n (@algebra_components C n (runge_kutta2 ex F h V d x *m conjugate (rk3 h V d x))).
have R d x : (d < length L)%N -> on_lattice L x -> f d x \is Num.real by move=> _ _; apply: ger0_real; rewrite /f; apply: size_of_ge0.
have [A B] := all_max_facts ten fourpi2 reu R.
exists (all_max f) => // tatol hB.
apply: all_max_lt => // d x hd hx.
have t0 : 0 < tatol by exact: le_lt_trans hB.
have -> : radd CM tatol (rdiv CM SU QF (rmul CM LM 0 (rsqrt CM SU QF (anorm2 CM SU (exponent_low ex F h V d x)))) h) = tatol.
  by rewrite -[radd CM _ _]/(_ + 0 * _ / _) !mul0r addr0.
rewrite -[rdiv CM SU QF _ _]/(f d x / tatol) ltr_pdivr_mulr // mul1r.
by apply: le_lt_trans hB; exact: B.
Qed.

Notation loop := (flow_loop CM LM SU PG QF L F).
Notation next_step := (next_step CM LM SU QF).

Lemma next_two (e : C) : next_step e 2%:R 2%:R = 2%:R.
Proof.
rewrite /FlowstepModel.next_step -[inv_cube_root CM SU QF e]/(10%:R : C).
have e1 : frac CM SU QF (Zpos xH) (Zpos (xO (xI (xO xH)))) = 10%:R^-1 by rewrite frcE frc_pos mul1r.
have e2 : frac CM SU QF (Zpos (xO (xI (xO xH)))) (Zpos xH) = 10%:R by rewrite frcE frc_pos divr1.
have e3 : frac CM SU QF (Zpos (xI (xO (xO xH)))) (Zpos (xO (xI (xO xH)))) = 9%:R / 10%:R by rewrite frcE frc_pos.
rewrite e1 e2 e3 !at_leastE lexx.
have -> : (10%:R <= 10%:R^-1 :> C) = false.
  by apply/negP; rewrite -[10%:R^-1]mul1r ler_pdivl_mulr ?ltr0n // -natrM lern1.
rewrite -[rmul CM LM _ 2%:R]/(9%:R / 10%:R * 10%:R * 2%:R : C) divfK ?pnatr_eq0 // -natrM.
by rewrite /FlowstepModel.rmin at_leastE ler_nat.
Qed.

Lemma loop_accept fuel (tmax ub ta t step ts h : C) (st : bool) (V : links C n) :
  less t tmax = true -> (if at_least CM SU QF (radd CM t step) tmax then (rsub CM SU QF tmax t, true) else (step, false)) = (h, st) ->
  relerr V h ta < 1 ->
  loop fuel.+1 tmax ub ta 0 V V t step ts false =
  loop fuel tmax ub ta 0 (fun d x => reu (rk3 h V d x)) (fun d x => reu (rk3 h V d x)) (t + h) (next_step (relerr V h ta) h ub) step st.
Proof.
move=> l e a; cbn [FlowstepModel.flow_loop]; rewrite l; cbn [andb negb]; rewrite e rk_stepE.
have -> : less (relerr V h ta) (frac CM SU QF (Zpos xH) (Zpos xH)) = true.
  by rewrite /FlowstepModel.less frcE frc1 at_leastE (lt_geF a).
by [].
Qed.

Lemma run (V : links C n) : exists2 atol : C, 0 <= atol & exists V',
  do_gradient_flow_adapt CM LM SU PG QF L F 2 V 2%:R 6%:R atol 0 2%:R = Some (V', 2%:R).
Proof.
pose V1 : links C n := fun d x => reu (rk3 2%:R V d x).
have [B1 B10 H1] := tolerance 2%:R V; have [B2 B20 H2] := tolerance 2%:R V1.
pose atol := B1 + B2 + 1.
have a0 : 0 < atol by apply: ltr_paddl; [exact: addr_ge0|exact: ltr01].
have s1 : 1 <= sqrtC 2%:R :> C by rewrite -[X in X <= _]sqrtC1 ler_sqrtC ?ler1n // qualifE ?ler01 ?ler0n.
have ta : atol <= atol * sqrtC 2%:R by rewrite ler_pmulr.
exists atol; first exact: ltW.
exists (fun d x => reu (rk3 2%:R V1 d x)).
rewrite /do_gradient_flow_adapt.
have -> : frac CM SU QF (Zpos (xO (xO (xO xH)))) (Zpos xH) = 8%:R by rewrite frcE frc_pos divr1.
rewrite c_two.
have -> : rdiv CM SU QF (rmul CM LM 2%:R 2%:R) 8%:R = 1 / 2%:R.
  by rewrite -[LHS]/(2%:R * 2%:R / 8%:R : C) -natrM; apply/eqP; rewrite eqr_div ?pnatr_eq0 // mul1r -natrM.
have -> : rdiv CM SU QF (rmul CM LM 6%:R 6%:R) 8%:R = 9%:R / 2%:R.
  by rewrite -[LHS]/(6%:R * 6%:R / 8%:R : C) -natrM; apply/eqP; rewrite eqr_div ?pnatr_eq0 // -!natrM.
have -> : rdiv CM SU QF (rsub CM SU QF (9%:R / 2%:R) (1 / 2%:R)) 2%:R = 2%:R.
  rewrite -[LHS]/((9%:R / 2%:R - 1 / 2%:R) / 2%:R : C) -mulrBl -[X in _ - X]/(1%:R) -natrB //.
  by rewrite -[(9 - 1)%N]/(2 * 2 * 2)%N !natrM !mulfK ?pnatr_eq0.
rewrite -[rmul CM LM atol _]/(atol * sqrtC 2%:R).
have b1 : B1 < atol * sqrtC 2%:R by apply: lt_le_trans ta; rewrite /atol -addrA ltr_addl ltr_paddl ?ltr01.
have b2 : B2 < atol * sqrtC 2%:R by apply: lt_le_trans ta; rewrite /atol -addrA addrCA ltr_addl ltr_paddl ?ltr01.
have {H1} H1 := H1 _ b1; have {H2} H2 := H2 _ b2.
move: (atol * sqrtC 2%:R) H1 H2 => ta' H1 H2 {ta b1 b2}.
have r2 : (1 / 2%:R : C) \is Num.real by rewrite realM ?realV ?realn ?real1.
have r9 : (9%:R / 2%:R : C) \is Num.real by rewrite realM ?realV ?realn.
have -> : initial_step CM LM SU QF L F V (1 / 2%:R) 2%:R 2%:R = 2%:R.
  rewrite /initial_step.
  have -> : rmin 2%:R 2%:R = 2%:R by rewrite /FlowstepModel.rmin at_leastE lexx.
  by rewrite !is_zeroE mulf_eq0 oner_eq0 invr_eq0 pnatr_eq0.
have l (p q : nat) : (p < q)%N -> less (p%:R / 2%:R) (q%:R / 2%:R) = true.
  by move=> h; rewrite /FlowstepModel.less at_leastE ler_pmul2r ?invr_gt0 ?ltr0n // ler_nat leqNgt h.
have t2 (p : nat) : p%:R / 2%:R + 2%:R = (p + 4)%:R / 2%:R :> C.
  by rewrite -[X in _ + X](mulfK (x := 2%:R)) ?pnatr_eq0 // -natrM -mulrDl -natrD.
have g (p q : nat) : at_least CM SU QF (radd CM (p%:R / 2%:R) 2%:R) (q%:R / 2%:R) = (q <= p + 4)%N.
  by rewrite -[radd CM _ _]/(_ + _ : C) t2 at_leastE ler_pmul2r ?invr_gt0 ?ltr0n // ler_nat.
have d : rsub CM SU QF (9%:R / 2%:R) (5%:R / 2%:R) = 2%:R.
  by rewrite -[LHS](_ : 9%:R / 2%:R - 5%:R / 2%:R = _) // -(t2 5%N) addrC addKr.
rewrite (@loop_accept _ _ _ _ (1%:R / 2%:R) _ _ 2%:R false) //; last by rewrite (g 1%N 9%N).
  rewrite t2 next_two (@loop_accept _ _ _ _ _ _ _ 2%:R true) //; last by rewrite (g 5%N 9%N) d.
    by rewrite t2; cbn [FlowstepModel.flow_loop]; rewrite andbF.
  exact: l.
exact: (l 1%N).
Qed.
End Run.
