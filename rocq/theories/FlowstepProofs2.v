(** The integration of the flow follows gauge transformations. *)
Set Warnings "-notation-overridden,-ambiguous-paths".
From Coq Require Import ZArith List.
From mathcomp Require Import all_ssreflect all_fingroup all_algebra.
From Verif Require Import LinalgSpec FieldTac AlgebraModel AlgebraSpec AlgebraProofs2 AlgebraProofs4 AlgebraProofs5 AlgebraProps
  GaugeModel GaugeSpec GaugeMatrix GaugeProofs1 GaugeProofs2 MatrixSpec ForceModel ForceSpec
  ForceProofs1 ForceProofs2 ForceProofs3 ForceProofs4 ForceProofs5 ForceProofs7 ForceProofs10 ForceProps
  ForceProofs9 GaussModel GaussSpec GaussProofs1 GaussProofs2 GaussProofs3 GaussProofs4 GaussProofs6 GaussProofs7
  FlowModel FlowSpec FlowProofs1 FlowProofs2 FlowProofs3 FlowProofs4 FlowProofs5 FlowProofs6 FlowProofs7
  FlowstepModel FlowstepSpec FlowstepProofs1.
Set Implicit Arguments.
Unset Strict Implicit.
Unset Printing Implicit Defensive.
Import Order.TTheory GRing.Theory Num.Theory.
Local Open Scope ring_scope.

Section Gauge.
Variables (C : numClosedFieldType) (n : nat) (L : list Z).
Variables (ex : (nat -> C) -> 'M[C]_n) (power : C -> C) (fourpi2 : C) (reu : 'M[C]_n -> 'M[C]_n).
Variable F : links C n -> moments C.
Hypothesis n0 : (0 < n)%N.
Hypothesis HL : sizes L.
Hypothesis power_real : forall a, a \is Num.real -> power a \is Num.real.
Hypothesis HE : matrix_exponential ex.
Hypothesis HR : forall A, special A -> reu A = A.
Hypothesis HF : covariant_force L F.
Variable g : site -> 'M[C]_n.
Hypothesis Hg : forall x, on_lattice L x -> special (g x).
Notation CM := (complex_matrices C n).
Notation LM := (complex_linear C n).
Notation SU := (su_algebra C n).
Notation PG := (su_gauss ex).
Notation QF := (su_flow power fourpi2 reu).
Notation Ex := (@algebra_matrix C n).
Notation toalg := (@algebra_components C n).
Notation TR := (@transformed C n L g).
Notation IG := (in_gauge L g).
Notation SP := (special_links L).
Notation RM := (@real_momenta C n L).

(** ** SU(n) *)
Lemma special_mul (A B : 'M[C]_n) : special A -> special B -> special (A *m B).
Proof.
move=> [[a1 a2] da] [[b1 b2] db]; split; last by rewrite det_mulmx da db mulr1.
move: a1 a2 b1 b2; rewrite /GaugeSpec.unitary -!/(dg _) -[mone CM]/(1%:M) -![mul CM _ _]/(_ *m _) => a1 a2 b1 b2.
have E : dagger CM (A *m B) = dg B *m dg A by exact: dg_mul.
rewrite !E; split; [rewrite -mulmxA (mulmxA B)|rewrite -mulmxA (mulmxA (dg A))].
  by rewrite -[dagger CM B]/(dg B) in b1; rewrite b1 mul1mx.
by rewrite -[dagger CM A]/(dg A) in a2; rewrite a2 mul1mx.
Qed.
Lemma special_dg (A : 'M[C]_n) : special A -> special (dg A).
Proof.
move=> [[a1 a2] da]; split; first by split; rewrite -[dagger CM (dg A)]/(dg (dg A)) dgK.
by rewrite /dg det_tr det_map_mx da rmorph1.
Qed.

Lemma moved_special K V : RM K -> SP V -> SP (moved ex K V).
Proof.
move=> RK HV d x hd hx; apply: special_mul; last exact: HV.
by apply: HE.1 => k hk; exact: RK.
Qed.
Lemma gauge_special V W : IG V W -> SP V -> SP W.
Proof.
move=> I HV d x hd hx; rewrite (I d x hd hx).
apply: special_mul; first apply: special_mul; [exact: Hg|exact: HV|].
by apply: special_dg; apply: Hg; exact: up_on.
Qed.
Lemma gu x : on_lattice L x -> dg (g x) *m g x = 1%:M.
Proof. by move=> hx; case: (Hg hx) => [[_ e] _]. Qed.

Lemma moved_gauge K K' V W : TR K K' -> IG V W -> IG (moved ex K V) (moved ex K' W).
Proof.
move=> T I d x hd hx; rewrite /moved (I d x hd hx).
rewrite (HE.2 (K d x) (K' d x) (g x) (Hg hx).1 (T d x hd hx)).
rewrite /transform /conjugate -!/(dg _) -![mul CM _ _]/(_ *m _).
by rewrite !mulmxA -(mulmxA _ (dg (g x)) (g x)) gu // mulmx1.
Qed.

(** ** Momenta *)
Lemma combine_real (a b : C) (K K' : moments C) : a \is Num.real -> b \is Num.real -> RM K -> RM K' -> RM (combine a b K K').
Proof. by move=> ra rb R R' d x k hd hx hk; rewrite realD // realM //; [exact: R|exact: R']. Qed.
Lemma Ex_two (a b : C) (K K' : nat -> C) : a \is Num.real -> b \is Num.real ->
  Ex (fun k => a * K k + b * K' k) = a *: Ex K + b *: Ex K'.
Proof.
move=> ra rb.
have E : Ex (fun k => a * K k) = a *: Ex K.
  have := Ex_lin n (fun _ => 0) K ra; rewrite Ex0 add0r => <-.
  by apply: Ex_ext => k _; rewrite add0r.
by rewrite -E -(Ex_lin n _ _ rb).
Qed.
Lemma combine_tr (a b : C) (K K' J J' : moments C) : a \is Num.real -> b \is Num.real -> TR K K' -> TR J J' ->
  TR (combine a b K J) (combine a b K' J').
Proof.
move=> ra rb T T' d x hd hx; rewrite /combine !Ex_two // (T d x hd hx) (T' d x hd hx).
by rewrite mulmxDr mulmxDl -!scalemxAr -!scalemxAl.
Qed.

(** The same momenta in two forms. *)
Definition eqm (K K' : moments C) : Prop := forall d x k, K d x k = K' d x k.
Lemma eqm_tr K K' J J' : eqm K J -> eqm K' J' -> TR K K' -> TR J J'.
Proof.
move=> e e' T d x hd hx.
have := T d x hd hx; rewrite (Ex_ext (a := K d x) (b := J d x)) => [|k _]; last exact: e.
by rewrite (Ex_ext (a := K' d x) (b := J' d x)) => [|k _]; last exact: e'.
Qed.
Lemma eqm_real K J : eqm K J -> RM K -> RM J.
Proof. by move=> e R d x k hd hx hk; rewrite -e; exact: R. Qed.

Section OneStep.
Variables (h : C) (V W : links C n).
Hypothesis rh : h \is Num.real.
Hypothesis HV : SP V.
Hypothesis I : IG V W.

Let HW : SP W. Proof. exact: gauge_special I HV. Qed.
Lemma rq (p q : nat) : h * (p%:R / q%:R) \is Num.real. Proof. by rewrite realM // realM ?realV ?realn. Qed.
Lemma rqN (p q : nat) : h * - (p%:R / q%:R) \is Num.real. Proof. by rewrite realM // realN realM ?realV ?realn. Qed.
Lemma rq1 : h * (1 / 4%:R) \is Num.real. Proof. exact: (rq 1 4). Qed.

Lemma F_real V' : SP V' -> RM (F V'). Proof. exact: HF.1. Qed.
Lemma F_tr V' W' : SP V' -> IG V' W' -> TR (F V') (F W').
Proof. by move=> h1 h2; exact: HF.2. Qed.

Lemma first_eqm V' : eqm (combine (h * (1 / 4%:R)) 0 (F V') (F V')) (fun d x k => h * (1 / 4%:R) * F V' d x k).
Proof. by move=> d x k; rewrite /combine mul0r addr0. Qed.

Lemma stage1_ok : SP (stage1 ex F h V) /\ IG (stage1 ex F h V) (stage1 ex F h W).
Proof.
have R := F_real HV.
split.
  apply: moved_special => //; apply: eqm_real (first_eqm V) _.
  by apply: combine_real => //; [exact: rq1|exact: real0].
apply: moved_gauge => //; apply: eqm_tr (first_eqm V) (first_eqm W) _.
by apply: combine_tr; [exact: rq1|exact: real0|exact: F_tr|exact: F_tr].
Qed.
Lemma exponent2_ok : RM (exponent2 ex F h V) /\ TR (exponent2 ex F h V) (exponent2 ex F h W).
Proof.
have [S1 I1] := stage1_ok; split.
  by apply: combine_real; [exact: rq|exact: rqN|exact: F_real|exact: F_real].
by apply: combine_tr; [exact: rq|exact: rqN|exact: F_tr|exact: F_tr].
Qed.
Lemma low_ok : RM (exponent_low ex F h V) /\ TR (exponent_low ex F h V) (exponent_low ex F h W).
Proof.
have [S1 I1] := stage1_ok; have r2 : h * 2%:R \is Num.real by rewrite realM ?realn.
split.
  by apply: combine_real; [exact: r2|exact: rqN|exact: F_real|exact: F_real].
by apply: combine_tr; [exact: r2|exact: rqN|exact: F_tr|exact: F_tr].
Qed.
Lemma stage2_ok : SP (stage2 ex F h V) /\ IG (stage2 ex F h V) (stage2 ex F h W).
Proof.
have [S1 I1] := stage1_ok; have [R2 T2] := exponent2_ok.
by split; [exact: moved_special|exact: moved_gauge].
Qed.
Lemma rk2_ok : SP (runge_kutta2 ex F h V) /\ IG (runge_kutta2 ex F h V) (runge_kutta2 ex F h W).
Proof.
have [S1 I1] := stage1_ok; have [R2 T2] := low_ok.
by split; [exact: moved_special|exact: moved_gauge].
Qed.
Lemma last_eqm V' : eqm (combine (h * (3%:R / 4%:R)) (-1) (F (stage2 ex F h V')) (exponent2 ex F h V'))
  (fun d x k => h * (3%:R / 4%:R) * F (stage2 ex F h V') d x k - exponent2 ex F h V' d x k).
Proof. by move=> d x k; rewrite [LHS]/combine mulN1r. Qed.
Lemma rk3_ok : SP (runge_kutta3 ex F h V) /\ IG (runge_kutta3 ex F h V) (runge_kutta3 ex F h W).
Proof.
have [S2 I2] := stage2_ok; have [R2 T2] := exponent2_ok.
have m1 : (-1 : C) \is Num.real by rewrite realN real1.
split.
  apply: moved_special => //; apply: eqm_real (last_eqm V) _.
  by apply: combine_real => //; [exact: rq|exact: F_real].
apply: moved_gauge => //; apply: eqm_tr (last_eqm V) (last_eqm W) _.
by apply: combine_tr; [exact: rq|exact: m1|exact: F_tr|exact: T2].
Qed.
End OneStep.

(** ** Lengths *)
Lemma norm_real (a : nat -> C) : real_components (n * n - 1) a -> anorm2 CM SU a = dot n a a.
Proof. by move=> R; apply: eq_bigr => k _; rewrite real_normK ?expr2 //; apply: R. Qed.
Lemma norm_tr x (a b : nat -> C) : on_lattice L x -> real_components (n * n - 1) a -> real_components (n * n - 1) b ->
  Ex b = g x *m Ex a *m conjugate (g x) -> anorm2 CM SU b = anorm2 CM SU a.
Proof.
move=> hx Ra Rb e; rewrite !norm_real // !(dot_Ex n0) // e /conjugate -/(dg _).
congr (- (_ * 'Re _)).
have -> : g x *m Ex a *m dg (g x) *m (g x *m Ex a *m dg (g x)) = g x *m (Ex a *m Ex a *m dg (g x)).
  by rewrite !mulmxA -(mulmxA _ (dg (g x)) (g x)) gu // mulmx1.
by rewrite mxtrace_mulC -(mulmxA _ (dg (g x)) (g x)) gu // mulmx1.
Qed.
Lemma diff_tr x (A B : 'M[C]_n) : on_lattice L x -> B = g x *m A *m dg (g x) ->
  anorm2 CM SU (toalg B) = anorm2 CM SU (toalg A).
Proof.
move=> hx e; apply: (norm_tr hx); [exact: toalg_real|exact: toalg_real|].
rewrite !(Ex_toalg n0) -!part_AP e /conjugate -/(dg _).
have := @part_conj C n (dg (g x)) A; rewrite dgK => -> //.
by case: (Hg hx) => [[e1 _] _].
Qed.

(** ** Maxima over the lattice *)
Notation all_max := (all_max CM SU QF L).
Lemma all_max_ext (f f' : nat -> site -> C) :
  (forall d x, (d < length L)%N -> on_lattice L x -> f d x = f' d x) -> all_max f = all_max f'.
Proof.
move=> H; rewrite /FlowstepModel.all_max; apply: fold_left_ext_In => m d /directions_lt hd.
have -> : FlowstepModel.field_max CM SU QF L (f d) = FlowstepModel.field_max CM SU QF L (f' d); last by [].
rewrite /field_max.
have {H} : forall x, In x (sites L) -> f d x = f' d x by move=> x /sites_In hx; exact: H.
case: (sites L) => [//|x0 l] H; rewrite (H x0); last by left.
by apply: fold_left_ext_In => m' x hx; rewrite H //; right.
Qed.

Lemma relative_error_tr (ta rt h : C) V W : h \is Num.real -> SP V -> IG V W ->
  relative_error CM LM SU PG QF L ta rt h (runge_kutta3 ex F h W) (runge_kutta2 ex F h W) (exponent_low ex F h W) =
  relative_error CM LM SU PG QF L ta rt h (runge_kutta3 ex F h V) (runge_kutta2 ex F h V) (exponent_low ex F h V).
Proof.
move=> rh HV I; have [S3 I3] := rk3_ok rh HV I; have [S2 I2] := rk2_ok rh HV I; have [Rl Tl] := low_ok rh HV I.
have [_ Tl'] := low_ok rh HV I.
have RW : RM (exponent_low ex F h W).
  have HW := gauge_special I HV.
  have h1 : SP (stage1 ex F h W) by apply: gauge_special (stage1_ok rh HV I).2 (stage1_ok rh HV I).1.
  by apply: combine_real; [rewrite realM ?realn|exact: rqN|exact: F_real|exact: F_real].
apply: all_max_ext => d x hd hx.
have e1 : anorm2 CM SU (to_algebra CM SU PG (GaugeModel.mul CM (runge_kutta2 ex F h W d x) (dagger CM (runge_kutta3 ex F h W d x))))
   = anorm2 CM SU (to_algebra CM SU PG (GaugeModel.mul CM (runge_kutta2 ex F h V d x) (dagger CM (runge_kutta3 ex F h V d x)))).
  apply: (diff_tr hx); rewrite (I2 d x hd hx) (I3 d x hd hx) /transform.
  rewrite -![dagger CM _]/(dg _) -![GaugeModel.mul CM _ _]/(_ *m _).
  have hu := up_on L d x HL hx.
  rewrite !dg_mul !dgK !mulmxA -(mulmxA _ (dg (g (up L d x))) (g (up L d x))) gu // mulmx1.
  by [].
have e2 : anorm2 CM SU (exponent_low ex F h W d x) = anorm2 CM SU (exponent_low ex F h V d x).
  apply: (norm_tr hx) => [k hk|k hk|]; [exact: Rl|exact: RW|exact: Tl].
by rewrite e1 e2.
Qed.

Lemma initial_step_tr V W (t ub ts : C) : SP V -> IG V W ->
  initial_step CM LM SU QF L F W t ub ts = initial_step CM LM SU QF L F V t ub ts.
Proof.
move=> HV I; rewrite /initial_step.
have -> : all_max (fun d x => anorm2 CM SU (F W d x)) = all_max (fun d x => anorm2 CM SU (F V d x)); last by [].
apply: all_max_ext => d x hd hx; apply: (norm_tr hx) => [k hk|k hk|].
- exact: (F_real HV).
- exact: (F_real (gauge_special I HV)).
exact: (F_tr HV I).
Qed.

(** ** The loop *)
Notation flow_loop := (flow_loop CM LM SU PG QF L F).

Lemma loop_gauge fuel (tmax ub ta rt : C) V W (t step ts : C) (stop : bool) V' ts' :
  tmax \is Num.real -> 0 < ub -> ta \is Num.real -> rt \is Num.real -> t \is Num.real -> t <= tmax -> 0 < step ->
  SP V -> IG V W ->
  flow_loop fuel tmax ub ta rt V V t step ts stop = Some (V', ts') ->
  SP V' /\ exists2 W', flow_loop fuel tmax ub ta rt W W t step ts stop = Some (W', ts') & IG V' W'.
Proof.
move=> rM u0 ra rr; elim: fuel V W t step ts stop => [|fuel IH] V W t step ts stop rt' le s0 HV I.
  by rewrite /=; case: ifP => // E [<- <-]; split=> //; exists W.
cbn [FlowstepModel.flow_loop]; rewrite lessE //; case: ifP => [/andP[l ns]|E]; last first.
  by move=> [<- <-]; split=> //; exists W.
set hs := if at_least _ _ _ _ _ then _ else _.
have [h [b [Eh h0 ht]]] : exists h b, [/\ hs = (h, b), 0 < h & t + h <= tmax].
  rewrite /hs at_leastE; case: ifP => c.
    by exists (tmax - t), true; split=> //; [rewrite subr_gt0|rewrite addrC subrK].
  exists step, stop; split=> //; rewrite real_leNgt ?realD ?(gtr0_real s0) //.
  by apply/negP => c'; move: c; rewrite (ltW c').
rewrite Eh !rk_stepE (relative_error_tr ta rt (gtr0_real h0) HV I).
set e := relative_error _ _ _ _ _ _ _ _ _ _ _ _.
have [re _] : e \is Num.real /\ (e < 1 -> accurate L ex F ta rt h V) by exact: relative_errorE.
have /andP[N _] := next_pos fourpi2 reu power_real re h0 u0.
have [S3 I3] := rk3_ok (gtr0_real h0) HV I.
case: ifP => c.
  apply: IH => //.
  - by rewrite realD // gtr0_real.
  - by move=> d x hd hx; have e' := HR (S3 d x hd hx); rewrite -[X in special X]/(reu (runge_kutta3 ex F h V d x)) e'; apply: S3.
  move=> d x hd hx; have e' := HR (S3 d x hd hx); have e'' := HR (gauge_special I3 S3 hd hx).
  rewrite -[LHS]/(reu (runge_kutta3 ex F h W d x)) e'' (I3 d x hd hx).
  by rewrite /transform -[reunitarize CM SU QF _]/(reu (runge_kutta3 ex F h V d x)) e'.
by apply: IH.
Qed.

Lemma flow_gauge fuel V W (l0 l1 atol rtol ts : C) V' ts' :
  l0 \is Num.real -> l1 \is Num.real -> atol \is Num.real -> rtol \is Num.real -> 0 <= ts ->
  SP V -> IG V W ->
  do_gradient_flow_adapt CM LM SU PG QF L F fuel V l0 l1 atol rtol ts = Some (V', ts') ->
  SP V' /\ exists2 W', do_gradient_flow_adapt CM LM SU PG QF L F fuel W l0 l1 atol rtol ts = Some (W', ts') & IG V' W'.
Proof.
move=> r0 r1 ra rr s0 HV I; rewrite /do_gradient_flow_adapt (initial_step_tr _ _ _ HV I).
have -> : frac CM SU QF (Zpos (xO (xO (xO xH)))) (Zpos xH) = 8%:R by rewrite frcE frc_pos divr1.
rewrite c_two.
have -> : rdiv CM SU QF (rmul CM LM l0 l0) 8%:R = l0 ^+ 2 / 8%:R by [].
have -> : rdiv CM SU QF (rmul CM LM l1 l1) 8%:R = l1 ^+ 2 / 8%:R by [].
have : l0 ^+ 2 / 8%:R \is Num.real by rewrite realM ?realV ?realn // rpredX.
have : l1 ^+ 2 / 8%:R \is Num.real by rewrite realM ?realV ?realn // rpredX.
move: (l0 ^+ 2 / 8%:R) (l1 ^+ 2 / 8%:R) => t0 t1 rt1 rt0.
case: (real_leP rt1 rt0) => [le|lt].
  case: fuel => [|fuel]; cbn [FlowstepModel.flow_loop]; rewrite lessE // real_ltNge // le /= => -[<- <-];
    by split=> //; exists W.
have u0 : 0 < (t1 - t0) / 2%:R by rewrite divr_gt0 ?subr_gt0 ?ltr0n.
have rs : atol * sqrtC 2%:R \is Num.real by apply: realM => //; apply: ger0_real; rewrite sqrtC_ge0 ler0n.
have /andP[I0 _] := initial_pos L power fourpi2 reu F V t0 u0 s0.
exact: loop_gauge (ltW lt) I0 HV I.
Qed.
End Gauge.
