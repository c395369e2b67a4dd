(** The derivative of the Cayley transform. *)
Set Warnings "-notation-overridden,-ambiguous-paths".
From Coq Require Import ZArith List.
From mathcomp Require Import all_ssreflect all_fingroup all_algebra.
From Verif Require Import LinalgSpec FieldTac AlgebraModel AlgebraSpec AlgebraProofs4
  GaugeModel GaugeSpec GaugeMatrix GaugeProofs1 GaugeProofs2 MatrixSpec ForceModel ForceSpec
  ForceProofs1 ForceProofs2 ForceProofs3 ForceProofs4 ForceProofs5 ForceProofs7 ForceProofs9
  GaussModel GaussSpec GaussProofs1 GaussProofs2 GaussProofs7 FlowstepSpec FlowstepProofs3
  StoutModel StoutSpec StoutProofs1 StoutProofs4 StoutforceSpec.
Set Implicit Arguments.
Unset Strict Implicit.
Unset Printing Implicit Defensive.
Import Order.TTheory GRing.Theory Num.Theory.
Local Open Scope ring_scope.

Section Cayley.
Variable C : numClosedFieldType.
Notation Ex := (@algebra_matrix C 2).
Notation rc := (real_components 3).
Definition resolvent (a : nat -> C) : 'M[C]_2 := invmx (1%:M - 2%:R^-1 *: Ex a).
Definition cayley_dexp (a k : nat -> C) : 'M[C]_2 := resolvent a *m dg (cayley a) *m Ex k *m resolvent a.

Lemma two_halves (A : 'M[C]_2) : 2%:R^-1 *: A + 2%:R^-1 *: A = A.
Proof. by rewrite -mulr2n -scaler_nat scalerA mulfV ?pnatr_eq0 // scale1r. Qed.

(** Q = 2 R - 1. *)
Lemma resolvent_half a : rc a -> resolvent a = 2%:R^-1 *: (1%:M + cayley a).
Proof.
move=> Ra; have u := N_unit Ra; rewrite /resolvent /cayley; move: (2%:R^-1 *: Ex a) u => X u.
have -> : 1%:M + X = 1%:M + 1%:M - (1%:M - X) by rewrite opprB -addrA [1%:M + (X - _)]addrC subrK.
rewrite mulmxBr mulVmx // mulmxDr mulmx1; move: (invmx _) => R.
by rewrite [1%:M + _]addrC subrK scalerDr two_halves.
Qed.

Lemma resolvent_bound a i j : rc a -> `|resolvent a i j| <= 1.
Proof.
move=> Ra; rewrite resolvent_half //.
have [[u _] _] := cayley_special Ra; have := entry_unitary i j u; move: (cayley a) => c b; rewrite !mxE normrM.
have q0 : 0 <= (2%:R^-1 : C) by rewrite invr_ge0 ler0n.
rewrite (ger0_norm q0) mulrC ler_pdivr_mulr ?ltr0n // mul1r.
apply: (le_trans (ler_norm_add _ _)); rewrite -[X in _ <= X]/(1 + 1); apply: ler_add b.
by case: (_ == _); rewrite ?normr1 ?normr0 ?ler01.
Qed.

(** R(t) = R + R X R + R(t) X R X R with X = (A(t) - A)/2. *)
Lemma resolvent_expand a b : rc a -> rc b -> let X := 2%:R^-1 *: (Ex b - Ex a) in let R := resolvent a in
  resolvent b = R + R *m X *m R + resolvent b *m (X *m R *m X *m R).
Proof.
move=> Ra Rb X R; have ua := N_unit Ra; have ub := N_unit Rb.
have e : resolvent b = R + resolvent b *m X *m R.
  have eX : X = (1%:M - 2%:R^-1 *: Ex a) - (1%:M - 2%:R^-1 *: Ex b).
    by rewrite /X scalerBr opprB [RHS]addrC addrA subrK.
  rewrite eX mulmxBr mulmxBl -[resolvent b *m _ *m R]mulmxA /R /resolvent mulmxV // mulmx1.
  rewrite mulVmx // mul1mx; by move: (invmx _) (invmx _) => p q; rewrite addrC subrK.
rewrite {1}e -addrA; congr (_ + _).
have -> : resolvent b *m (X *m R *m X *m R) = resolvent b *m X *m R *m X *m R by rewrite !mulmxA.
by rewrite -mulmxDl -mulmxDl -e.
Qed.

Lemma normal_bound (f g : C -> 'M[C]_2) : (forall t i j, `|f t i j| <= 1) -> mderiv g 0 0 -> mderiv (fun t => f t *m g t) 0 0.
Proof.
move=> H G i j; have Gb k := G k j.
have [B HB] : exists B : 'I_2 -> C, forall k t, t \is Num.real -> `|t| <= 1 -> `|g t k j| <= B k * `|t| ^+ 2.
  have [B0 H0] := Gb 0; have [B1 H1] := Gb 1; exists (fun k => if k == 0 then B0 else B1) => k t rt t1.
  have e : k = if k == 0 then 0 else 1 by case: eqP => // ne; apply: val_inj; case: k ne => [[|[|k]] hk] ne //=; case: ne; apply: val_inj.
  case: eqP e => [_ ->|_ ->]; [have := H0 t rt t1|have := H1 t rt t1]; by rewrite mxE mulr0 !subr0.
exists (\sum_k B k) => t rt t1; rewrite !mxE mulr0 !subr0 mulr_suml.
apply: (le_trans (ler_norm_sum _ _ _)); apply: ler_sum => k _; rewrite normrM.
by apply: le_trans (HB k t rt t1); rewrite ler_pimull // H.
Qed.

Lemma cayley_move a b (at_ : C -> nat -> C) : rc a -> rc b -> (forall t, rc (at_ t)) ->
  mderiv (fun t => Ex (at_ t)) (Ex a) (Ex b) ->
  mderiv (fun t => cayley (at_ t)) (cayley a) (resolvent a *m Ex b *m resolvent a).
Proof.
move=> Ra Rb Rt H; set R := resolvent a.
pose X t := 2%:R^-1 *: (Ex (at_ t) - Ex a).
have HX : mderiv X 0 (2%:R^-1 *: Ex b).
  have := mderiv_scale 2%:R^-1 (mderiv_sub H (mderiv_const (Ex a))); by rewrite subrr scaler0 subr0.
have cR := mderiv_const R.
have G : mderiv (fun t => X t *m R *m X t *m R) 0 0.
  have := mderiv_mul (mderiv_mul (mderiv_mul HX cR) HX) cR; by rewrite !(mul0mx, mulmx0, addr0, add0r).
have G2 := normal_bound (fun t i j => resolvent_bound i j (Rt t)) G.
have G1 : mderiv (fun t => R + R *m X t *m R) R (R *m (2%:R^-1 *: Ex b) *m R).
  have := mderiv_add cR (mderiv_mul (mderiv_mul cR HX) cR); by rewrite !(mul0mx, mulmx0, addr0, add0r).
have G3 := mderiv_add G1 G2.
have G4 : mderiv (fun t => resolvent (at_ t)) R (R *m (2%:R^-1 *: Ex b) *m R).
  move: G3; rewrite !addr0 => G3 i j; apply: deriv_ext (G3 i j) => t _.
  by rewrite -(resolvent_expand Ra (Rt t)).
have e x : rc x -> cayley x = resolvent x + resolvent x - 1%:M.
  by move=> Rx; rewrite resolvent_half // two_halves addrAC subrr add0r.
have G5 := mderiv_sub (mderiv_add G4 G4) (mderiv_const 1%:M).
rewrite (e a Ra).
have ev : R *m (2%:R^-1 *: Ex b) *m R + R *m (2%:R^-1 *: Ex b) *m R - 0 = R *m Ex b *m R.
  by rewrite subr0 -mulmxDl -mulmxDr two_halves.
rewrite -ev => i j; apply: deriv_ext (G5 i j) => t _; by rewrite (e _ (Rt t)).
Qed.

(** R Q^+ = R^+. *)
Lemma resolvent_dg a : rc a -> resolvent a *m dg (cayley a) = dg (resolvent a).
Proof.
move=> Ra; have [[u _] _] := cayley_special Ra.
have {}u : cayley a *m dg (cayley a) = 1%:M by exact: u.
rewrite resolvent_half // -scalemxAl mulmxDl mul1mx u dg_scale dg_add dg1.
by rewrite fmorphV rmorph_nat addrC.
Qed.

Lemma square_traceless (A : 'M[C]_2) : A 1 1 = - A 0 0 -> A *m A = (- \det A)%:M.
Proof.
move=> e; apply/matrixP => i j; rewrite mxE big_ord_recl big_ord1 det2.
have -> : lift 0 0 = 1 :> 'I_2 by apply: val_inj.
have o (k : 'I_2) : k = 0 \/ k = 1.
  by case: k => [[|[|k]] hk] //; [left|right]; apply: val_inj.
rewrite mxE; case: (o i) => ->; case: (o j) => ->; rewrite e /= ?mulr1n ?mulr0n.
- by rewrite opprB mulrN opprK addrC.
- by rewrite mulrC mulrN subrr.
- by rewrite mulrC mulNr subrr.
by rewrite opprB mulrNN mulrN opprK [A 1 0 * _]mulrC.
Qed.

Lemma resolvent_trace a (B : 'M[C]_2) : rc a -> \tr B = 0 -> \tr (resolvent a *m B *m dg (resolvent a)) = 0.
Proof.
move=> Ra tB; have u := N_unit Ra; have e := dgN Ra; have d := det_neq0 Ra; have q := square_traceless (A11 Ra).
rewrite mxtrace_mulC mulmxA mxtrace_mulC.
suff [s ->] : exists s, dg (resolvent a) *m resolvent a = s%:M by rewrite mul_mx_scalar mxtraceZ tB mulr0.
exists (1 + 2%:R^-1 * 2%:R^-1 * \det (Ex a))^-1.
have NP : (1%:M - 2%:R^-1 *: Ex a) *m (1%:M + 2%:R^-1 *: Ex a) = (1 + 2%:R^-1 * 2%:R^-1 * \det (Ex a))%:M.
  move: (Ex a) q => A q; rewrite mulmxBl mul1mx mulmxDr mulmx1 opprD addrA addrK -scalemxAl -scalemxAr q.
  by rewrite !scale_scalar_mx -raddfB /= !mulrN opprK mulrA.
move: NP d; move: (1 + _) => s NP d.
have H : dg (resolvent a) *m resolvent a *m s%:M = 1%:M.
  rewrite -NP -e /resolvent -mulmxA [invmx _ *m _]mulmxA mulVmx // mul1mx -dg_mul mulmxV // dg1; reflexivity.
move: H; rewrite mul_mx_scalar; move: (_ *m _) => X H.
by rewrite -[X]scale1r -(mulVf d) -scalerA H scalemx1.
Qed.

Theorem cayley_derivative : exponential_derivative (@cayley C) cayley_dexp.
Proof.
move=> a b Ra Rb; exists (resolvent a *m Ex b *m resolvent a).
have [[_ u] _] := cayley_special Ra.
have {}u : dg (cayley a) *m cayley a = 1%:M by exact: u.
have [ab tb] := Ex_anti (ltn0Sn 1) Rb.
split=> [at_ Rt H||k Rk].
- exact: cayley_move Ra Rb Rt H.
- exists (@algebra_components C 2 (resolvent a *m Ex b *m dg (resolvent a))); first exact: toalg_real.
  rewrite (Ex_toalg (ltn0Sn 1)) part_id.
  + by rewrite -(resolvent_dg Ra) -!mulmxA u mulmx1.
  + rewrite /antihermitean; have -> : adjoint conjC (resolvent a *m Ex b *m dg (resolvent a)) = dg (resolvent a *m Ex b *m dg (resolvent a)).
      by apply/matrixP => i j; rewrite !mxE.
    by rewrite !dg_mul dgK ab mulNmx mulmxN mulmxA.
  exact: resolvent_trace Ra tb.
rewrite /cayley_dexp -[conjugate _]/(dg (cayley a)); move: (resolvent a) (dg (cayley a)) (Ex k) (Ex b) => R q x y.
by rewrite -!mulmxA [LHS]mxtrace_mulC -!mulmxA.
Qed.
End Cayley.
