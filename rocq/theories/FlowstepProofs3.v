(** The forces of the flow, and an example of an exponential function. *)
Set Warnings "-notation-overridden,-ambiguous-paths".
From Coq Require Import ZArith List Ring.
From mathcomp Require Import all_ssreflect all_fingroup all_algebra.
From Verif Require Import LinalgSpec FieldTac AlgebraModel AlgebraSpec AlgebraProofs2 AlgebraProofs4 AlgebraProofs5 AlgebraProps
  GaugeModel GaugeSpec GaugeMatrix GaugeProofs1 GaugeProofs2 MatrixSpec ForceModel ForceSpec
  ForceProofs1 ForceProofs2 ForceProofs3 ForceProofs4 ForceProofs5 ForceProofs7 ForceProofs10 ForceProps
  ForceProofs9 GaussModel GaussSpec GaussProofs1 GaussProofs2 GaussProofs3 GaussProofs4 GaussProofs6 GaussProofs7
  FlowModel FlowSpec FlowProofs1 FlowProofs2 FlowProofs3 FlowProofs4 FlowProofs5 FlowProofs6 FlowProofs7 FlowProps
  FlowstepModel FlowstepSpec FlowstepProofs1 FlowstepProofs2.
Set Implicit Arguments.
Unset Strict Implicit.
Unset Printing Implicit Defensive.
Import Order.TTheory GRing.Theory Num.Theory.
Local Open Scope ring_scope.

Section Forces.
Variables (C : numClosedFieldType) (n : nat) (L : list Z).
Variables (ex : (nat -> C) -> 'M[C]_n) (power : C -> C) (fourpi2 : C) (reu : 'M[C]_n -> 'M[C]_n).
Variables (fbp flp : links C n -> moments C).
Hypothesis n0 : (0 < n)%N.
Hypothesis HL : sizes L.
Hypothesis hL : (1 < length L)%N.
Notation CM := (complex_matrices C n).
Notation LM := (complex_linear C n).
Notation SU := (su_algebra C n).
Notation PG := (su_gauss ex).
Notation QF := (su_flow power fourpi2 reu).
Notation force := (get_gf_force CM LM SU PG QF L fbp flp).

Definition agree (V V' : links C n) : Prop := forall d x, (d < length L)%N -> on_lattice L x -> V d x = V' d x.

Lemma gradient_agree S K K' V V' c : agree V V' -> gradient L S K V c -> gradient L S K' V' c -> same n L K K'.
Proof.
move=> A [_ G] [_ G'] d x k hd hx hk.
have R := @unit_real C n L d x k.
have mv := @curve_moves C n L V (unit_momenta C d x k).
have mv' : links_move L (curve V (unit_momenta C d x k)) V' (unit_momenta C d x k).
  by move=> d' x' i j hd' hx'; rewrite -(A d' x' hd' hx'); exact: mv.
have [D HD P] := G _ _ R mv; have [D' HD' P'] := G' _ _ R mv'.
have [_ e] := deriv_unique HD HD'.
by rewrite -(unit_product K hd hx hk) -(unit_product K' hd hx hk) P P' e.
Qed.

Lemma special_unitary_links (V : links C n) : special_links L V -> unitary_links L V.
Proof. by move=> H d x hd hx; case: (H d x hd hx). Qed.

Lemma gf_covariant_force a stale K0 E : modelled a -> a <> Zeuthen ->
  covariant_force L (fun V => force a V stale K0 E).
Proof.
move=> m z; split=> [V HV|g V W Hg HV I].
  exact: (gf_real ex power fourpi2 reu fbp flp (fun _ => 0) (fun _ => 0) n0 HL hL stale K0 E m (special_unitary_links HV)).
have HU := special_unitary_links HV.
have Hu x : on_lattice L x -> GaugeSpec.unitary CM (g x) by move=> hx; case: (Hg x hx).
have HT := transform_unitary HL Hu HU.
have HW : unitary_links L W by apply: special_unitary_links; exact: (gauge_special HL Hg I HV).
have T := C92_covariant ex power fourpi2 reu fbp flp stale stale K0 K0 E E n0 HL hL m z HU Hu.
have G U HUU := @gf_gradient C n L ex power fourpi2 reu fbp flp (fun _ => 0) (fun _ => 0) n0 HL hL a U stale K0 E m z HUU.
have A : agree W (transform CM L g V) by move=> d x hd hx; exact: I.
have S := gradient_agree A (G W HW) (G _ HT).
by move=> d x hd hx; rewrite -(T d x hd hx); apply: Ex_ext => k hk; exact: S.
Qed.
End Forces.

Section PureRing.
Variables (R : Type) (r0 r1 : R) (radd rmul rsub : R -> R -> R) (ropp : R -> R).
Variable RT : ring_theory r0 r1 radd rmul rsub ropp eq.
Add Ring RTc : RT.
Notation "a + b" := (radd a b).
Notation "a * b" := (rmul a b).
Notation "a - b" := (rsub a b).
Lemma pure_shift s a b c : (r1 + s * a) * (r1 + s * ropp a) - s * b * (s * c) = r1 + s * s * (a * ropp a - b * c).
Proof. ring. Qed.
End PureRing.

(** ** The Cayley transform in SU(2) *)
Section Cayley.
Variable C : numClosedFieldType.
Notation CM := (complex_matrices C 2).
Notation Ex := (@algebra_matrix C 2).
Definition cayley (a : nat -> C) : 'M[C]_2 := invmx (1%:M - 2%:R^-1 *: Ex a) *m (1%:M + 2%:R^-1 *: Ex a).

Lemma det2 (A : 'M[C]_2) : \det A = A 0 0 * A 1 1 - A 0 1 * A 1 0.
Proof.
have e1 : lift 0 0 = 1 :> 'I_2 by apply: val_inj.
have e2 : lift 1 0 = 0 :> 'I_2 by apply: val_inj.
rewrite (expand_det_row _ 0) big_ord_recl big_ord1 /cofactor !det_mx11 !mxE e1 e2 /= addn0 expr0 mul1r.
by rewrite expr1 mulN1r mulrN.
Qed.

Variable a : nat -> C.
Hypothesis Ra : real_components 3 a.
Notation A := (Ex a).
Notation N := (1%:M - 2%:R^-1 *: A).
Notation P := (1%:M + 2%:R^-1 *: A).

Lemma anti : dg A = - A /\ \tr A = 0. Proof. exact: (Ex_anti (ltn0Sn 1)). Qed.
Lemma dgN : dg N = P.
Proof.
have [e _] := anti; have h : (2%:R^-1 : C)^* = 2%:R^-1 by rewrite fmorphV rmorph_nat.
by rewrite dgB dg1 dg_scale h e scalerN opprK.
Qed.
Lemma A11 : A 1 1 = - A 0 0.
Proof.
have [_ t] := anti; move: t; rewrite /mxtrace big_ord_recl big_ord1.
have -> : lift 0 0 = 1 :> 'I_2 by apply: val_inj.
by move/eqP; rewrite addrC addr_eq0 => /eqP.
Qed.
Lemma A10 : A 1 0 = - (A 0 1)^*.
Proof. by have [e _] := anti; have := f_equal (fun M : 'M[C]_2 => M 1 0) e; rewrite !mxE => ->; rewrite opprK. Qed.
Lemma A00 : (A 0 0)^* = - A 0 0.
Proof. by have [e _] := anti; have := f_equal (fun M : 'M[C]_2 => M 0 0) e; rewrite !mxE. Qed.
Lemma det_shift (M : 'M[C]_2) (s : C) : M 1 1 = - M 0 0 -> \det (1%:M + s *: M) = 1 + s * s * \det M.
Proof.
move=> e; rewrite !det2 e.
have -> : (1%:M + s *: M) 0 0 = 1 + s * M 0 0 by rewrite !mxE.
have -> : (1%:M + s *: M) 1 1 = 1 + s * - M 0 0 by rewrite !mxE -e.
have -> : (1%:M + s *: M) 0 1 = s * M 0 1 by rewrite !mxE add0r.
have -> : (1%:M + s *: M) 1 0 = s * M 1 0 by rewrite !mxE add0r.
exact: (pure_shift (mc_ring C)).
Qed.
Lemma detA : 0 <= \det A.
Proof.
rewrite det2 A11 A10 -A00 mulrN opprK -!normCK.
by rewrite addr_ge0 ?exprn_ge0.
Qed.
Lemma half_ge0 : 0 <= (2%:R^-1 * 2%:R^-1 : C). Proof. by rewrite mulr_ge0 ?invr_ge0 ?ler0n. Qed.
Lemma detP : \det P = 1 + 2%:R^-1 * 2%:R^-1 * \det A. Proof. exact: det_shift A11. Qed.
Lemma detN : \det N = 1 + 2%:R^-1 * 2%:R^-1 * \det A.
Proof. by rewrite -scaleNr (det_shift _ A11) mulrNN. Qed.
Lemma det_neq0 : 1 + 2%:R^-1 * 2%:R^-1 * \det A != 0.
Proof. by apply: lt0r_neq0; apply: (lt_le_trans ltr01); rewrite ler_addl mulr_ge0 ?half_ge0 ?detA. Qed.
Lemma N_unit : N \in unitmx. Proof. by rewrite unitmxE unitfE detN det_neq0. Qed.

Lemma NP_comm (X : 'M[C]_2) : (1%:M - X) *m (1%:M + X) = (1%:M + X) *m (1%:M - X).
Proof.
have -> : (1%:M - X) *m (1%:M + X) = 1%:M - X *m X by rewrite mulmxBl mul1mx mulmxDr mulmx1 opprD addrA addrK.
by rewrite mulmxDl mul1mx mulmxBr mulmx1 addrA subrK.
Qed.

Lemma cayley_special : special (cayley a).
Proof.
have u := N_unit; have e := dgN; have c := NP_comm (2%:R^-1 *: A).
have d : \det N = \det P by rewrite detN detP.
have dn : \det N != 0 by rewrite detN det_neq0.
rewrite /cayley; move: N P u e c d dn => N P u e c d dn.
have y1 := mulVmx u; have y2 : P *m dg (invmx N) = 1%:M by rewrite -e -dg_mul y1 dg1.
have H : invmx N *m P *m dg (invmx N *m P) = 1%:M.
  rewrite dg_mul -e dgK -!mulmxA (mulmxA (dg N)) e -c -!mulmxA y2 mulmx1.
  exact: y1.
split; last by rewrite det_mulmx det_inv -d mulVf.
by split; [exact: H|exact: (mulmx1C H)].
Qed.
End Cayley.

Section Basis.
Variable C : numClosedFieldType.
Notation CM := (complex_matrices C 2).
Notation Ex := (@algebra_matrix C 2).

Lemma inv_basis (g A : 'M[C]_2) : g *m dg g = 1%:M -> invmx (g *m A *m dg g) = g *m invmx A *m dg g.
Proof.
move=> H; have H' := mulmx1C H; have [ug ud] := mulmx1_unit H.
case u: (A \in unitmx); last first.
  have nu : (g *m A *m dg g \in unitmx) = false by rewrite !unitmx_mul u andbF.
  by rewrite (invmx_out (negbT nu)) (invmx_out (negbT u)).
have w : g *m A *m dg g \in unitmx by rewrite !unitmx_mul ug u ud.
have e : g *m A *m dg g *m (g *m invmx A *m dg g) = 1%:M.
  by rewrite !mulmxA -(mulmxA _ (dg g) g) H' mulmx1 -(mulmxA _ A) mulmxV // mulmx1.
by rewrite -[LHS]mulmx1 -e mulKmx.
Qed.

Lemma cayley_exponential : matrix_exponential (@cayley C).
Proof.
split=> [a Ra|a b g [g1 g2] e]; first exact: cayley_special.
rewrite /cayley e /conjugate -!/(dg _).
have G : g *m dg g = 1%:M by exact: g1.
have G' : dg g *m g = 1%:M by exact: g2.
move: (Ex a) => A.
have E s : 1%:M + s *: (g *m A *m dg g) = g *m (1%:M + s *: A) *m dg g.
  by rewrite mulmxDr mulmxDl mulmx1 G -scalemxAr -scalemxAl.
rewrite -scaleNr !E -scaleNr (inv_basis _ G).
by rewrite !mulmxA -(mulmxA _ (dg g) g) G' mulmx1.
Qed.
End Basis.
