(** A gauge field with a force that is not zero: one link differs from 1. *)
Set Warnings "-notation-overridden,-ambiguous-paths".
From Coq Require Import ZArith List Ring.
From mathcomp Require Import all_ssreflect all_fingroup all_algebra.
From Verif Require Import LinalgSpec FieldTac AlgebraModel AlgebraSpec AlgebraProofs2 AlgebraProofs4 AlgebraProofs5 AlgebraProps
  GaugeModel GaugeSpec GaugeMatrix GaugeProofs1 GaugeProofs2 MatrixSpec ForceModel ForceSpec
  ForceProofs1 ForceProofs2 ForceProofs3 ForceProofs4 ForceProofs5 ForceProofs7 ForceProofs10 ForceProps
  ForceProofs9 GaussModel GaussSpec GaussProofs1 GaussProofs2 GaussProofs3 GaussProofs4 GaussProofs6 GaussProofs7
  FlowModel FlowSpec FlowProofs1 FlowProofs2 FlowProofs3 FlowProofs4 FlowProofs5 FlowProofs6 FlowProofs7.
Set Implicit Arguments.
Unset Strict Implicit.
Unset Printing Implicit Defensive.
Import Order.TTheory GRing.Theory Num.Theory.
Local Open Scope ring_scope.

Notation two := (Zpos (xO xH)).
Definition square2 : list Z := [:: two; two].
Definition origin : site := [:: Z0; Z0].

Definition one_link (M : matrices) (D : GaugeModel.mat M) : gauge M := fun d x =>
  if (d =? 0)%nat then if list_eq_dec Z.eq_dec x origin then D else mone M else mone M.

Section PureRing.
Variables (R : Type) (r0 r1 : R) (radd rmul rsub : R -> R -> R) (ropp : R -> R).
Variable RT : ring_theory r0 r1 radd rmul rsub ropp eq.
Add Ring RT9 : RT.
Notation "a + b" := (radd a b).
Notation "a * b" := (rmul a b).
Notation "a - b" := (rsub a b).
Lemma pure_turn t q d : t * t = (r1 + (r1 + (r1 + r1))) * q -> (r1 + q) * d = r1 ->
  ((r1 - q) * d) * ((r1 - q) * d) + (t * d) * (t * d) = r1.
Proof.
move=> H E; have -> : ((r1 - q) * d) * ((r1 - q) * d) + (t * d) * (t * d) = (r1 - q) * (r1 - q) * (d * d) + (t * t) * (d * d) by ring.
rewrite H; have -> : (r1 - q) * (r1 - q) * (d * d) + ((r1 + (r1 + (r1 + r1))) * q) * (d * d) = ((r1 + q) * d) * ((r1 + q) * d) by ring.
rewrite E; ring.
Qed.
Lemma pure_split a b c s t : c * a - s * b - a - t * ropp b = (c - r1) * a - (s - t) * b.
Proof. ring. Qed.
End PureRing.

Section Words.
Variables (M : matrices) (ML : matrix_laws M) (D : GaugeModel.mat M).
Hypothesis HD : GaugeSpec.unitary M D.
Notation line := (path_line (M := M) square2 (one_link D)).
Notation one := (mone M).
Definition at_site (i j : bool) : site := [:: (if i then Zpos xH else Z0); (if j then Zpos xH else Z0)].

Definition value (k : nat) : GaugeModel.mat M := match k with O => one | 1%nat => D | _ => dagger M D end.

Lemma plaquette_words (j : bool) : line (plaquette_path 0 1) (at_site false j) = value (if j then 2 else 1)%N.
Proof.
have d1 := dag_one ML.
by case: j; cbv -[GaugeModel.mul dagger mone]; rewrite ?d1 ?(m_one_l M ML) ?(m_one_r M ML).
Qed.
Lemma plaquette_ones (j : bool) : line (plaquette_path 0 1) (at_site true j) = one.
Proof.
have d1 := dag_one ML.
by case: j; cbv -[GaugeModel.mul dagger mone]; rewrite ?d1 ?(m_one_l M ML) ?(m_one_r M ML).
Qed.
Lemma wide_words (i j : bool) : line (rectangle_path 0 1) (at_site i j) = value (if j then 2 else 1)%N.
Proof.
have d1 := dag_one ML.
by case: i; case: j; cbv -[GaugeModel.mul dagger mone]; rewrite ?d1 ?(m_one_l M ML) ?(m_one_r M ML).
Qed.
Lemma tall_words (i j : bool) : line (rectangle_path 1 0) (at_site i j) = one.
Proof.
have [u u'] := HD; have d1 := dag_one ML.
by case: i; case: j; cbv -[GaugeModel.mul dagger mone]; rewrite ?d1 ?(m_one_l M ML) ?(m_one_r M ML) ?u ?u'.
Qed.
End Words.

Section Force.
Variable C : numClosedFieldType.
Notation CM := (complex_matrices C 2).
Notation LM := (complex_linear C 2).
Notation SU := (su_algebra C 2).
Notation Ex := (@algebra_matrix C 2).
Notation toalg := (@algebra_components C 2).

Lemma square2_sizes : sizes square2.
Proof. by repeat constructor. Qed.
Lemma square2_sites : sites square2 = [:: at_site false false; at_site false true; at_site true false; at_site true true].
Proof. by []. Qed.
Lemma origin_on : on_lattice square2 origin.
Proof. by apply/sites_In; left. Qed.

Lemma one_link_unitary (D : 'M[C]_2) : GaugeSpec.unitary CM D -> unitary_links square2 (one_link (M := CM) D).
Proof.
move=> H d x _ _; have H1 : GaugeSpec.unitary CM 1%:M by split; rewrite /= map_mx1 trmx1 mulmx1.
by rewrite /one_link; case: Nat.eqb; [destruct (list_eq_dec Z.eq_dec x origin)|].
Qed.

Lemma loop_one (L : list Z) (V : links C 2) p : loop_action L V [:: p] =
  \sum_(x <- sites L) (1 - 'Re (\tr (path_line (M := CM) L V p x : 'M[C]_2)) / 2%:R).
Proof. by rewrite /loop_action big_cons big_nil addr0. Qed.
Lemma loop_two (L : list Z) (V : links C 2) p q : loop_action L V [:: p; q] = loop_action L V [:: p] + loop_action L V [:: q].
Proof. by rewrite /loop_action !big_cons big_nil !addr0. Qed.
Lemma sum_four (T : Type) (f : T -> C) a b c d : \sum_(x <- [:: a; b; c; d]) f x = f a + f b + f c + f d.
Proof. by rewrite !big_cons big_nil addr0 !addrA. Qed.

Lemma four_times (a : C) : a + a + a + a = 4%:R * a.
Proof. by rewrite mulr_natl !mulrS mulr0n addr0 !addrA. Qed.

Lemma one_link_action (D : 'M[C]_2) c11 c12 : GaugeSpec.unitary CM D ->
  measure_s_impr CM LM square2 (one_link (M := CM) D) c11 c12 = (2%:R * c11 + 4%:R * c12) * (1 - 'Re (\tr D) / 2%:R).
Proof.
move=> H; have ML := complex_matrix_laws C 2; have HV := one_link_unitary H.
rewrite (C87_action c11 c12 square2_sizes HV).
pose r := 1 - 'Re (\tr D) / 2%:R.
have r1 : 1 - 'Re (\tr (1%:M : 'M[C]_2)) / 2%:R = 0.
  by rewrite mxtrace1 (Creal_ReP _ _) ?realn // mulfV ?subrr // pnatr_eq0.
have rD : 1 - 'Re (\tr (dg D)) / 2%:R = r by rewrite re_dg.
pose f p x : C := 1 - 'Re (\tr (path_line (M := CM) square2 (one_link (M := CM) D) p x : 'M[C]_2)) / 2%:R.
have fv k p x : path_line (M := CM) square2 (one_link (M := CM) D) p x = value (M := CM) D k ->
    f p x = if (k == 0)%N then 0 else r.
  rewrite /f => ->; case: k => [|[|k]]; [exact: r1|reflexivity|exact: rD].
have P0 j : f (plaquette_path 0 1) (at_site false j) = r by rewrite (fv _ _ _ (plaquette_words ML D j)); case: j.
have P1 j : f (plaquette_path 0 1) (at_site true j) = 0 by rewrite (fv 0%N _ _ (plaquette_ones ML D j)).
have W i j : f (rectangle_path 0 1) (at_site i j) = r by rewrite (fv _ _ _ (wide_words ML D i j)); case: j.
have T i j : f (rectangle_path 1 0) (at_site i j) = 0 by rewrite (fv 0%N _ _ (tall_words ML H i j)).
have S p : loop_action square2 (one_link (M := CM) D) [:: p]
    = f p (at_site false false) + f p (at_site false true) + f p (at_site true false) + f p (at_site true true).
  rewrite loop_one square2_sites; exact: (sum_four (f p)).
have -> : loop_action square2 (one_link (M := CM) D) (plaquettes square2) = r + r.
  apply: etrans (S (plaquette_path 0 1)) _; by rewrite !P0 !P1 !addr0.
have -> : loop_action square2 (one_link (M := CM) D) (rectangles square2) = r + r + r + r.
  apply: etrans (loop_two _ _ (rectangle_path 0 1) (rectangle_path 1 0)) _.
  by rewrite !S !W !T !addr0.
rewrite mulrDl; congr (_ + _); rewrite -/r.
  by rewrite -mulr2n -mulr_natl mulrCA mulrA.
rewrite (four_times r).
by rewrite mulrCA mulrA.
Qed.

(** A curve of unitary links. *)
Definition root1 : 'M[C]_2 := diag_mx (\row_k (if k == 0 then 'i else - 'i)).

Lemma root1_sq : root1 *m root1 = - 1%:M.
Proof.
rewrite /root1 mulmx_diag; apply/matrixP => i j; rewrite !mxE.
by case: ifP => _; rewrite ?mulrNN -expr2 sqrCi mulNrn.
Qed.
Lemma root1_dg : dg root1 = - root1.
Proof.
rewrite /root1 dg_diag; apply/matrixP => i j; rewrite !mxE -mulNrn; congr (_ *+ _).
by case: ifP => _; rewrite ?rmorphN conjCi ?opprK.
Qed.
Lemma root1_tr : \tr root1 = 0.
Proof. by rewrite /root1 mxtrace_diag big_ord_recl big_ord1 !mxE /= subrr. Qed.

Definition cosl (t : C) : C := (1 - t ^+ 2 / 4%:R) / (1 + t ^+ 2 / 4%:R).
Definition sinl (t : C) : C := t / (1 + t ^+ 2 / 4%:R).
Definition turn (t : C) : 'M[C]_2 := cosl t *: root1 - sinl t *: 1%:M.

Lemma den_ge1 (t : C) : t \is Num.real -> 1 <= 1 + t ^+ 2 / 4%:R.
Proof. by move=> rt; rewrite ler_addl divr_ge0 ?ler0n // real_exprn_even_ge0. Qed.
Lemma den_neq0 (t : C) : t \is Num.real -> 1 + t ^+ 2 / 4%:R != 0.
Proof. by move=> rt; rewrite lt0r_neq0 // (lt_le_trans ltr01 (den_ge1 rt)). Qed.

Lemma pythagoras (t : C) : t \is Num.real -> cosl t * cosl t + sinl t * sinl t = 1.
Proof.
move=> rt; have d := den_neq0 rt; rewrite /cosl /sinl.
apply: (pure_turn (mc_ring C) (q := t ^+ 2 / 4%:R)); last exact: mulfV.
have f0 : 4%:R != 0 :> C by rewrite pnatr_eq0.
have -> : (1 + (1 + (1 + 1)) : C) = 4%:R by have := four_times 1; rewrite mulr1 -!addrA.
by rewrite mulrC (divfK f0) expr2.
Qed.

Lemma turn_unitary (t : C) : t \is Num.real -> GaugeSpec.unitary CM (turn t).
Proof.
move=> rt; have dr : (1 + t ^+ 2 / 4%:R) \is Num.real by rewrite ger0_real // (le_trans ler01 (den_ge1 rt)).
have rs : sinl t \is Num.real by rewrite rpredM ?realV.
have rc : cosl t \is Num.real.
  by rewrite rpredM ?realV // rpredB ?real1 // rpredM ?realV ?realn // rpredX.
have E : dg (turn t) = - (cosl t *: root1) - sinl t *: 1%:M.
  by rewrite /turn dgB !dg_scale root1_dg (CrealP rs) (CrealP rc) dg1 scalerN.
have H : turn t *m dg (turn t) = 1%:M.
  rewrite E /turn; move: (pythagoras rt); move: (cosl t) (sinl t) => c z P.
  have Q : (c * c) *: 1%:M + (z * z) *: 1%:M = 1%:M :> 'M[C]_2 by rewrite -scalerDl P scale1r.
  apply: etrans Q; rewrite mulmxBl !mulmxBr !mulmxN -!scalemxAl -!scalemxAr root1_sq !mulmx1 !mul1mx.
  rewrite !scalerN opprK !scalerA opprB [z * c]mulrC.
  rewrite opprK -addrA; congr (_ + _); by rewrite addrCA addrC subrK || rewrite [X in _ + X]addrC addKr.
by split; [exact: H|exact: (mulmx1C H)].
Qed.

Definition turn_momenta : moments C := fun d x =>
  if (d =? 0)%nat then if list_eq_dec Z.eq_dec x origin then toalg root1 else fun _ => 0 else fun _ => 0.

Lemma turn_momenta_real : real_momenta 2 square2 turn_momenta.
Proof.
move=> d x k _ _ hk; rewrite /turn_momenta; case: Nat.eqb; [destruct (list_eq_dec Z.eq_dec x origin)|];
  rewrite ?real0 //; exact: (toalg_real (ltn0Sn 1) root1 hk).
Qed.

Lemma root1_part : Ex (toalg root1) = root1.
Proof.
rewrite (Ex_toalg (ltn0Sn 1)) -part_AP /ForceSpec.algebra_part -/(dg root1) root1_dg opprK.
have -> : 2%:R^-1 *: (root1 + root1) = root1.
  by rewrite -mulr2n -scaler_nat scalerA mulVf ?scale1r // pnatr_eq0.
by rewrite root1_tr mul0r raddf0 subr0.
Qed.

Definition quot (t : C) : C := t ^+ 2 / 4%:R / (1 + t ^+ 2 / 4%:R).
Lemma quot_le (t : C) : t \is Num.real -> `|quot t| <= `|t| ^+ 2.
Proof.
move=> rt; have h := den_ge1 rt; have p : 0 < 1 + t ^+ 2 / 4%:R by exact: lt_le_trans ltr01 h.
rewrite /quot normrM normfV (gtr0_norm p) ler_pdivr_mulr //.
have q0 : 0 <= `|t| ^+ 2 by rewrite exprn_ge0.
rewrite normrM normrX normfV normr_nat.
apply: (@le_trans _ _ (`|t| ^+ 2)).
  by rewrite ler_pdivr_mulr ?ltr0n // ler_pemulr // ler1n.
by rewrite ler_pemulr.
Qed.
Lemma cosl_near (t : C) : t \is Num.real -> cosl t - 1 = - (2%:R * quot t).
Proof.
move=> rt; have d := den_neq0 rt; rewrite /cosl /quot; move: (t ^+ 2 / 4%:R) d => q d.
have -> : (1 - q) / (1 + q) - 1 = ((1 - q) - (1 + q)) / (1 + q) by rewrite [RHS]mulrBl mulfV.
rewrite mulrA -[RHS]mulNr; apply: (f_equal (fun z => z / (1 + q))).
by rewrite opprD addrACA subrr add0r -opprD mulr2n mulrDl !mul1r.
Qed.
Lemma sinl_near (t : C) : t \is Num.real -> sinl t - t = - (t * quot t).
Proof.
move=> rt; have d := den_neq0 rt; rewrite /sinl /quot; move: (t ^+ 2 / 4%:R) d => q d.
have -> : t / (1 + q) - t = (t - t * (1 + q)) / (1 + q) by rewrite [RHS]mulrBl mulfK.
rewrite mulrA -[RHS]mulNr; apply: (f_equal (fun z => z / (1 + q))).
by rewrite mulrDr mulr1 opprD addrA subrr add0r.
Qed.
Lemma sinl_le (t : C) : t \is Num.real -> `|t| <= 1 -> `|sinl t - t| <= `|t| ^+ 2.
Proof.
move=> rt t1; rewrite (sinl_near rt) normrN normrM; apply: le_trans (quot_le rt).
by rewrite ler_pimull.
Qed.

Lemma turn_moves : links_move square2 (fun t => @one_link CM (turn t)) (@one_link CM root1) turn_momenta.
Proof.
move=> d x i j _ _; rewrite /one_link /turn_momenta.
have triv : derivative (fun _ : C => (mone CM : 'M[C]_2) i j) ((mone CM : 'M[C]_2) i j)
   ((algebra_matrix 2 (fun _ => 0 : C) *m (mone CM : 'M[C]_2)) i j).
  move: (mone CM : 'M[C]_2) => A; rewrite Ex0 mul0mx.
  by exists 0 => t _ _; rewrite [X in t * X]mxE mulr0 subr0 subrr normr0 mul0r.
case: Nat.eqb; last exact: triv.
destruct (list_eq_dec Z.eq_dec x origin); last exact: triv.
rewrite root1_part root1_sq.
exists (2%:R * `|root1 i j| + `|(1%:M : 'M[C]_2) i j|) => t rt t1.
have -> : turn t i j - root1 i j - t * (- 1%:M : 'M[C]_2) i j =
   (cosl t - 1) * root1 i j - (sinl t - t) * (1%:M : 'M[C]_2) i j.
  rewrite /turn; move: root1 (1%:M : 'M[C]_2) (cosl t) (sinl t) => A B c s.
  rewrite !mxE; move: (A i j) (B i j) => a b.
  exact: (pure_split (mc_ring C)).
apply: le_trans (ler_norm_sub _ _) _.
rewrite !normrM mulrDl; apply: ler_add.
  rewrite (cosl_near rt) normrN normrM normr_nat mulrAC; apply: ler_wpmul2l; last exact: quot_le.
  by rewrite mulr_ge0 ?ler0n.
by rewrite mulrC; apply: ler_wpmul2l => //; exact: sinl_le.
Qed.

Lemma turn_tr (t : C) : t \is Num.real -> 'Re (\tr (turn t)) = - (2%:R * sinl t).
Proof.
move=> rt; have dr : (1 + t ^+ 2 / 4%:R) \is Num.real by rewrite ger0_real // (le_trans ler01 (den_ge1 rt)).
have rs : sinl t \is Num.real by rewrite rpredM ?realV.
rewrite /turn raddfB /= !mxtraceZ root1_tr mulr0 sub0r mxtrace1 [_ * 2%:R]mulrC.
by apply/Creal_ReP; rewrite rpredN rpredM ?realn.
Qed.

(** The force along the curve. *)
Lemma sinl_deriv : derivative sinl 0 1.
Proof. by exists 1 => t rt t1; rewrite subr0 mulr1 mul1r; exact: sinl_le. Qed.

Lemma one_link_force (c11 c12 : C) (F : moments C) (c : C) :
  gradient square2 (fun U => measure_s_impr CM LM square2 U c11 c12) F (@one_link CM root1) c ->
  c * (2%:R * c11 + 4%:R * c12) <> 0 -> Ex (F 0%N origin) <> 0.
Proof.
move=> [RF G] N0 Z; apply: N0.
have [D HD P] := G _ _ turn_momenta_real turn_moves.
have HD' : derivative (fun t => measure_s_impr CM LM square2 (@one_link CM (turn t)) c11 c12)
   ((2%:R * c11 + 4%:R * c12) * (1 + 0)) ((2%:R * c11 + 4%:R * c12) * (0 + 1)).
  apply: deriv_ext (deriv_scale _ (deriv_add (deriv_const 1) sinl_deriv)) => t rt.
  rewrite (one_link_action _ _ (turn_unitary rt)) (turn_tr rt) mulNr opprK.
  by rewrite mulrAC mulfV ?mul1r // pnatr_eq0.
have [_ e] := deriv_unique HD HD'; rewrite e add0r mulr1 in P; rewrite -P.
rewrite /product big1 // => d _; rewrite big1 // => x _; rewrite big1 // => k _.
rewrite /turn_momenta; case E: (Nat.eqb d 0%N); last by rewrite mul0r.
destruct (list_eq_dec Z.eq_dec x origin) as [ex|]; last by rewrite mul0r.
move/Nat.eqb_eq: E => E.
have R : forall k, (k < 2 * 2 - 1)%N -> F 0%N origin k \is Num.real.
  by move=> k' hk'; apply: RF => //; exact: origin_on.
have -> : F d x k = 0; last by rewrite mulr0.
by rewrite E ex -(toalg_Ex (ltn0Sn 1) R (ltn_ord k)) Z (toalg_tr (ltn0Sn 1)) // mulmx0 mxtrace0 raddf0 mulr0.
Qed.
End Force.
