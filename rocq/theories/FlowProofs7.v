(** The field strength, its energy and the topological charge. *)
Set Warnings "-notation-overridden,-ambiguous-paths".
From Coq Require Import ZArith List Ring.
From mathcomp Require Import all_ssreflect all_fingroup all_algebra.
From Verif Require Import LinalgSpec FieldTac AlgebraModel AlgebraSpec AlgebraProofs2 AlgebraProofs4 AlgebraProofs5 AlgebraProps
  GaugeModel GaugeSpec GaugeMatrix GaugeProofs1 GaugeProofs2 MatrixSpec ForceModel ForceSpec
  ForceProofs1 ForceProofs2 ForceProofs3 ForceProofs4 ForceProofs5 ForceProofs7 ForceProofs8 ForceProofs9 ForceProofs10 ForceProps
  GaussModel GaussSpec GaussProofs1 GaussProofs2 GaussProofs3 GaussProofs4 GaussProofs6 GaussProofs7
  FlowModel FlowSpec FlowProofs1 FlowProofs2.
Set Implicit Arguments.
Unset Strict Implicit.
Unset Printing Implicit Defensive.
Import Order.TTheory GRing.Theory Num.Theory.
Local Open Scope ring_scope.

Section PureRing.
Variables (R : Type) (r0 r1 : R) (radd rmul rsub : R -> R -> R) (ropp : R -> R).
Variable RT : ring_theory r0 r1 radd rmul rsub ropp eq.
Add Ring RT7 : RT.
Notation "a + b" := (radd a b).
Notation "a * b" := (rmul a b).
Notation "- a" := (ropp a).
Lemma pure_eps a b c :
  a + (a + ((- b) + ((- b) + (c + (c + (a + (a + (c + (c + ((- b) + ((- b) + ((- b) + ((- b) + (c + (c + (a + (a + (c + (c + ((- b) + ((- b) + (a + (a + r0))))))))))))))))))))))) =
  (r1+(r1+(r1+(r1+(r1+(r1+(r1+r1))))))) * (a + - b + c).
Proof. ring. Qed.
End PureRing.

Lemma eps_sum (C : numClosedFieldType) (t : nat -> nat -> nat -> nat -> C) :
  (forall i j k l, t j i k l = - t i j k l) -> (forall i j k l, t i j l k = - t i j k l) ->
  (forall i j k l, t k l i j = t i j k l) ->
  \sum_(q <- quadruples) (epsilon q)%:~R * t q.1.1.1 q.1.1.2 q.1.2 q.2
  = 8%:R * (t 0%N 1%N 2%N 3%N - t 0%N 2%N 1%N 3%N + t 0%N 3%N 1%N 2%N).
Proof.
move=> H1 H2 H3.
have -> : \sum_(q <- quadruples) (epsilon q)%:~R * t q.1.1.1 q.1.1.2 q.1.2 q.2
   = \sum_(q <- [:: (0%N, 1%N, 2%N, 3%N); (0%N, 1%N, 3%N, 2%N); (0%N, 2%N, 1%N, 3%N); (0%N, 2%N, 3%N, 1%N); (0%N, 3%N, 1%N, 2%N); (0%N, 3%N, 2%N, 1%N); (1%N, 0%N, 2%N, 3%N); (1%N, 0%N, 3%N, 2%N); (1%N, 2%N, 0%N, 3%N); (1%N, 2%N, 3%N, 0%N); (1%N, 3%N, 0%N, 2%N); (1%N, 3%N, 2%N, 0%N); (2%N, 0%N, 1%N, 3%N); (2%N, 0%N, 3%N, 1%N); (2%N, 1%N, 0%N, 3%N); (2%N, 1%N, 3%N, 0%N); (2%N, 3%N, 0%N, 1%N); (2%N, 3%N, 1%N, 0%N); (3%N, 0%N, 1%N, 2%N); (3%N, 0%N, 2%N, 1%N); (3%N, 1%N, 0%N, 2%N); (3%N, 1%N, 2%N, 0%N); (3%N, 2%N, 0%N, 1%N); (3%N, 2%N, 1%N, 0%N)])
       (epsilon q)%:~R * t q.1.1.1 q.1.1.2 q.1.2 q.2.
  have -> : [:: (0%N, 1%N, 2%N, 3%N); (0%N, 1%N, 3%N, 2%N); (0%N, 2%N, 1%N, 3%N); (0%N, 2%N, 3%N, 1%N); (0%N, 3%N, 1%N, 2%N); (0%N, 3%N, 2%N, 1%N); (1%N, 0%N, 2%N, 3%N); (1%N, 0%N, 3%N, 2%N); (1%N, 2%N, 0%N, 3%N); (1%N, 2%N, 3%N, 0%N); (1%N, 3%N, 0%N, 2%N); (1%N, 3%N, 2%N, 0%N); (2%N, 0%N, 1%N, 3%N); (2%N, 0%N, 3%N, 1%N); (2%N, 1%N, 0%N, 3%N); (2%N, 1%N, 3%N, 0%N); (2%N, 3%N, 0%N, 1%N); (2%N, 3%N, 1%N, 0%N); (3%N, 0%N, 1%N, 2%N); (3%N, 0%N, 2%N, 1%N); (3%N, 1%N, 0%N, 2%N); (3%N, 1%N, 2%N, 0%N); (3%N, 2%N, 0%N, 1%N); (3%N, 2%N, 1%N, 0%N)]
    = [seq q <- quadruples | epsilon q != 0] by vm_compute.
  rewrite big_filter [RHS]big_mkcond; apply: eq_bigr => q _.
  by case: eqP => [->|//]; rewrite mul0r.
rewrite !big_cons big_nil; cbn [fst snd].
have e0123 : (epsilon (0%N, 1%N, 2%N, 3%N))%:~R * t 0%N 1%N 2%N 3%N = t 0%N 1%N 2%N 3%N by rewrite -[(epsilon (0%N, 1%N, 2%N, 3%N))%:~R]/(1 : C)  ?mulN1r ?mul1r ?opprK.
have e0132 : (epsilon (0%N, 1%N, 3%N, 2%N))%:~R * t 0%N 1%N 3%N 2%N = t 0%N 1%N 2%N 3%N by rewrite -[(epsilon (0%N, 1%N, 3%N, 2%N))%:~R]/((- 1) : C) (H2 _ _ 2%N 3%N) ?mulN1r ?mul1r ?opprK.
have e0213 : (epsilon (0%N, 2%N, 1%N, 3%N))%:~R * t 0%N 2%N 1%N 3%N = - t 0%N 2%N 1%N 3%N by rewrite -[(epsilon (0%N, 2%N, 1%N, 3%N))%:~R]/((- 1) : C)  ?mulN1r ?mul1r ?opprK.
have e0231 : (epsilon (0%N, 2%N, 3%N, 1%N))%:~R * t 0%N 2%N 3%N 1%N = - t 0%N 2%N 1%N 3%N by rewrite -[(epsilon (0%N, 2%N, 3%N, 1%N))%:~R]/(1 : C) (H2 _ _ 1%N 3%N) ?mulN1r ?mul1r ?opprK.
have e0312 : (epsilon (0%N, 3%N, 1%N, 2%N))%:~R * t 0%N 3%N 1%N 2%N = t 0%N 3%N 1%N 2%N by rewrite -[(epsilon (0%N, 3%N, 1%N, 2%N))%:~R]/(1 : C)  ?mulN1r ?mul1r ?opprK.
have e0321 : (epsilon (0%N, 3%N, 2%N, 1%N))%:~R * t 0%N 3%N 2%N 1%N = t 0%N 3%N 1%N 2%N by rewrite -[(epsilon (0%N, 3%N, 2%N, 1%N))%:~R]/((- 1) : C) (H2 _ _ 1%N 2%N) ?mulN1r ?mul1r ?opprK.
have e1023 : (epsilon (1%N, 0%N, 2%N, 3%N))%:~R * t 1%N 0%N 2%N 3%N = t 0%N 1%N 2%N 3%N by rewrite -[(epsilon (1%N, 0%N, 2%N, 3%N))%:~R]/((- 1) : C) (H1 0%N 1%N) ?mulN1r ?mul1r ?opprK.
have e1032 : (epsilon (1%N, 0%N, 3%N, 2%N))%:~R * t 1%N 0%N 3%N 2%N = t 0%N 1%N 2%N 3%N by rewrite -[(epsilon (1%N, 0%N, 3%N, 2%N))%:~R]/(1 : C) (H1 0%N 1%N) (H2 _ _ 2%N 3%N) ?mulN1r ?mul1r ?opprK.
have e1203 : (epsilon (1%N, 2%N, 0%N, 3%N))%:~R * t 1%N 2%N 0%N 3%N = t 0%N 3%N 1%N 2%N by rewrite -[(epsilon (1%N, 2%N, 0%N, 3%N))%:~R]/(1 : C) (H3 0%N 3%N) ?mulN1r ?mul1r ?opprK.
have e1230 : (epsilon (1%N, 2%N, 3%N, 0%N))%:~R * t 1%N 2%N 3%N 0%N = t 0%N 3%N 1%N 2%N by rewrite -[(epsilon (1%N, 2%N, 3%N, 0%N))%:~R]/((- 1) : C) (H2 _ _ 0%N 3%N) (H3 0%N 3%N) ?mulN1r ?mul1r ?opprK.
have e1302 : (epsilon (1%N, 3%N, 0%N, 2%N))%:~R * t 1%N 3%N 0%N 2%N = - t 0%N 2%N 1%N 3%N by rewrite -[(epsilon (1%N, 3%N, 0%N, 2%N))%:~R]/((- 1) : C) (H3 0%N 2%N) ?mulN1r ?mul1r ?opprK.
have e1320 : (epsilon (1%N, 3%N, 2%N, 0%N))%:~R * t 1%N 3%N 2%N 0%N = - t 0%N 2%N 1%N 3%N by rewrite -[(epsilon (1%N, 3%N, 2%N, 0%N))%:~R]/(1 : C) (H2 _ _ 0%N 2%N) (H3 0%N 2%N) ?mulN1r ?mul1r ?opprK.
have e2013 : (epsilon (2%N, 0%N, 1%N, 3%N))%:~R * t 2%N 0%N 1%N 3%N = - t 0%N 2%N 1%N 3%N by rewrite -[(epsilon (2%N, 0%N, 1%N, 3%N))%:~R]/(1 : C) (H1 0%N 2%N) ?mulN1r ?mul1r ?opprK.
have e2031 : (epsilon (2%N, 0%N, 3%N, 1%N))%:~R * t 2%N 0%N 3%N 1%N = - t 0%N 2%N 1%N 3%N by rewrite -[(epsilon (2%N, 0%N, 3%N, 1%N))%:~R]/((- 1) : C) (H1 0%N 2%N) (H2 _ _ 1%N 3%N) ?mulN1r ?mul1r ?opprK.
have e2103 : (epsilon (2%N, 1%N, 0%N, 3%N))%:~R * t 2%N 1%N 0%N 3%N = t 0%N 3%N 1%N 2%N by rewrite -[(epsilon (2%N, 1%N, 0%N, 3%N))%:~R]/((- 1) : C) (H1 1%N 2%N) (H3 0%N 3%N) ?mulN1r ?mul1r ?opprK.
have e2130 : (epsilon (2%N, 1%N, 3%N, 0%N))%:~R * t 2%N 1%N 3%N 0%N = t 0%N 3%N 1%N 2%N by rewrite -[(epsilon (2%N, 1%N, 3%N, 0%N))%:~R]/(1 : C) (H1 1%N 2%N) (H2 _ _ 0%N 3%N) (H3 0%N 3%N) ?mulN1r ?mul1r ?opprK.
have e2301 : (epsilon (2%N, 3%N, 0%N, 1%N))%:~R * t 2%N 3%N 0%N 1%N = t 0%N 1%N 2%N 3%N by rewrite -[(epsilon (2%N, 3%N, 0%N, 1%N))%:~R]/(1 : C) (H3 0%N 1%N) ?mulN1r ?mul1r ?opprK.
have e2310 : (epsilon (2%N, 3%N, 1%N, 0%N))%:~R * t 2%N 3%N 1%N 0%N = t 0%N 1%N 2%N 3%N by rewrite -[(epsilon (2%N, 3%N, 1%N, 0%N))%:~R]/((- 1) : C) (H2 _ _ 0%N 1%N) (H3 0%N 1%N) ?mulN1r ?mul1r ?opprK.
have e3012 : (epsilon (3%N, 0%N, 1%N, 2%N))%:~R * t 3%N 0%N 1%N 2%N = t 0%N 3%N 1%N 2%N by rewrite -[(epsilon (3%N, 0%N, 1%N, 2%N))%:~R]/((- 1) : C) (H1 0%N 3%N) ?mulN1r ?mul1r ?opprK.
have e3021 : (epsilon (3%N, 0%N, 2%N, 1%N))%:~R * t 3%N 0%N 2%N 1%N = t 0%N 3%N 1%N 2%N by rewrite -[(epsilon (3%N, 0%N, 2%N, 1%N))%:~R]/(1 : C) (H1 0%N 3%N) (H2 _ _ 1%N 2%N) ?mulN1r ?mul1r ?opprK.
have e3102 : (epsilon (3%N, 1%N, 0%N, 2%N))%:~R * t 3%N 1%N 0%N 2%N = - t 0%N 2%N 1%N 3%N by rewrite -[(epsilon (3%N, 1%N, 0%N, 2%N))%:~R]/(1 : C) (H1 1%N 3%N) (H3 0%N 2%N) ?mulN1r ?mul1r ?opprK.
have e3120 : (epsilon (3%N, 1%N, 2%N, 0%N))%:~R * t 3%N 1%N 2%N 0%N = - t 0%N 2%N 1%N 3%N by rewrite -[(epsilon (3%N, 1%N, 2%N, 0%N))%:~R]/((- 1) : C) (H1 1%N 3%N) (H2 _ _ 0%N 2%N) (H3 0%N 2%N) ?mulN1r ?mul1r ?opprK.
have e3201 : (epsilon (3%N, 2%N, 0%N, 1%N))%:~R * t 3%N 2%N 0%N 1%N = t 0%N 1%N 2%N 3%N by rewrite -[(epsilon (3%N, 2%N, 0%N, 1%N))%:~R]/((- 1) : C) (H1 2%N 3%N) (H3 0%N 1%N) ?mulN1r ?mul1r ?opprK.
have e3210 : (epsilon (3%N, 2%N, 1%N, 0%N))%:~R * t 3%N 2%N 1%N 0%N = t 0%N 1%N 2%N 3%N by rewrite -[(epsilon (3%N, 2%N, 1%N, 0%N))%:~R]/(1 : C) (H1 2%N 3%N) (H2 _ _ 0%N 1%N) (H3 0%N 1%N) ?mulN1r ?mul1r ?opprK.
rewrite e0123 e0132 e0213 e0231 e0312 e0321 e1023 e1032 e1203 e1230 e1302 e1320 e2013 e2031 e2103 e2130 e2301 e2310 e3012 e3021 e3102 e3120 e3201 e3210.
exact: (pure_eps (mc_ring C)).
Qed.

Section Strength.
Variables (C : numClosedFieldType) (n : nat) (L : list Z).
Hypotheses (n0 : (0 < n)%N) (HL : sizes L).
Notation CM := (complex_matrices C n).
Notation LM := (complex_linear C n).
Notation SU := (su_algebra C n).
Notation dn := (GaugeModel.down L).
Notation AP := (AlgebraSpec.algebra_part conjC).
Notation part := (@ForceSpec.algebra_part C n).
Implicit Types (A B : 'M[C]_n).

Lemma part_AP A : part A = AP A.
Proof.
have adj B : adjoint conjC B = dg B by apply/matrixP => i j; rewrite !mxE.
by rewrite /AlgebraSpec.algebra_part adj.
Qed.
Lemma part_add A B : part (A + B) = part A + part B.
Proof. by rewrite !part_AP AP_add. Qed.
Lemma part_conj g A : dg g *m g = 1%:M -> dg g *m part A *m g = part (dg g *m A *m g).
Proof. by move=> H; rewrite !part_AP AP_conj. Qed.
Lemma part_dg A : part (dg A) = - part A.
Proof. by rewrite !part_AP AP_dg. Qed.
Lemma part_quarter A : part (4%:R^-1 *: A) = 4%:R^-1 *: part A.
Proof.
have r : (4%:R^-1 : C) \is Num.real by rewrite realV realn.
rewrite /ForceSpec.algebra_part -!/(dg _) dg_scale (CrealP r) -scalerBr scalerA mulrC -scalerA.
by rewrite mxtraceZ -mulrA -scale_scalar_mx -scalerBr.
Qed.

Variable V : links C n.
Hypothesis HV : unitary_links L V.
Notation line := (path_line (M := CM) L V).

Lemma strengthE d1 d2 x : (d1 < length L)%N -> (d2 < length L)%N -> on_lattice L x ->
  field_strength CM LM L V d1 d2 x = strength L V d1 d2 x.
Proof.
move=> h1 h2 hx; have ML := complex_matrix_laws C n.
pose P0 y : 'M[C]_n := part (line (leaf_path d1 d2 0) y).
pose P1 y : 'M[C]_n := part (line (leaf_path d1 d2 1) y).
have [tF HF] : exists f : site -> 'M[C]_n, forall y,
    f y = part (V d1 y *m V d2 (up L d1 y) *m dg (V d2 y *m V d1 (up L d2 y))) by eexists => y.
have E0 y : on_lattice L y -> tF y = P0 y.
  move=> hy; rewrite HF /P0 -(leaf0_line ML HL V d1 d2 hy) /leaf0.
  by congr (part _); rewrite -[RHS]/(V d1 y *m (V d2 (up L d1 y) *m dg (V d2 y *m V d1 (up L d2 y)))) mulmxA.
have E1 y : on_lattice L y -> dg (V d1 (dn d1 y)) *m tF (dn d1 y) *m V d1 (dn d1 y) = P1 y.
  move=> hy; have hz := down_on L d1 y HL hy; have [_ u] := unitary_dg (HV h1 hz).
  rewrite HF (part_conj _ u) /P1 -(leaf1_line ML HL V d1 d2 hy) /leaf1; congr (part _).
  by rewrite -!mulmxA mulmxA u mul1mx !mulmxA.
have -> : field_strength CM LM L V d1 d2 x = 4%:R^-1 *: ((tF x + dg (V d1 (dn d1 x)) *m tF (dn d1 x) *m V d1 (dn d1 x))
   + dg (V d2 (dn d2 x)) *m (tF (dn d2 x) + dg (V d1 (dn d1 (dn d2 x))) *m tF (dn d1 (dn d2 x)) *m V d1 (dn d1 (dn d2 x))) *m V d2 (dn d2 x)).
  by rewrite !HF.
have hy := down_on L d2 x HL hx; have [_ u] := unitary_dg (HV h2 hy).
have l0 := @part_conj (V d2 (dn d2 x)) (line (leaf_path d1 d2 0) (dn d2 x)) u.
have l1 := @part_conj (V d2 (dn d2 x)) (line (leaf_path d1 d2 1) (dn d2 x)) u.
rewrite (E1 _ hx) (E1 _ hy) (E0 _ hx) (E0 _ hy) mulmxDr mulmxDl {2}/P0 {2}/P1.
rewrite [X in _ + (X + _)]l0 [X in _ + (_ + X)]l1.
have F0 : dg (V d2 (dn d2 x)) *m (line (leaf_path d1 d2 0) (dn d2 x) : 'M[C]_n) *m V d2 (dn d2 x) = line (leaf_path d1 d2 3) x.
  have e := from_above ML V (@dims_leaf _ _ _ h1 h2 0%N) hx (end0 HL d1 d2 hy).
  have e' := line_backtrack ML HL HV [:: Down d2; Up d1; Up d2; Down d1] (s := Down d2) [::] h2 hx.
  exact: (eq_trans e e').
have F1 : dg (V d2 (dn d2 x)) *m (line (leaf_path d1 d2 1) (dn d2 x) : 'M[C]_n) *m V d2 (dn d2 x) = line (leaf_path d1 d2 2) x.
  have e := from_above ML V (@dims_leaf _ _ _ h1 h2 1%N) hx (end1 HL d1 d2 hy).
  have e' := line_step_back ML HL HV (s := Down d2) [:: Down d1; Down d2; Up d1; Up d2] h2 hx.
  exact: (eq_trans e e').
rewrite F0 F1 /strength /clover_sum part_quarter !part_add; congr (_ *: _).
rewrite /P0 /P1 -[RHS]addrA; apply: (f_equal (fun z => _ + z)); exact: addrC.
Qed.
End Strength.
