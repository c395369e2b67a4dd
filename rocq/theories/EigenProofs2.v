(** Diagonalisation of two rows and columns of a hermitean matrix. *)
Set Warnings "-notation-overridden,-ambiguous-paths".
From mathcomp Require Import all_ssreflect all_algebra all_fingroup.
From Verif Require Import LinalgModel LinalgSpec LinalgProofs1 LinalgProofs3 LinalgProofs4
  FieldTac MatrixModel MatrixSpec MatrixProofs1 MatrixProofs2 SortModel EigenModel EigenSpec EigenProofs1.
Set Implicit Arguments.
Unset Strict Implicit.
Unset Printing Implicit Defensive.
Import Order.TTheory GRing.Theory Num.Theory.
Local Open Scope ring_scope.

Local Arguments MatrixModel.of_nat : simpl never.

Section PureField.
Variables (K : Type) (zero one : K) (add mul sub div : K -> K -> K) (opp inv : K -> K).
Hypothesis FT : field_theory zero one add mul sub opp div inv eq.
Add Field K_field : FT.
Notation "a + b" := (add a b).
Notation "a * b" := (mul a b).
Notation "a - b" := (sub a b).
Notation "- a" := (opp a).

Lemma angle_field : forall a R m, a + R <> zero ->
  R * R = a * a + (one + one + one + one) * m ->
  let t := div (one + one) (a + R) in t * a + t * t * m = one.
Proof.
move=> a R m n0 E t; rewrite /t.
have -> : div (one + one) (a + R) * a + div (one + one) (a + R) * div (one + one) (a + R) * m
  = div ((one + one) * a * (a + R) + (one + one + one + one) * m) ((a + R) * (a + R)) by field.
have -> : (one + one) * a * (a + R) + (one + one + one + one) * m
  = (one + one) * a * (a + R) + (a * a + (one + one + one + one) * m) - a * a by ring.
rewrite -E; field => //.
Qed.

Variables (x y t c P Q : K).
Hypotheses (h2 : t * (Q - P) + t * t * (x * y) = one) (h3 : c * c * (one + x * y * (t * t)) = one).
Let s := x * (t * c).
Let s' := y * (t * c).

Lemma norm_field : c * c + s * s' = one.
Proof. by rewrite -h3 /s /s'; ring. Qed.

Lemma zero_field : (c * P + - s * y) * s + (c * x + - s * Q) * c = zero.
Proof.
have -> : (c * P + - s * y) * s + (c * x + - s * Q) * c
  = x * (c * c) * (one - (t * (Q - P) + t * t * (x * y))) by rewrite /s; ring.
by rewrite h2; ring.
Qed.

Lemma zero_field' : (s' * P + c * y) * c + (s' * x + c * Q) * - s' = zero.
Proof.
have -> : (s' * P + c * y) * c + (s' * x + c * Q) * - s'
  = y * (c * c) * (one - (t * (Q - P) + t * t * (x * y))) by rewrite /s'; ring.
by rewrite h2; ring.
Qed.

Lemma pp_field : (c * P + - s * y) * c + (c * x + - s * Q) * - s' = P - t * (x * y).
Proof.
have -> : (c * P + - s * y) * c + (c * x + - s * Q) * - s'
  = c * c * (one + x * y * (t * t)) * (P - t * (x * y))
    + c * c * t * (x * y) * (t * (Q - P) + t * t * (x * y) - one) by rewrite /s /s'; ring.
by rewrite h2 h3; ring.
Qed.

Lemma qq_field : (s' * P + c * y) * s + (s' * x + c * Q) * c = Q + t * (x * y).
Proof.
have -> : (s' * P + c * y) * s + (s' * x + c * Q) * c
  = c * c * (one + x * y * (t * t)) * (Q + t * (x * y))
    - c * c * t * (x * y) * (t * (Q - P) + t * t * (x * y) - one) by rewrite /s /s'; ring.
by rewrite h2 h3; ring.
Qed.

Lemma squares_field : (P - t * (x * y)) * (P - t * (x * y)) + (Q + t * (x * y)) * (Q + t * (x * y))
  = P * P + Q * Q + (one + one) * (x * y).
Proof.
have -> : (P - t * (x * y)) * (P - t * (x * y)) + (Q + t * (x * y)) * (Q + t * (x * y))
  = P * P + Q * Q + (one + one) * (x * y) * (t * (Q - P) + t * t * (x * y)) by ring.
by rewrite h2; ring.
Qed.

End PureField.

Section Diagonalize.
Variables (F : numFieldType) (f : F -> F) (u : F) (cj : {rmorphism F -> F}) (re root stale : F -> F) (eps : F).
Notation S := (field_scalars f u).
Hypothesis C : complex_numbers cj re root.

Lemma two_neq0 : 2%:R != 0 :> F. Proof. by rewrite pnatr_eq0. Qed.

Lemma diag2 : forall mpp mqq mpq : F, mpp \is Num.real -> mqq \is Num.real -> mpq != 0 ->
  let P := diagonalize_2x2 S root mpp mqq mpq in
  exists t c : F, [/\ gc P = c, gs P = mpq * (t * c), t \is Num.real /\ c \is Num.real,
    t * (mqq - mpp) + t * t * (mpq * cj mpq) = 1 & c * c * (1 + mpq * cj mpq * (t * t)) = 1].
Proof.
move=> mpp mqq mpq Rp Rq nz P; rewrite /P /diagonalize_2x2.
rewrite !(of_natE f u) /= (cj_norm C); set m := `|mpq| ^+ 2.
have m0 : 0 < m by rewrite exprn_gt0 // normr_gt0.
set a := mqq - mpp; have Ra : a \is Num.real by rewrite rpredB.
have aa : 0 <= a * a by rewrite -expr2 real_exprn_even_ge0.
have s0 : 0 < a * a + 4%:R * m by rewrite ltr_paddl // mulr_gt0 // ltr0n.
set R := root (a * a + 4%:R * m); have R0 : 0 < R by apply: (root_gt0 C).
have RR : R * R = a * a + 4%:R * m by rewrite -expr2 (rootK C) // ltW.
set t := if a < 0 then _ else _; set c := 1 / _.
have [Et Rt] : t * a + t * t * m = 1 /\ t \is Num.real.
  have RR4 : forall b, b * b = a * a -> R * R = b * b + (1 + 1 + 1 + 1) * m.
    by move=> b ->; rewrite RR; congr (_ + _ * _); rewrite -!addrA.
  rewrite /t; case: ifP => a0.
    have nb : `|a| = - a by rewrite ltr0_norm.
    have := @angle_field _ _ _ _ _ _ _ _ _ (mc_field F) (- a) R m.
    have nz0 : - a + R <> 0 by apply/eqP; rewrite gt_eqF // addr_gt0 // oppr_gt0.
    move/(_ nz0 (RR4 _ _)); rewrite mulrNN => /(_ erefl) /= E; split.
      by rewrite nb mulNr mulrNN -mulrN.
    rewrite rpredN nb; apply: ger0_real; rewrite divr_ge0 ?ler0n // ltW //.
    by rewrite addr_gt0 // oppr_gt0.
  have a1 : 0 <= a by rewrite real_leNgt ?a0 // ?rpred0.
  have nb : `|a| = a by rewrite ger0_norm.
  have nz0 : a + R <> 0 by apply/eqP; rewrite gt_eqF // ltr_paddl.
  split; rewrite nb; first exact: (@angle_field _ _ _ _ _ _ _ _ _ (mc_field F) a R m nz0 (RR4 _ erefl)).
  by apply: ger0_real; rewrite divr_ge0 ?ler0n // addr_ge0 // ltW.
have s1 : 0 < m * t * t + 1.
  by rewrite ltr_paddl ?ltr01 // -mulrA mulr_ge0 ?(ltW m0) // -expr2 real_exprn_even_ge0.
exists t, c; split=> //.
- by split=> //; apply: ger0_real; rewrite divr_ge0 ?ler01 // (root_ge0 C) ?ltW.
rewrite /c !mul1r -invfM -expr2 (rootK C) ?ltW // [1 + _]addrC [m * (t * t)]mulrA mulVf //.
by rewrite gt_eqF.
Qed.

(** ** Sums of squares *)

Lemma adjointM : forall n m l (A : 'M[F]_(n, m)) (B : 'M[F]_(m, l)),
  adjoint cj (A *m B) = adjoint cj B *m adjoint cj A.
Proof.
move=> n m l A B; apply/matrixP => i j; rewrite !mxE rmorph_sum; apply: eq_bigr => k _.
by rewrite !mxE rmorphM mulrC.
Qed.

Lemma adjointK : forall n m (A : 'M[F]_(n, m)), adjoint cj (adjoint cj A) = A.
Proof. by move=> n m A; apply/matrixP => i j; rewrite !mxE (cjK C). Qed.

Lemma total_square : forall n (A : 'M[F]_n),
  offdiagonal A + \sum_i `|A i i| ^+ 2 = \tr (adjoint cj A *m A).
Proof.
move=> n A; rewrite /mxtrace /offdiagonal -big_split /=.
under eq_bigr => i _ do rewrite addrC -(bigD1 i (P := predT) (F := fun j => `|A i j| ^+ 2)) //.
rewrite exchange_big; apply: eq_bigr => j _; rewrite mxE; apply: eq_bigr => i _.
by rewrite !mxE mulrC (cj_norm C).
Qed.

Lemma total_rotation : forall n (A U : 'M[F]_n), unitary cj U ->
  \tr (adjoint cj (adjoint cj U *m A *m U) *m (adjoint cj U *m A *m U)) = \tr (adjoint cj A *m A).
Proof.
move=> n A U; rewrite /unitary => UU; have UU' := mulmx1C UU.
rewrite !adjointM adjointK -!mulmxA [U *m (_ *m _)]mulmxA UU' mul1mx mxtrace_mulC -!mulmxA UU' mulmx1.
by rewrite mxtrace_mulC.
Qed.

Section Step.
Variables (n : nat) (M : nat -> nat -> F) (p q : nat).
Hypotheses (pn : (p < n)%N) (qn : (q < n)%N) (pq : p != q).
Hypothesis H : hermitean cj (mxr n n M).
Hypothesis nz : M p q != 0.

Lemma herm : forall i j, (i < n)%N -> (j < n)%N -> cj (M i j) = M j i.
Proof.
by move=> i j iN jN; have /matrixP /(_ (Ordinal jN) (Ordinal iN)) := H; rewrite !mxE.
Qed.

Let P := diagonalize_2x2 S root (M p p) (M q q) (M p q).
Let J := rotation cj n P p q.
Let R := mult_by_Givens_right S cj n P (mult_by_Givens_left S cj n (givens_dagger S P) M p q) p q.

Lemma step_matrix : unitary cj J /\ mxr n n R = adjoint cj J *m mxr n n M *m J.
Proof.
have Rp : M p p \is Num.real by apply: (real_cj C); exact: herm.
have Rq : M q q \is Num.real by apply: (real_cj C); exact: herm.
have [t [c [Ec Es [Rt Rc] E1 E2]]] := diag2 Rp Rq nz.
have cR : cj (gc P) = gc P by rewrite Ec (cj_real C).
split; last by rewrite /R rightM // leftM // (daggerM C).
apply: (rotation_unitary C) => //; rewrite -(cj_norm C) Ec Es !rmorphM (cj_real C Rt) (cj_real C Rc) expr2.
exact: (norm_field (mc_field F) E2).
Qed.

Lemma step_elements : [/\ R p q = 0, R q p = 0, forall i, (i < n)%N -> i != p -> i != q -> R i i = M i i,
    (forall i j, (i < n)%N -> (j < n)%N -> i != p -> i != q -> j != p -> j != q -> R i j = M i j) &
    `|R p p| ^+ 2 + `|R q q| ^+ 2 = `|M p p| ^+ 2 + `|M q q| ^+ 2 + 2%:R * `|M p q| ^+ 2].
Proof.
have Rp : M p p \is Num.real by apply: (real_cj C); exact: herm.
have Rq : M q q \is Num.real by apply: (real_cj C); exact: herm.
have [t [c [Ec Es [Rt Rc] E1 E2]]] := diag2 Rp Rq nz.
have qp : (q == p) = false by rewrite eq_sym (negbTE pq).
have Hs : cj (gs P) = M q p * (t * c).
  by rewrite Es !rmorphM (cj_real C Rt) (cj_real C Rc) herm.
rewrite -/P in Ec Es; rewrite (herm pn qn) in E1 E2.
have FT := mc_field F.
rewrite /R; move: Ec Es Hs; move: P => G Ec Es Hs.
set L := mult_by_Givens_left _ _ _ _ _ _ _.
have LE : forall i j, (j < n)%N -> L i j =
    if i == p then gc G * M p j + - gs G * M q j
    else if i == q then cj (gs G) * M p j + gc G * M q j else M i j.
  by move=> i j jN; rewrite /L givens_left // left_loop // jN /gmat /= rmorphN opprK.
have RE : forall i j, (i < n)%N -> mult_by_Givens_right S cj n G L p q i j =
    if j == p then L i p * gc G + L i q * - cj (gs G)
    else if j == q then L i p * gs G + L i q * gc G else L i j.
  by move=> i j iN; rewrite givens_right // right_loop // iN.
rewrite !RE // !eqxx !qp !LE // !eqxx !qp Hs Ec Es; split.
- exact: (zero_field FT c E1).
- exact: (zero_field' FT c E1).
- by move=> i iN ip iq; rewrite RE // (negbTE ip) (negbTE iq) LE // (negbTE ip) (negbTE iq).
- by move=> i j iN jN ip iq jp jq; rewrite RE // (negbTE jp) (negbTE jq) LE // (negbTE ip) (negbTE iq).
rewrite (pp_field FT E1 E2) (qq_field FT E1 E2) -!(cj_norm C) (herm pn qn).
have Rm : M p q * M q p \is Num.real by rewrite -(herm pn qn) (cj_norm C) rpredX // normr_real.
have Rx := rpredM Rt Rm; rewrite (cj_real C Rp) (cj_real C Rq) (cj_real C (rpredB Rp Rx)) (cj_real C (rpredD Rq Rx)).
exact: (squares_field FT E1).
Qed.


End Step.

End Diagonalize.
