(** Forces follow gauge transformations. *)
Set Warnings "-notation-overridden,-ambiguous-paths".
From Coq Require Import ZArith List.
From mathcomp Require Import all_ssreflect all_algebra.
From Verif Require Import LinalgSpec AlgebraModel AlgebraSpec AlgebraProofs2 AlgebraProofs4 AlgebraProps
  GaugeModel GaugeSpec GaugeMatrix GaugeProofs1 GaugeProofs2 MatrixSpec ForceModel ForceSpec
  ForceProofs1 ForceProofs2 ForceProofs3 ForceProofs4 ForceProofs5 ForceProofs7 ForceProofs10 ForceProps
  GaussModel GaussSpec GaussProofs1 GaussProofs7 FlowModel FlowSpec FlowProofs1.
Set Implicit Arguments.
Unset Strict Implicit.
Unset Printing Implicit Defensive.
Import Order.TTheory GRing.Theory Num.Theory.
Local Open Scope ring_scope.

Lemma fold_left_ext_In (A B : Type) (f h : A -> B -> A) (l : list B) (a : A) :
  (forall a b, In b l -> f a b = h a b) -> fold_left f l a = fold_left h l a.
Proof.
elim: l a => [//|b l IH] a H /=; rewrite H; last by left.
by apply: IH => a' b' hb; apply: H; right.
Qed.

Section Covariant.
Variables (C : numClosedFieldType) (n : nat) (L : list Z).
Hypothesis n0 : (0 < n)%N.
Hypothesis HL : sizes L.
Notation CM := (complex_matrices C n).
Notation LM := (complex_linear C n).
Notation SU := (su_algebra C n).
Notation Ex := (@algebra_matrix C n).
Notation toalg := (@algebra_components C n).
Notation prod := (product n L).
Variable g : site -> 'M[C]_n.
Hypothesis Hg : forall x, on_lattice L x -> GaugeSpec.unitary CM (g x).
Notation tr := (transform CM L g).

Lemma g_l x : on_lattice L x -> dg (g x) *m g x = 1%:M. Proof. by move=> hx; case: (Hg hx). Qed.
Lemma g_r x : on_lattice L x -> g x *m dg (g x) = 1%:M. Proof. by move=> hx; case: (Hg hx). Qed.

Lemma trE (V : links C n) d x : tr V d x = g x *m V d x *m dg (g (up L d x)).
Proof. by []. Qed.

Lemma transform_unitary V : unitary_links L V -> unitary_links L (tr V).
Proof.
move=> H d x hd hx; have hu := up_on L d x HL hx; have [v1 v2] := H d x hd hx.
have := g_l hx; have := g_r hx; have := g_l hu; have := g_r hu.
rewrite /GaugeSpec.unitary -[dagger CM _]/(dg _) !trE -[mone CM]/(1%:M).
rewrite -[mul CM _ _]/(_ *m _) -[mul CM (dg _) _]/(_ *m _).
move: v1 v2; rewrite -[mul CM _ _]/(_ *m _) -[mul CM (dagger CM _) _]/(_ *m _) -[dagger CM _]/(dg _) -[mone CM]/(1%:M).
move: (V d x) (g x) (g (up L d x)) => A a b v1 v2 b1 b2 a1 a2.
rewrite !dg_mul !dgK; split; rewrite !mulmxA.
  by rewrite -(mulmxA _ (dg b) b) b2 mulmx1 -(mulmxA _ A) v1 mulmx1.
by rewrite -(mulmxA _ (dg a) a) a2 mulmx1 -(mulmxA _ (dg A) A) v2 mulmx1.
Qed.

(** Moving links that are transformed. *)
Lemma transform_moves U V (E E' : moments C) : links_move L U V E -> @transformed C n L g E E' ->
  links_move L (fun t => tr (U t)) (tr V) E'.
Proof.
move=> H T d x i j hd hx.
have D : mderiv (fun t => U t d x) (V d x) (Ex (E d x) *m V d x) by move=> i' j'; apply: H.
have D2 := mderiv_mul (mderiv_const (g x)) D.
have := mderiv_mul D2 (mderiv_const (dg (g (up L d x)))) i j.
rewrite mulmx0 add0r mul0mx addr0 (T d x hd hx) trE /conjugate -/(dg _).
have -> : g x *m (Ex (E d x) *m V d x) *m dg (g (up L d x))
   = g x *m Ex (E d x) *m dg (g x) *m (g x *m V d x *m dg (g (up L d x))); last exact.
by rewrite !mulmxA -(mulmxA _ (dg (g x)) (g x)) g_l // mulmx1.
Qed.

Lemma gradient_covariant S K K' V c : (forall U, S (tr U) = S U) -> gradient L S K V c -> gradient L S K' (tr V) c ->
  @transformed C n L g K K'.
Proof.
move=> I [RK G] [RK' G'] d x hd hx.
rewrite /conjugate -/(dg _) -(Ex_push n0 (fun k => @RK d x k hd hx) (g_l hx)).
apply: Ex_ext => // k hk.
have RU := @unit_real C n L d x k.
pose E : moments C := fun d' x' => pull (g x') (unit_momenta C d x k d' x').
have RE : real_momenta n L E by move=> d' x' k' hd' hx' hk'; apply: pull_real.
have TE : @transformed C n L g E (unit_momenta C d x k).
  move=> d' x' hd' hx'; rewrite Ex_pull //; [|by move=> j hj; exact: RU|exact: g_l].
  by rewrite !mulmxA g_r // mul1mx -mulmxA g_r // mulmx1.
have mv := @curve_moves C n L V E.
have [D HD P] := G _ _ RE mv.
have [D' HD' P'] := G' _ _ RU (transform_moves mv TE).
have ED : D' = D.
  have H2 : derivative (fun t => S (curve V E t)) (S V) D'.
    by rewrite -(I V); apply: deriv_ext HD' => t _; apply: I.
  by have [] := deriv_unique H2 HD.
have := P'; rewrite unit_product // => ->; rewrite ED -P.
rewrite -[RHS](@unit_product C n L d x k (fun d x => push (g x) (K d x)) hd hx hk).
apply: big_In => d' /directions_lt hd'; apply: sum_sites => x' hx'.
apply: (pull_push n0) => j hj; [exact: RU|exact: RK].
Qed.

(** ** The actions do not depend on the gauge *)

Lemma trace_conj x (A : 'M[C]_n) : on_lattice L x -> \tr (g x *m A *m dg (g x)) = \tr A.
Proof. by move=> hx; rewrite mxtrace_mulC mulmxA g_l // mul1mx. Qed.

Definition plaq (U : links C n) (d1 d2 : nat) (x : site) : 'M[C]_n := (GaugeModel.mul CM (GaugeModel.mul CM (U d1 x) (U d2 (up L d1 x)))
  (dagger CM (GaugeModel.mul CM (U d2 x) (U d1 (up L d2 x))))).

Lemma plaq_covariant (U : links C n) d1 d2 x : on_lattice L x ->
  plaq (tr U) d1 d2 x = g x *m plaq U d1 d2 x *m dg (g x).
Proof.
move=> hx; rewrite /plaq; have := @plaquette_covariant CM (complex_matrix_laws C n) L HL g Hg U d1 d2 x hx.
have E (V : links C n) : plaquette CM L V d1 d2 x = plaq V d1 d2 x.
  by rewrite /plaq /plaquette (m_dag_mul _ (complex_matrix_laws C n)) (m_assoc _ (complex_matrix_laws C n)).
by rewrite !E.
Qed.

Lemma wplaq_invariant (U : links C n) : measure_s_wplaq CM L (tr U) = measure_s_wplaq CM L U.
Proof.
rewrite /measure_s_wplaq; apply: fold_left_ext_In => s [d1 d2] _; case: Nat.ltb => //.
apply: fold_left_ext_In => s' x /sites_In hx; rewrite -!/(plaq _ _ _ _) plaq_covariant //.
by rewrite -[trace CM (g x *m _ *m _)]/(\tr (g x *m _ *m _)) trace_conj.
Qed.

Lemma impr_invariant c11 c12 (U : links C n) :
  measure_s_impr CM LM L (tr U) c11 c12 = measure_s_impr CM LM L U c11 c12.
Proof.
rewrite /measure_s_impr; apply: fold_left_ext_In => s [d1 d2] _; case: Nat.ltb => //.
cbv zeta.
transitivity (fold_left (fun s x => radd CM (radd CM s (rmul CM LM c12 (one_minus_over_n CM (real CM (trace CM
      (tr U d1 x *m plaq (tr U) d1 d2 (up L d1 x) *m dg (tr U d1 x) *m plaq (tr U) d1 d2 x)))))) (rmul CM LM c12 (one_minus_over_n CM (real CM (trace CM
      (plaq (tr U) d1 d2 x *m tr U d2 x *m plaq (tr U) d1 d2 (up L d2 x) *m dg (tr U d2 x)))))))
   (sites L) (fold_left (fun s x => radd CM s (rmul CM LM c11 (one_minus_over_n CM (real CM (trace CM (plaq (tr U) d1 d2 x))))))
   (sites L) s)); first by [].
have E1 s' : fold_left (fun s x => radd CM s (rmul CM LM c11 (one_minus_over_n CM (real CM (trace CM (plaq (tr U) d1 d2 x))))))
   (sites L) s' = fold_left (fun s x => radd CM s (rmul CM LM c11 (one_minus_over_n CM (real CM (trace CM (plaq U d1 d2 x))))))
   (sites L) s'.
  apply: fold_left_ext_In => s2 x /sites_In hx; rewrite plaq_covariant //.
  by rewrite -[trace CM (g x *m _ *m _)]/(\tr (g x *m _ *m _)) trace_conj.
rewrite E1; apply: fold_left_ext_In => s' x /sites_In hx.
have hu1 := up_on L d1 x HL hx; have hu2 := up_on L d2 x HL hx.
rewrite !plaq_covariant // !trE.
have T1 : \tr (g x *m U d1 x *m dg (g (up L d1 x)) *m (g (up L d1 x) *m plaq U d1 d2 (up L d1 x) *m dg (g (up L d1 x)))
     *m dg (g x *m U d1 x *m dg (g (up L d1 x))) *m (g x *m plaq U d1 d2 x *m dg (g x)))
   = \tr (U d1 x *m plaq U d1 d2 (up L d1 x) *m dg (U d1 x) *m plaq U d1 d2 x).
  rewrite -[RHS](trace_conj _ hx); congr (\tr _).
  have := g_l hu1; have := g_l hx; move: (g x) (g (up L d1 x)) (U d1 x) (plaq U d1 d2 x) (plaq U d1 d2 (up L d1 x)) => a b V p q a1 b1.
  rewrite !dg_mul !dgK !mulmxA -(mulmxA _ (dg b) b) b1 mulmx1.
  by rewrite -(mulmxA _ (dg b) b) b1 mulmx1 -(mulmxA _ (dg a) a) a1 mulmx1.
have T2 : \tr (g x *m plaq U d1 d2 x *m dg (g x) *m (g x *m U d2 x *m dg (g (up L d2 x)))
     *m (g (up L d2 x) *m plaq U d1 d2 (up L d2 x) *m dg (g (up L d2 x))) *m dg (g x *m U d2 x *m dg (g (up L d2 x))))
   = \tr (plaq U d1 d2 x *m U d2 x *m plaq U d1 d2 (up L d2 x) *m dg (U d2 x)).
  rewrite -[RHS](trace_conj _ hx); congr (\tr _).
  have := g_l hu2; have := g_l hx; move: (g x) (g (up L d2 x)) (U d2 x) (plaq U d1 d2 x) (plaq U d1 d2 (up L d2 x)) => a b V p q a1 b1.
  rewrite !dg_mul !dgK !mulmxA -(mulmxA _ (dg a) a) a1 mulmx1.
  by rewrite -(mulmxA _ (dg b) b) b1 mulmx1 -(mulmxA _ (dg b) b) b1 mulmx1.
apply: f_equal2; first apply: f_equal2 => //; apply: (congr1 (fun z => rmul CM LM c12 (one_minus_over_n CM (real CM z)))).
  exact: T1.
exact: T2.
Qed.

Lemma wplaq_covariant V stale K stale' K' eps : (1 < length L)%N -> eps \is Num.real ->
  @transformed C n L g (get_force_wplaq CM SU L V stale K eps) (get_force_wplaq CM SU L (tr V) stale' K' eps).
Proof.
move=> h1 re; exact: (gradient_covariant wplaq_invariant (wplaq_gradient n0 HL V stale K h1 re)
  (wplaq_gradient n0 HL (tr V) stale' K' h1 re)).
Qed.

Lemma impr_covariant V stale K stale' K' eps c11 c12 : (1 < length L)%N -> unitary_links L V -> eps \is Num.real ->
  c11 \is Num.real -> c12 \is Num.real ->
  @transformed C n L g (get_force_impr CM SU L V stale K (eps * c11) (eps * c12))
    (get_force_impr CM SU L (tr V) stale' K' (eps * c11) (eps * c12)).
Proof.
move=> h1 HV re r1 r2; exact: (gradient_covariant (impr_invariant c11 c12)
  (impr_gradient n0 HL stale K h1 HV re r1 r2) (impr_gradient n0 HL stale' K' h1 (transform_unitary HV) re r1 r2)).
Qed.
End Covariant.
