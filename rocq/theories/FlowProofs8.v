(** The measured energy and topological charge. *)
Set Warnings "-notation-overridden,-ambiguous-paths".
From Coq Require Import ZArith List.
From mathcomp Require Import all_ssreflect all_fingroup all_algebra.
From Verif Require Import LinalgSpec FieldTac AlgebraModel AlgebraSpec AlgebraProofs2 AlgebraProofs4 AlgebraProofs5 AlgebraProps
  GaugeModel GaugeSpec GaugeMatrix GaugeProofs1 GaugeProofs2 MatrixSpec ForceModel ForceSpec
  ForceProofs1 ForceProofs2 ForceProofs3 ForceProofs4 ForceProofs5 ForceProofs7 ForceProofs8 ForceProofs9 ForceProofs10 ForceProps
  GaussModel GaussSpec GaussProofs1 GaussProofs2 GaussProofs3 GaussProofs4 GaussProofs6 GaussProofs7
  FlowModel FlowSpec FlowProofs1 FlowProofs2 FlowProofs7.
Set Implicit Arguments.
Unset Strict Implicit.
Unset Printing Implicit Defensive.
Import Order.TTheory GRing.Theory Num.Theory.
Local Open Scope ring_scope.

Section Charge.
Variables (C : numClosedFieldType) (n : nat) (L : list Z).
Hypotheses (n0 : (0 < n)%N) (HL : sizes L).
Notation CM := (complex_matrices C n).
Notation LM := (complex_linear C n).
Notation SU := (su_algebra C n).
Notation dn := (GaugeModel.down L).
Notation part := (@ForceSpec.algebra_part C n).
Variables (power : C -> C) (fourpi2 : C) (reu : 'M[C]_n -> 'M[C]_n).
Notation QF := (su_flow power fourpi2 reu).

(** ** Antisymmetry *)

Lemma leaf_end (d1 d2 k : nat) x : on_lattice L x -> path_end L (leaf_path d1 d2 k) x = x.
Proof.
move=> hx; case: k => [|[|[|k]]]; [exact: end0|exact: end1| |].
- rewrite /path_end /= (up_comm L d2 d1) !up_down //; exact: down_on.
rewrite /path_end /= (up_comm L d2 d1) up_down // down_up //.
Qed.

Lemma leaf_reverse (U : links C n) p q x : on_lattice L x -> path_end L p x = x -> reverse p = q ->
  path_line (M := CM) L U q x = dg (path_line (M := CM) L U p x).
Proof.
move=> hx e <-; have := line_reverse (complex_matrix_laws C n) HL U p hx; rewrite e; exact.
Qed.

Lemma clover_swap (U : links C n) d1 d2 x : on_lattice L x ->
  clover_sum L U d2 d1 x = dg (clover_sum L U d1 d2 x).
Proof.
move=> hx; rewrite /clover_sum dg_scale.
have r : (4%:R^-1 : C) \is Num.real by rewrite realV realn.
rewrite (CrealP r) !dg_add; congr (_ *: _).
have e0 := leaf_reverse U (q := leaf_path d2 d1 0) hx (leaf_end d1 d2 0 hx) erefl.
have e1 := leaf_reverse U (q := leaf_path d2 d1 1) hx (leaf_end d1 d2 3 hx) erefl.
have e2 := leaf_reverse U (q := leaf_path d2 d1 2) hx (leaf_end d1 d2 2 hx) erefl.
have e3 := leaf_reverse U (q := leaf_path d2 d1 3) hx (leaf_end d1 d2 1 hx) erefl.
pose a k : 'M[C]_n := path_line (M := CM) L U (leaf_path d1 d2 k) x.
pose b k : 'M[C]_n := path_line (M := CM) L U (leaf_path d2 d1 k) x.
rewrite -[LHS]/(b 0%N + b 1%N + b 2%N + b 3%N) -[RHS]/(dg (a 0%N) + dg (a 1%N) + dg (a 2%N) + dg (a 3%N)).
rewrite -[b 0%N]/(path_line (M := CM) L U (leaf_path d2 d1 0) x : 'M[C]_n) e0.
rewrite -[b 1%N]/(path_line (M := CM) L U (leaf_path d2 d1 1) x : 'M[C]_n) e1.
rewrite -[b 2%N]/(path_line (M := CM) L U (leaf_path d2 d1 2) x : 'M[C]_n) e2.
rewrite -[b 3%N]/(path_line (M := CM) L U (leaf_path d2 d1 3) x : 'M[C]_n) e3.
rewrite -/(a 0%N) -/(a 1%N) -/(a 2%N) -/(a 3%N); move: (dg (a 0%N)) (dg (a 1%N)) (dg (a 2%N)) (dg (a 3%N)) => A B D E.
by rewrite -!addrA; congr (_ + _); rewrite [RHS]addrC -!addrA [RHS]addrC -!addrA; congr (_ + _); rewrite addrC.
Qed.

Lemma strength_swap (U : links C n) d1 d2 x : on_lattice L x -> strength L U d2 d1 x = - strength L U d1 d2 x.
Proof. by move=> hx; rewrite /strength (clover_swap U d1 d2 hx) part_dg. Qed.

(** ** The sums *)

Lemma fold_two (T : Type) (l : list T) (h : C * C -> T -> C * C) (f g : T -> C) s :
  (forall x s, In x l -> h s x = (s.1 + f x, s.2 + g x)) ->
  fold_left h l s = (s.1 + \sum_(x <- l) f x, s.2 + \sum_(x <- l) g x).
Proof.
elim: l s => [|x l IH] [a b] H; first by rewrite !big_nil !addr0.
cbn [fold_left]; rewrite IH => [|y s' h']; last by apply: H; right.
by rewrite H ?big_cons ?addrA //; left.
Qed.

Lemma energy_clover (V : links C n) : n%:R != 0 :> C -> clover_energy L V = 2%:R * n%:R * clover_action L V.
Proof.
move=> nn; have t0 : 2%:R != 0 :> C by rewrite pnatr_eq0.
pose S := \sum_(p <- pairs L) \sum_(x <- sites L) \sum_i \sum_j `|strength L V p.1 p.2 x i j| ^+ 2.
have -> : clover_energy L V = S by rewrite /clover_energy exchange_big.
have -> : clover_action L V = 2%:R^-1 * S / n%:R.
  rewrite /clover_action; congr (_ / _); rewrite /S mulr_sumr; apply: eq_bigr => p _.
  by rewrite mulr_sumr.
move: S => S; rewrite -[RHS]mulrA [n%:R * _]mulrC (divfK nn) mulrA (mulfV t0) mul1r; reflexivity.
Qed.

Lemma four_directions : length L = 4%N -> directions L = [:: 0; 1; 2; 3]%N.
Proof. by rewrite /directions => ->. Qed.
Lemma four_pairs : length L = 4%N -> pairs L = [:: (0, 1); (0, 2); (0, 3); (1, 2); (1, 3); (2, 3)]%N.
Proof. by move=> H; rewrite /pairs (four_directions H). Qed.

Definition component (k : nat) : nat * nat := nth (0, 0)%N [:: (0, 1); (0, 2); (0, 3); (1, 2); (1, 3); (2, 3)]%N k.

Lemma components_are (V : links C n) F0 k : length L = 4%N -> (k < 6)%N ->
  fst (field_strengths CM LM L V F0) k = field_strength CM LM L V (component k).1 (component k).2.
Proof.
move=> H; rewrite /field_strengths (four_directions H); move: (field_strength CM LM L V) => f.
by case: k => [|[|[|[|[|[|k]]]]]].
Qed.

Lemma measured_clover (V : links C n) F0 : length L = 4%N -> unitary_links L V ->
  measure_topo_charge_and_energy_clover CM LM SU QF L V F0 = (topological_charge fourpi2 L V, clover_energy L V).
Proof.
move=> H HV; pose F := strength L V; pose t x i j k l : C := 'Re (\tr (F i j x *m F k l x)).
pose e i j x : C := \sum_a \sum_b `|F i j x a b| ^+ 2.
have S x k : on_lattice L x -> (k < 6)%N ->
    fst (field_strengths CM LM L V F0) k x = F (component k).1 (component k).2 x.
  move=> hx hk; rewrite (components_are V F0 H hk); apply: (strengthE n0 HL HV) => //; rewrite H;
  by move: hk; case: k => [|[|[|[|[|[|k]]]]]].
rewrite /measure_topo_charge_and_energy_clover H [(4 =? 4)%nat]/=.
move: (fst (field_strengths CM LM L V F0)) S => G S.
rewrite (fold_two (f := fun x => t x 0%N 1%N 2%N 3%N - t x 0%N 2%N 1%N 3%N + t x 0%N 3%N 1%N 2%N)
   (g := fun x => e 0%N 1%N x + e 0%N 2%N x + e 0%N 3%N x + e 1%N 2%N x + e 1%N 3%N x + e 2%N 3%N x)); last first.
  move=> x [a b] /sites_In hx.
  rewrite (S x 0%N hx erefl) (S x 1%N hx erefl) (S x 2%N hx erefl) (S x 3%N hx erefl) (S x 4%N hx erefl) (S x 5%N hx erefl).
  rewrite -[LHS]/(a + t x 0%N 1%N 2%N 3%N + - t x 0%N 2%N 1%N 3%N + t x 0%N 3%N 1%N 2%N,
     b + e 0%N 1%N x + e 0%N 2%N x + e 0%N 3%N x + e 1%N 2%N x + e 1%N 3%N x + e 2%N 3%N x).
  by rewrite /fst /snd !addrA.
rewrite /fst /snd !add0r; apply: f_equal2.
  rewrite -[LHS]/((\sum_(x <- sites L) (t x 0%N 1%N 2%N 3%N - t x 0%N 2%N 1%N 3%N + t x 0%N 3%N 1%N 2%N)) / fourpi2).
  rewrite /topological_charge.
  have -> : \sum_(x <- sites L) \sum_(q <- quadruples)
     (epsilon q)%:~R * 'Re (\tr (strength L V q.1.1.1 q.1.1.2 x *m strength L V q.1.2 q.2 x))
    = \sum_(x <- sites L) 8%:R * (t x 0%N 1%N 2%N 3%N - t x 0%N 2%N 1%N 3%N + t x 0%N 3%N 1%N 2%N).
    apply: big_In => x /sites_In hx.
    have t1 i j k l : t x j i k l = - t x i j k l by rewrite /t /F (strength_swap V i j hx) mulNmx re_trN.
    have t2 i j k l : t x i j l k = - t x i j k l by rewrite /t /F (strength_swap V k l hx) mulmxN re_trN.
    have t3 i j k l : t x k l i j = t x i j k l := congr1 (fun z : C => 'Re z) (mxtrace_mulC (F k l x) (F i j x)).
    exact: (eps_sum t1 t2 t3).
  rewrite -mulr_sumr invfM mulrACA mulfV ?mul1r //; by rewrite pnatr_eq0.
rewrite /clover_energy (four_pairs H); apply: eq_bigr => x _.
have -> : \sum_(p <- [:: (0, 1); (0, 2); (0, 3); (1, 2); (1, 3); (2, 3)]%N) \sum_i \sum_j `|strength L V p.1 p.2 x i j| ^+ 2
  = \sum_(p <- [:: (0, 1); (0, 2); (0, 3); (1, 2); (1, 3); (2, 3)]%N) e p.1 p.2 x by exact: eq_bigr.
move: e => f; rewrite !big_cons big_nil addr0 !addrA; reflexivity.
Qed.

Lemma not_four (V : links C n) F0 : length L <> 4%N ->
  measure_topo_charge_and_energy_clover CM LM SU QF L V F0 = (0, 0).
Proof.
move=> H; rewrite /measure_topo_charge_and_energy_clover.
have -> : (length L =? 4)%nat = false by apply/Nat.eqb_neq.
by rewrite -[LHS]/(0 / fourpi2, 0) mul0r.
Qed.

(** ** Gauge transformations *)

Section Transform.
Variable g : site -> 'M[C]_n.
Hypothesis Hg : forall x, on_lattice L x -> GaugeSpec.unitary CM (g x).
Notation tr := (transform CM L g).

Lemma line_tr (U : links C n) p x : on_lattice L x ->
  path_line (M := CM) L (tr U) p x = g x *m (path_line (M := CM) L U p x : 'M[C]_n) *m dg (g (path_end L p x)).
Proof.
elim: p x => [|s p IH] x hx; first by rewrite /= mulmx1 (g_r Hg hx).
have hy := arrive_on HL s hx.
rewrite path_end_cons -[LHS]/((link_of (M := CM) L (tr U) s x : 'M[C]_n) *m (path_line (M := CM) L (tr U) p (arrive L x s) : 'M[C]_n)).
rewrite (IH _ hy) -[path_line (M := CM) L U (s :: p) x]/((link_of (M := CM) L U s x : 'M[C]_n) *m (path_line (M := CM) L U p (arrive L x s) : 'M[C]_n)).
have -> : link_of (M := CM) L (tr U) s x = g x *m (link_of (M := CM) L U s x : 'M[C]_n) *m dg (g (arrive L x s)).
  case: s hy => d hy; first by rewrite /link_of trE.
  rewrite -[LHS]/(dg (tr U d (dn d x))) trE !dg_mul dgK up_down // mulmxA; reflexivity.
by rewrite !mulmxA -(mulmxA _ (dg (g (arrive L x s)))) (g_l Hg hy) mulmx1.
Qed.

Lemma clover_tr (U : links C n) d1 d2 x : on_lattice L x ->
  clover_sum L (tr U) d1 d2 x = g x *m clover_sum L U d1 d2 x *m dg (g x).
Proof.
move=> hx; pose a k : 'M[C]_n := path_line (M := CM) L U (leaf_path d1 d2 k) x.
pose b k : 'M[C]_n := path_line (M := CM) L (tr U) (leaf_path d1 d2 k) x.
have E k : b k = g x *m a k *m dg (g x) by rewrite /b (line_tr U _ hx) (leaf_end d1 d2 k hx).
rewrite -[LHS]/(4%:R^-1 *: (b 0%N + b 1%N + b 2%N + b 3%N)) -[clover_sum _ _ _ _ _]/(4%:R^-1 *: (a 0%N + a 1%N + a 2%N + a 3%N)).
by rewrite !E -scalemxAr -scalemxAl !mulmxDr !mulmxDl.
Qed.

Lemma strength_tr (U : links C n) d1 d2 x : on_lattice L x ->
  strength L (tr U) d1 d2 x = g x *m strength L U d1 d2 x *m dg (g x).
Proof.
move=> hx; rewrite /strength (clover_tr U d1 d2 hx).
have u : dg (dg (g x)) *m dg (g x) = 1%:M by rewrite dgK (g_r Hg hx).
have e := part_conj (clover_sum L U d1 d2 x) u; rewrite dgK in e; exact: esym e.
Qed.

Lemma norm_tr (A : 'M[C]_n) x : on_lattice L x ->
  \sum_i \sum_j `|(g x *m A *m dg (g x)) i j| ^+ 2 = \sum_i \sum_j `|A i j| ^+ 2.
Proof.
have N (B : 'M[C]_n) : \sum_i \sum_j `|B i j| ^+ 2 = \tr (B *m dg B).
  by rewrite /mxtrace; apply: eq_bigr => i _; rewrite mxE; apply: eq_bigr => j _; rewrite !mxE normCK.
move=> hx; rewrite !N !dg_mul dgK !mulmxA -(mulmxA _ (dg (g x)) (g x)) (g_l Hg hx) mulmx1.
by rewrite mxtrace_mulC !mulmxA (g_l Hg hx) mul1mx.
Qed.

Lemma charge_invariant (U : links C n) : topological_charge fourpi2 L (tr U) = topological_charge fourpi2 L U.
Proof.
apply: (f_equal (fun z : C => z / (8%:R * fourpi2))); apply: big_In => x /sites_In hx.
apply: eq_bigr => q _; apply: (f_equal (fun z : C => (epsilon q)%:~R * 'Re z)).
rewrite (strength_tr U q.1.1.1 q.1.1.2 hx) (strength_tr U q.1.2 q.2 hx).
move: (strength L U q.1.1.1 q.1.1.2 x) (strength L U q.1.2 q.2 x) => A B.
rewrite !mulmxA -(mulmxA _ (dg (g x)) (g x)) (g_l Hg hx) mulmx1 -(mulmxA (g x)).
exact: (trace_conj Hg _ hx).
Qed.

Lemma energy_invariant (U : links C n) : clover_energy L (tr U) = clover_energy L U.
Proof.
rewrite /clover_energy; apply: big_In => x /sites_In hx; apply: eq_bigr => p _.
by rewrite (strength_tr U p.1 p.2 hx) norm_tr.
Qed.
End Transform.
End Charge.
