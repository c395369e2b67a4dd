(** The covariant divergence as an operator on fields, and its adjoint. *)
Set Warnings "-notation-overridden,-ambiguous-paths".
From Coq Require Import ZArith List.
From mathcomp Require Import all_ssreflect all_algebra.
From Verif Require Import LinalgSpec FieldTac AlgebraModel AlgebraSpec
  GaugeModel GaugeSpec GaugeMatrix GaugeProofs1 MatrixSpec ForceModel ForceSpec
  ForceProofs1 ForceProofs2 ForceProofs3 ForceProofs4 ForceProofs5 GaussModel GaussSpec GaussProofs1.
Set Implicit Arguments.
Unset Strict Implicit.
Unset Printing Implicit Defensive.
Import Order.TTheory GRing.Theory Num.Theory.
Local Open Scope ring_scope.

Section PureRing.
Variables (R : Type) (r0 r1 : R) (radd rmul rsub : R -> R -> R) (ropp : R -> R).
Variable RT : ring_theory r0 r1 radd rmul rsub ropp eq.
Add Ring RR : RT.
Notation "a + b" := (radd a b).
Notation "a * b" := (rmul a b).
Notation "a - b" := (rsub a b).
Notation "- a" := (ropp a).
Notation two := (r1 + r1).
Notation three := (r1 + (r1 + r1)).
Notation four := (r1 + three).
Notation five := (r1 + four).
Notation six := (r1 + five).
Notation seven := (r1 + six).
Notation twelve := (r1 + (r1 + (r1 + (r1 + (r1 + seven))))).
Notation thirteen := (r1 + twelve).

Lemma pure_squares x y : two * (x * x) + two * (y * y) - (x - y) * (x - y) = (x + y) * (x + y).
Proof. ring. Qed.

Lemma pure_comb v w z s : (v + s * w) + s * (w + s * z) = v + two * s * w + s * s * z.
Proof. ring. Qed.

Lemma pure_double x y z :
  (r1 + (r1 + (r1 + (r1 + five)))) * x - four * (x + two * - two * y + - two * - two * z)
  = four * (five * y - four * z) + (five * x - four * y).
Proof. ring. Qed.

Lemma pure_bound c x y : c * x + two * - c * x + - c * - c * y = c * (c * y) - c * x.
Proof. ring. Qed.

(** (1 - t)^2 (1 - 2 t)^2 is at most 1 for t between 0 and 5/4. *)
Lemma pure_moments m1 m2 m3 m4 s :
  let f1 := m3 - s * m2 - s * m2 + s * s * m1 in
  let f2 := m4 - two * s * m3 + s * s * m2 in
  six * m1 + (six + two * (four * s)) * m3 - (four + three * (four * s)) * m2 - four * m4
  = (five * f1 - four * f2) + f1 + (r1 - s * s) * (five * m1 - four * m2) + (r1 - s * s) * m1.
Proof. cbv zeta. ring. Qed.

Lemma pure_square m0 m1 m2 m3 m4 :
  (m0 - two * m1 + m2) + two * - two * (m1 - m2 - m2 + m3) + - two * - two * (m2 - two * m3 + m4)
  = m0 - (six * m1 + (six + two * three) * m3 - (four + three * three) * m2 - four * m4).
Proof. ring. Qed.
End PureRing.

Lemma ler_sum_In (R : numDomainType) (T : Type) (l : list T) (f g : T -> R) :
  (forall x, In x l -> f x <= g x) -> \sum_(x <- l) f x <= \sum_(x <- l) g x.
Proof.
elim: l => [|x l IH] H; first by rewrite !big_nil.
rewrite !big_cons; apply: ler_add; first by apply: H; left.
by apply: IH => y h; apply: H; right.
Qed.

Section Dot.
Variables (C : numClosedFieldType) (n : nat).
Notation N := (n * n - 1)%N.
Notation dot := (@dot C n).
Implicit Types a b c : nat -> C.

Lemma dot_ext a a' b b' : (forall k, (k < N)%N -> a k = a' k) -> (forall k, (k < N)%N -> b k = b' k) ->
  dot a b = dot a' b'.
Proof. by move=> H H'; apply: eq_bigr => k _; rewrite H ?H'. Qed.

Lemma dot_linl a b c s : dot (fun k => a k + s * b k) c = dot a c + s * dot b c.
Proof.
rewrite /GaussProofs1.dot mulr_sumr -big_split; apply: eq_bigr => k _ /=; by rewrite mulrDl mulrA.
Qed.
Lemma dot_linr a b c s : dot c (fun k => a k + s * b k) = dot c a + s * dot c b.
Proof. by rewrite dotC dot_linl !(dotC _ c). Qed.

Lemma dot_sub_le a b : real_components N a -> real_components N b ->
  dot (fun k => a k - b k) (fun k => a k - b k) <= 2%:R * dot a a + 2%:R * dot b b.
Proof.
move=> Ra Rb; rewrite /GaussProofs1.dot !mulr_sumr -big_split; apply: ler_sum => k _ /=.
have ra := Ra _ (ltn_ord k); have rb := Rb _ (ltn_ord k).
rewrite -subr_ge0 (pure_squares (mc_ring C)) -expr2.
by rewrite real_exprn_even_ge0 // rpredD.
Qed.

Lemma fsum_linl (T : Type) (l : list T) (f g : T -> C) s :
  \sum_(x <- l) (f x + s * g x) = \sum_(x <- l) f x + s * \sum_(x <- l) g x.
Proof. by rewrite mulr_sumr -big_split. Qed.
End Dot.

Section Fields.
Variables (C : numClosedFieldType) (n : nat) (L : list Z).
Hypotheses (n0 : (0 < n)%N) (HL : sizes L).
Notation N := (n * n - 1)%N.
Notation dot := (@dot C n).
Notation rc := (real_components (n * n - 1)).
Variable U : links C n.
Hypothesis HU : unitary_links L U.

Lemma unit_r d x : (d < length L)%N -> on_lattice L x -> dg (U d x) *m U d x = 1%:M.
Proof. by move=> h hx; case: (HU h hx). Qed.

Notation vfield := (site -> nat -> C).
Notation down := (GaugeModel.down L).
Definition ip (v w : vfield) : C := \sum_(x <- sites L) dot (v x) (w x).
Definition ip1 (w z : moments C) : C := \sum_(d <- directions L) ip (w d) (z d).
Definition realf (v : vfield) : Prop := forall x, on_lattice L x -> rc (v x).
Definition realm (w : moments C) : Prop := forall d, (d < length L)%N -> realf (w d).

Definition DV (w : moments C) : vfield := fun x k =>
  \sum_(d <- directions L) (w d x k - pull (U d (down d x)) (w d (down d x)) k).
Definition DT (v : vfield) : moments C := fun d x k => v x k - push (U d x) (v (up L d x)) k.

Definition eqf (v w : vfield) : Prop := forall x k, on_lattice L x -> (k < N)%N -> v x k = w x k.
Definition eqm (v w : moments C) : Prop := forall d, (d < length L)%N -> eqf (v d) (w d).

Lemma ip_ext v v' w w' : eqf v v' -> eqf w w' -> ip v w = ip v' w'.
Proof. by move=> E E'; apply: sum_sites => x hx; apply: dot_ext => k hk; [apply: E|apply: E']. Qed.

Lemma ipC v w : ip v w = ip w v.
Proof. by apply: eq_bigr => x _; apply: dotC. Qed.
Lemma ip_linl v w z s : ip (fun x k => v x k + s * w x k) z = ip v z + s * ip w z.
Proof. by rewrite /ip -fsum_linl; apply: eq_bigr => x _; rewrite dot_linl. Qed.
Lemma ip_linr v w z s : ip z (fun x k => v x k + s * w x k) = ip z v + s * ip z w.
Proof. by rewrite ipC ip_linl !(ipC _ z). Qed.
Lemma ip_comb v w s : ip (fun x k => v x k + s * w x k) (fun x k => v x k + s * w x k)
  = ip v v + 2%:R * s * ip v w + s * s * ip w w.
Proof. by rewrite ip_linl !ip_linr (ipC w v) (pure_comb (mc_ring C)). Qed.

Lemma ip1_ext v v' w w' : eqm v v' -> eqm w w' -> ip1 v w = ip1 v' w'.
Proof. by move=> E E'; apply: big_In => d /directions_lt h; apply: ip_ext; [apply: E|apply: E']. Qed.
Lemma ip1C v w : ip1 v w = ip1 w v.
Proof. by apply: eq_bigr => x _; apply: ipC. Qed.
Lemma ip1_linl v w z s : ip1 (fun d x k => v d x k + s * w d x k) z = ip1 v z + s * ip1 w z.
Proof. by rewrite /ip1 -fsum_linl; apply: eq_bigr => d _; rewrite ip_linl. Qed.
Lemma ip1_linr v w z s : ip1 z (fun d x k => v d x k + s * w d x k) = ip1 z v + s * ip1 z w.
Proof. by rewrite ip1C ip1_linl !(ip1C _ z). Qed.
Lemma ip1_comb v w s : ip1 (fun d x k => v d x k + s * w d x k) (fun d x k => v d x k + s * w d x k)
  = ip1 v v + 2%:R * s * ip1 v w + s * s * ip1 w w.
Proof. by rewrite ip1_linl !ip1_linr (ip1C w v) (pure_comb (mc_ring C)). Qed.

Lemma sum_ge0_In (T : Type) (l : list T) (f : T -> C) : (forall x, In x l -> 0 <= f x) -> 0 <= \sum_(x <- l) f x.
Proof.
by move=> H; have := ler_sum_In (f := fun _ => 0) H; rewrite big1.
Qed.
Lemma ip_ge0 v : realf v -> 0 <= ip v v.
Proof. by move=> R; apply: sum_ge0_In => x /sites_In hx; apply: dot_ge0; apply: R. Qed.
Lemma ip1_ge0 w : realm w -> 0 <= ip1 w w.
Proof. by move=> R; apply: sum_ge0_In => d /directions_lt h; apply: ip_ge0; apply: R. Qed.

Lemma real_sum_In (T : Type) (l : list T) (f : T -> C) : (forall x, In x l -> f x \is Num.real) -> \sum_(x <- l) f x \is Num.real.
Proof.
elim: l => [|x l IH] H; first by rewrite big_nil real0.
rewrite big_cons rpredD //; first by apply: H; left.
by apply: IH => y h; apply: H; right.
Qed.

Lemma DV_real w : realm w -> realf (DV w).
Proof.
move=> R x hx k hk; apply: real_sum_In => d /directions_lt h.
by rewrite rpredB //; [apply: R|apply: pull_real].
Qed.
Lemma DT_real v : realf v -> realm (DT v).
Proof. by move=> R d h x hx k hk; rewrite /DT rpredB //; [apply: R|apply: push_real]. Qed.

Lemma comb_real v w s : s \is Num.real -> realf v -> realf w -> realf (fun x k => v x k + s * w x k).
Proof. by move=> rs Rv Rw x hx k hk; rewrite rpredD ?rpredM //; [apply: Rv|apply: Rw]. Qed.
Lemma combm_real v w s : s \is Num.real -> realm v -> realm w -> realm (fun d x k => v d x k + s * w d x k).
Proof. by move=> rs Rv Rw d h; apply: comb_real => //; [apply: Rv|apply: Rw]. Qed.

Lemma DV_lin v w s : s \is Num.real -> eqf (DV (fun d x k => v d x k + s * w d x k)) (fun x k => DV v x k + s * DV w x k).
Proof.
move=> rs x k hx hk; rewrite /DV -fsum_linl; apply: eq_bigr => d _.
rewrite pull_lin // mulrBr opprD !addrA; congr (_ - _).
by rewrite -!addrA; congr (_ + _); rewrite addrC.
Qed.
Lemma DT_lin v w s : s \is Num.real -> eqm (DT (fun x k => v x k + s * w x k)) (fun d x k => DT v d x k + s * DT w d x k).
Proof.
move=> rs d h x k hx hk; rewrite /DT push_lin // mulrBr opprD !addrA; congr (_ - _).
by rewrite -!addrA; congr (_ + _); rewrite addrC.
Qed.
Lemma DV_ext v w : eqm v w -> eqf (DV v) (DV w).
Proof.
move=> E x k hx hk; apply: big_In => d /directions_lt h.
rewrite (E d h x k hx hk) (pull_ext _ (fun j hj => E d h _ j (down_on L d x HL hx) hj)).
reflexivity.
Qed.
Lemma DT_ext v w : eqf v w -> eqm (DT v) (DT w).
Proof.
move=> E d h x k hx hk; rewrite /DT (E x k hx hk) (push_ext _ (fun j hj => E _ j (up_on L d x HL hx) hj)).
reflexivity.
Qed.

Lemma dot_sumr (T : Type) (l : list T) (a : nat -> C) (f : T -> nat -> C) :
  dot (fun k => \sum_(d <- l) f d k) a = \sum_(d <- l) dot (f d) a.
Proof.
rewrite /GaussProofs1.dot [RHS]exchange_big /=; apply: eq_bigr => k _; by rewrite mulr_suml.
Qed.
Lemma dot_subl a b c : dot (fun k => a k - b k) c = dot a c - dot b c.
Proof. by rewrite /GaussProofs1.dot -sumrB; apply: eq_bigr => k _; rewrite mulrBl. Qed.

Lemma adjoint_DV w v : realm w -> realf v -> ip (DV w) v = ip1 w (DT v).
Proof.
move=> Rw Rv; rewrite /ip /ip1.
have -> : \sum_(x <- sites L) dot (DV w x) (v x)
  = \sum_(d <- directions L) \sum_(x <- sites L)
      dot (fun k => w d x k - pull (U d (down d x)) (w d (down d x)) k) (v x).
  rewrite [RHS]exchange_big /=; apply: eq_bigr => x _; by rewrite /DV dot_sumr.
apply: big_In => d /directions_lt h.
transitivity (\sum_(x <- sites L) dot (w d x) (v x) - \sum_(x <- sites L) dot (w d x) (push (U d x) (v (up L d x)))).
  rewrite -[X in _ - X](sum_shift [:: Down d]) // -sumrB; apply: sum_sites => x hx.
  rewrite dot_subl /path_end /= up_down //; congr (_ - _).
  exact: (pull_push n0 _ (Rw d h _ (down_on L d x HL hx)) (Rv x hx)).
rewrite -sumrB; apply: eq_bigr => x _; by rewrite /DT [RHS]dotC dot_subl !(dotC _ (w d x)).
Qed.

Lemma DT_norm v : realf v -> ip1 (DT v) (DT v) <= 4%:R * (length L)%:R * ip v v.
Proof.
move=> R.
have H d : In d (directions L) -> ip (DT v d) (DT v d) <= 4%:R * ip v v.
  move=> /directions_lt h.
  have -> : 4%:R * ip v v = \sum_(x <- sites L) (2%:R * dot (v x) (v x) + 2%:R * dot (v (up L d x)) (v (up L d x))).
    rewrite big_split -!mulr_sumr -[X in 2%:R * X]/(ip v v).
    have -> : \sum_(x <- sites L) dot (v (up L d x)) (v (up L d x)) = ip v v.
      exact: (sum_shift (L := L) [:: Up d] (fun x => dot (v x) (v x)) HL).
    by rewrite /= -mulrDl -natrD.
  apply: ler_sum_In => x /sites_In hx.
  rewrite -(push_norm n0 (R _ (up_on L d x HL hx)) (unit_r h hx)).
  by apply: dot_sub_le; [exact: (R x hx)|exact: push_real].
have := ler_sum_In H; rewrite -[X in X <= _]/(ip1 (DT v) (DT v)) => /le_trans; apply.
rewrite directions_iota big_const_seq count_predT iter_addr_0 size_iota.
by rewrite [4%:R * (length L)%:R * _]mulrAC [_ * (length L)%:R]mulr_natr lexx.
Qed.

Section Three.
Hypothesis dim : (length L <= 3)%N.

Lemma DT_12 v : realf v -> ip1 (DT v) (DT v) <= 12%:R * ip v v.
Proof.
move=> R; apply: le_trans (DT_norm R) _; apply: ler_wpmul2r; first exact: ip_ge0.
by rewrite -natrM ler_nat (leq_mul (leqnn 4) dim).
Qed.

Lemma DV_12 w : realm w -> ip (DV w) (DV w) <= 12%:R * ip1 w w.
Proof.
move=> R; have RD := DV_real R.
have r12 : - 12%:R \is @Num.real C by rewrite rpredN realn.
have := ip1_ge0 (combm_real r12 (DT_real RD) R).
rewrite ip1_comb [ip1 (DT _) w]ip1C -(adjoint_DV R RD) => P.
have {P} := le_trans P (ler_add (ler_add (DT_12 RD) (lexx _)) (lexx _)).
have c0 : 0 < 12%:R :> C by rewrite ltr0n.
move: (ip _ _) (ip1 _ _) 12%:R c0 => X Y c c0.
by rewrite (pure_bound (mc_ring C)) subr_ge0 ler_pmul2l.
Qed.

(** The operator a D D^T for 12 a = 5/4. *)
Variable a : C.
Hypothesis a0 : 0 <= a.
Hypothesis a5 : 4%:R * (12%:R * a) = 5%:R.
Let ra : a \is Num.real := ger0_real a0.

Definition T (v : vfield) : vfield := fun x k => a * DV (DT v) x k.

Lemma T_real v : realf v -> realf (T v).
Proof. by move=> R x hx k hk; rewrite rpredM //; apply: (DV_real (DT_real R) hx). Qed.
Lemma T_ext v w : eqf v w -> eqf (T v) (T w).
Proof. move=> E x k hx hk; exact: (congr1 (fun z => a * z) (DV_ext (DT_ext E) hx hk)). Qed.
Lemma T_lin v w s : s \is Num.real -> eqf (T (fun x k => v x k + s * w x k)) (fun x k => T v x k + s * T w x k).
Proof.
move=> rs x k hx hk.
have E : DV (DT (fun x k => v x k + s * w x k)) x k = DV (DT v) x k + s * DV (DT w) x k.
  exact: (etrans (DV_ext (DT_lin v w rs) hx hk) (DV_lin _ _ rs hx hk)).
apply: (etrans (congr1 (fun z => a * z) E)).
rewrite mulrDr (mulrCA a s); reflexivity.
Qed.

Lemma ip_scale v w s : ip v (fun x k => s * w x k) = s * ip v w.
Proof.
rewrite /ip mulr_sumr; apply: eq_bigr => x _; rewrite /GaussProofs1.dot mulr_sumr; apply: eq_bigr => k _.
by rewrite mulrCA.
Qed.

Lemma T_pair v w : realf v -> realf w -> ip v (T w) = a * ip1 (DT v) (DT w).
Proof.
move=> Rv Rw; apply: (etrans (ip_scale v (DV (DT w)) a)); apply: (congr1 (fun z => a * z)).
exact: (etrans (ipC _ _) (etrans (adjoint_DV (DT_real Rw) Rv) (ip1C _ _))).
Qed.
Lemma T_sym v w : realf v -> realf w -> ip v (T w) = ip (T v) w.
Proof.
move=> Rv Rw; apply: (etrans (T_pair Rv Rw)); apply: (etrans _ (ipC _ _)).
by apply: (etrans _ (esym (T_pair Rw Rv))); apply: (congr1 (fun z => a * z)); apply: ip1C.
Qed.
Lemma T_pos v : realf v -> 0 <= ip v (T v).
Proof. by move=> R; rewrite (T_pair R R); apply: (mulr_ge0 a0); apply: (ip1_ge0 (DT_real R)). Qed.
Lemma T_bound v : realf v -> 4%:R * ip (T v) (T v) <= 5%:R * ip v (T v).
Proof.
move=> R; have -> : ip (T v) (T v) = a * (a * ip (DV (DT v)) (DV (DT v))).
  apply: (etrans (ip_scale (T v) (DV (DT v)) a)); apply: (congr1 (fun z => a * z)).
  by apply: (etrans (ipC _ _)); apply: ip_scale.
rewrite (T_pair R R) -a5; have := DV_12 (DT_real R); move: (ip _ _) (ip1 _ _) => X Y H.
rewrite -!mulrA ler_pmul2l; last by rewrite ltr0n.
rewrite [X in _ <= X]mulrCA; apply: (ler_wpmul2l a0).
by rewrite [X in _ <= X]mulrCA; apply: (ler_wpmul2l a0).
Qed.
Lemma T_upper v : realf v -> 4%:R * ip v (T v) <= 5%:R * ip v v.
Proof.
move=> R; rewrite (T_pair R R) -a5; have := DT_12 R; move: (ip1 _ _) (ip _ _) => X Y H.
rewrite -!mulrA ler_pmul2l; last by rewrite ltr0n.
by rewrite [X in _ <= X]mulrCA; apply: (ler_wpmul2l a0).
Qed.

(** One step with a, and one with 2 a. *)
Definition S1 (v : vfield) : vfield := fun x k => v x k + (- 1) * T v x k.
Definition S2 (v : vfield) : vfield := fun x k => v x k + (- 2%:R) * T v x k.
Let r1 : - 1 \is @Num.real C. Proof. by rewrite rpredN real1. Qed.
Let r2 : - 2%:R \is @Num.real C. Proof. by rewrite rpredN realn. Qed.

Lemma S1_real v : realf v -> realf (S1 v).
Proof. by move=> R; apply: comb_real => //; apply: T_real. Qed.
Lemma S2_real v : realf v -> realf (S2 v).
Proof. by move=> R; apply: comb_real => //; apply: T_real. Qed.

Lemma S1_norm v : realf v -> ip (S1 v) (S1 v) <= ip v v.
Proof.
move=> R; rewrite /S1 ip_comb; have := T_bound R; have := T_pos R.
move: (ip v v) (ip v (T v)) (ip (T v) (T v)) => X Y Z Y0 H.
rewrite mulrNN !mul1r -addrA ger_addl mulrN1 mulNr addrC subr_le0.
have p4 : 0 < 4%:R :> C by rewrite ltr0n.
rewrite -(ler_pmul2l p4); apply: (le_trans H).
by rewrite mulrA -natrM; apply: (ler_wpmul2r Y0); rewrite ler_nat.
Qed.

Lemma S2_norm v : realf v -> 4%:R * ip (S2 v) (S2 v) <= 9%:R * ip v v.
Proof.
move=> R; rewrite /S2 ip_comb; have := T_bound R; have := T_upper R.
move: (ip v v) (ip v (T v)) (ip (T v) (T v)) => X Y Z H B.
rewrite -subr_ge0.
have -> : 9%:R * X - 4%:R * (X + 2%:R * - 2%:R * Y + - 2%:R * - 2%:R * Z)
  = 4%:R * (5%:R * Y - 4%:R * Z) + (5%:R * X - 4%:R * Y) by exact: (pure_double (mc_ring C)).
by rewrite addr_ge0 ?mulr_ge0 ?subr_ge0 ?ler0n.
Qed.

Lemma moments_of v u1 u2 s : ip v u2 = ip u1 u1 ->
  let p : vfield := fun x k => v x k + (- 1) * u1 x k in
  let q : vfield := fun x k => u1 x k + (- 1) * u2 x k in
  let w : vfield := fun x k => u1 x k + (- s) * v x k in
  let t : vfield := fun x k => u2 x k + (- s) * u1 x k in
  let m0 := ip v v in let m1 := ip v u1 in let m2 := ip u1 u1 in let m3 := ip u1 u2 in let m4 := ip u2 u2 in
  [/\ ip p p = m0 - 2%:R * m1 + m2, ip p q = m1 - m2 - m2 + m3, ip q q = m2 - 2%:R * m3 + m4,
      ip w t = m3 - s * m2 - s * m2 + s * s * m1 & ip t t = m4 - 2%:R * s * m3 + s * s * m2].
Proof.
move=> H; cbv zeta; split.
- by rewrite ip_comb mulrNN !mul1r mulrN1 mulNr.
- by rewrite ip_linl !ip_linr H mulrDr mulrA mulrNN !mulN1r !mul1r !addrA.
- by rewrite ip_comb mulrNN !mul1r mulrN1 mulNr.
- by rewrite ip_linl !ip_linr H mulrDr mulrA mulrNN !mulNr !addrA.
by rewrite ip_comb (ipC u2 u1) mulrNN mulrN mulNr.
Qed.

Lemma moments_le m0 m1 m2 m3 m4 s : 4%:R * s = 3%:R -> 0 <= 1 - s * s ->
  0 <= m3 - s * m2 - s * m2 + s * s * m1 ->
  4%:R * (m4 - 2%:R * s * m3 + s * s * m2) <= 5%:R * (m3 - s * m2 - s * m2 + s * s * m1) ->
  0 <= m1 -> 4%:R * m2 <= 5%:R * m1 ->
  m0 - 2%:R * m1 + m2 + 2%:R * - 2%:R * (m1 - m2 - m2 + m3) + - 2%:R * - 2%:R * (m2 - 2%:R * m3 + m4) <= m0 :> C.
Proof.
move=> s4 s1 P1 P2 P3 P4.
have -> : m0 - 2%:R * m1 + m2 + 2%:R * - 2%:R * (m1 - m2 - m2 + m3) + - 2%:R * - 2%:R * (m2 - 2%:R * m3 + m4)
  = m0 - (6%:R * m1 + (6%:R + 2%:R * 3%:R) * m3 - (4%:R + 3%:R * 3%:R) * m2 - 4%:R * m4)
  by exact: (pure_square (mc_ring C)).
rewrite ler_subl_addr ler_addl.
have E : 6%:R * m1 + (6%:R + 2%:R * (4%:R * s)) * m3 - (4%:R + 3%:R * (4%:R * s)) * m2 - 4%:R * m4
  = (5%:R * (m3 - s * m2 - s * m2 + s * s * m1) - 4%:R * (m4 - 2%:R * s * m3 + s * s * m2))
    + (m3 - s * m2 - s * m2 + s * s * m1) + (1 - s * s) * (5%:R * m1 - 4%:R * m2) + (1 - s * s) * m1
  by exact: (pure_moments (mc_ring C)).
rewrite s4 in E; rewrite E.
apply: addr_ge0; last exact: mulr_ge0.
apply: addr_ge0; last by apply: mulr_ge0 => //; rewrite subr_ge0.
by apply: addr_ge0 => //; rewrite subr_ge0.
Qed.

Lemma three_quarters : exists s : C, [/\ 4%:R * s = 3%:R, 0 <= 1 - s * s & - s \is Num.real].
Proof.
have n4 : 4%:R != 0 :> C by rewrite pnatr_eq0.
have ss : 3%:R / 4%:R <= 1 :> C by rewrite ler_pdivr_mulr ?ltr0n // mul1r ler_nat.
have s0 : 0 <= 3%:R / 4%:R :> C by rewrite divr_ge0 ?ler0n.
exists (3%:R / 4%:R); split.
- by rewrite mulrC; apply: divfK.
- by rewrite subr_ge0; apply: (le_trans (ler_pmul s0 s0 ss ss)); rewrite mulr1.
by rewrite rpredN ger0_real.
Qed.

Lemma S12_norm v : realf v -> ip (S2 (S1 v)) (S2 (S1 v)) <= ip v v.
Proof.
move=> R; pose u1 := T v; pose u2 := T u1.
have Ru1 : realf u1 := T_real R.
have vu2 : ip v u2 = ip u1 u1 := T_sym R Ru1.
have TS : eqf (T (S1 v)) (fun x k => u1 x k + (- 1) * u2 x k) := T_lin v u1 r1.
have [s [s4 s1 rs]] := three_quarters.
pose w : vfield := fun x k => u1 x k + (- s) * v x k.
have Rw : realf w := comb_real rs Ru1 R.
have TW : eqf (T w) (fun x k => u2 x k + (- s) * u1 x k) := T_lin u1 v rs.
have [M0 M1 M2 M3 M4] := moments_of s vu2.
have E1 := etrans (ip_ext (fun x k _ _ => erefl (S1 v x k)) TS) M1.
have E2 := etrans (ip_ext TS TS) M2.
have F1 := etrans (ip_ext (fun x k _ _ => erefl (w x k)) TW) M3.
have F2 := etrans (ip_ext TW TW) M4.
have P1 : 0 <= _ := eq_ind _ (fun z => 0 <= z) (T_pos Rw) _ F1.
have P2 := eq_ind _ (fun z => 4%:R * ip (T w) (T w) <= 5%:R * z) (T_bound Rw) _ F1.
have P3 := eq_ind _ (fun z => 4%:R * z <= 5%:R * _) P2 _ F2.
have E : ip (S2 (S1 v)) (S2 (S1 v)) = _ := ip_comb (S1 v) (T (S1 v)) (- 2%:R).
apply: (eq_ind_r (fun z => z <= ip v v) _ E).
apply: (eq_ind_r (fun z => z + _ + _ <= ip v v) _ M0).
apply: (eq_ind_r (fun z => _ + _ * z + _ <= ip v v) _ E1).
apply: (eq_ind_r (fun z => _ + _ * z <= ip v v) _ E2).
exact: (moments_le _ s4 s1 P1 P3 (T_pos R) (T_bound R)).
Qed.
End Three.
End Fields.
