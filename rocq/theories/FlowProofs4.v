(** Forces of the gradient flow. *)
Set Warnings "-notation-overridden,-ambiguous-paths".
From Coq Require Import ZArith List.
From mathcomp Require Import all_ssreflect all_fingroup all_algebra.
From Verif Require Import LinalgSpec FieldTac AlgebraModel AlgebraSpec AlgebraProofs2 AlgebraProofs4 AlgebraProofs5 AlgebraProps
  GaugeModel GaugeSpec GaugeMatrix GaugeProofs1 GaugeProofs2 MatrixSpec ForceModel ForceSpec
  ForceProofs1 ForceProofs2 ForceProofs3 ForceProofs4 ForceProofs5 ForceProofs7 ForceProofs10 ForceProps
  GaussModel GaussSpec GaussProofs1 GaussProofs2 GaussProofs3 GaussProofs4 GaussProofs7 FlowModel FlowSpec FlowProofs1 FlowProofs2 FlowProofs3.
Set Implicit Arguments.
Unset Strict Implicit.
Unset Printing Implicit Defensive.
Import Order.TTheory GRing.Theory Num.Theory.
Local Open Scope ring_scope.

Section PureRing.
Variables (R : Type) (r0 r1 : R) (radd rmul rsub : R -> R -> R) (ropp : R -> R).
Variable RT : ring_theory r0 r1 radd rmul rsub ropp eq.
Add Ring RR : RT.
Notation "a + b" := (radd a b).
Notation "a * b" := (rmul a b).
Notation "a - b" := (rsub a b).

Lemma pure_zeuthen i p s b : (r1+(r1+(r1+(r1+(r1+(r1+(r1+(r1+(r1+(r1+(r1+r1))))))))))) * i = r1 ->
  p + i * (s - (r1 + r1) * p + b) - (r1+(r1+(r1+(r1+(r1+(r1+(r1+r1))))))) * i * p = i * ((s + p) + (b + p)).
Proof.
move=> H; have E : p = (r1+(r1+(r1+(r1+(r1+(r1+(r1+(r1+(r1+(r1+(r1+r1))))))))))) * i * p by rewrite H; ring.
rewrite {1}E; ring.
Qed.
End PureRing.

Section Zeuthen.
Variables (C : numClosedFieldType) (n : nat) (L : list Z).
Variables (ex : (nat -> C) -> 'M[C]_n) (power : C -> C) (fourpi2 : C) (reu : 'M[C]_n -> 'M[C]_n).
Hypothesis n0 : (0 < n)%N.
Hypothesis HL : sizes L.
Notation CM := (complex_matrices C n).
Notation LM := (complex_linear C n).
Notation SU := (su_algebra C n).
Notation PG := (su_gauss ex).
Notation QF := (su_flow power fourpi2 reu).
Notation Ex := (@algebra_matrix C n).
Notation toalg := (@algebra_components C n).
Notation prod := (product n L).
Notation dn := (GaugeModel.down L).

(** ** Numbers *)

Definition frc (p q : Z) : C := (int_of_Z p)%:~R / (int_of_Z q)%:~R.
Lemma frcE p q : frac CM SU QF p q = frc p q. Proof. by []. Qed.
Lemma frc_pos p q : frc (Zpos p) (Zpos q) = (Pos.to_nat p)%:R / (Pos.to_nat q)%:R.
Proof. by []. Qed.
Lemma frc_neg p q : frc (Zneg p) (Zpos q) = - ((Pos.to_nat p)%:R / (Pos.to_nat q)%:R).
Proof. by rewrite /frc /= rmorphN mulNr. Qed.
Lemma frc_real p q : frc p q \is Num.real.
Proof. by rewrite /frc realM ?realV ?realz. Qed.
Lemma frc1 : frc (Zpos xH) (Zpos xH) = 1. Proof. by rewrite frc_pos divr1. Qed.
Lemma frc2 : frc (Zpos (xO xH)) (Zpos xH) = 2%:R. Proof. by rewrite frc_pos divr1. Qed.
Lemma frcm2 : frc (Zneg (xO xH)) (Zpos xH) = - 2%:R. Proof. by rewrite frc_neg divr1. Qed.

Definition rect (a : flow_action) : C := rectangle_weight CM SU QF a.
Definition plaqw (a : flow_action) : C := plaquette_weight CM LM SU QF a.
Lemma rect_real a : rect a \is Num.real.
Proof. by rewrite /rect; case: a; apply: frc_real. Qed.
Lemma plaqw_real a : plaqw a \is Num.real.
Proof. by apply: realB; [exact: frc_real|apply: realM; [exact: frc_real|exact: rect_real]]. Qed.

Lemma five_thirds : frc (Zpos (xI (xO xH))) (Zpos (xI xH)) = plaqw Luscher_Weisz.
Proof.
rewrite /plaqw /plaquette_weight -[rmul CM LM _ _]/(_ * _) -[rsub CM SU QF _ _]/(_ - _) -[rectangle_weight _ _ _ _]/(frc (Zneg xH) (Zpos (xO (xO (xI xH))))) !frcE frc_neg !frc_pos.
have -> : Pos.to_nat (xI (xO xH)) = 5%N by [].
have -> : Pos.to_nat (xI xH) = 3%N by [].
have -> : Pos.to_nat (xO (xO (xO xH))) = 8%N by [].
have -> : Pos.to_nat (xO (xO (xI xH))) = 12%N by [].
have -> : Pos.to_nat xH = 1%N by [].
have E : (5%:R / 3%:R : C) = 1%:R / 1%:R - 8%:R / 1%:R * - (1%:R / 12%:R); last exact: E.
rewrite !divr1 mulrN opprK mul1r.
have nz k : (k.+1%:R : C) != 0 by rewrite pnatr_eq0.
rewrite -[RHS](mulfK (nz 11%N)) (mulrDl 1 (8%:R / 12%:R)) divfK ?nz // mul1r -natrD.
by apply/eqP; rewrite eqr_div ?nz // -!natrM.
Qed.

(** ** The value *)

Lemma fold_set (f : nat -> site -> nat -> C) E d x : (d < length L)%N ->
  fold_left (fun E d => set_dir CM SU E d (f d)) (directions L) E d x = f d x.
Proof.
rewrite -in_directions => h.
have H (l : list nat) E' : fold_left (fun E d => set_dir CM SU E d (f d)) l E' d x
   = if d \in l then f d x else E' d x.
  elim: l E' => [//|a l IH] E' /=; rewrite IH in_cons; case: ifP => [_|_]; first by rewrite orbT.
  by rewrite orbF /set_dir eqb_eq; case: eqP => [->|].
by rewrite H h.
Qed.

Definition zeuthen (V : links C n) (F : moments C) : moments C := fun d x k =>
  F d x k + frc (Zpos xH) (Zpos (xO (xO (xI xH)))) * (push (V d x) (F d x) k - 2%:R * F d x k + pull (V d (dn d x)) (F d (dn d x)) k).

Lemma zeuthen_value V stale K0 E eps d x k : (d < length L)%N ->
  get_zeuthen_flow_force CM LM SU PG QF L V stale K0 E eps d x k =
  zeuthen V (get_force_impr CM SU L V stale K0 (eps * plaqw Luscher_Weisz) (eps * rect Luscher_Weisz)) d x k.
Proof.
move=> hd; rewrite /get_zeuthen_flow_force; cbv zeta.
have -> : get_force_impr CM SU L V stale K0 (rmul CM LM eps (frac CM SU QF (Zpos (xI (xO xH))) (Zpos (xI xH))))
   (rmul CM LM eps (frac CM SU QF (Zneg xH) (Zpos (xO (xO (xI xH))))))
  = get_force_impr CM SU L V stale K0 (eps * plaqw Luscher_Weisz) (eps * rect Luscher_Weisz).
  by rewrite -five_thirds.
set F := get_force_impr _ _ _ _ _ _ _ _; rewrite fold_set //.
by rewrite /zeuthen -frc2.
Qed.

Lemma zeuthen_real V F : real_momenta n L F -> real_momenta n L (zeuthen V F).
Proof.
move=> R d x k hd hx hk; have rF := R d x k hd hx hk.
apply: realD => //; apply: realM; first exact: frc_real.
apply: realD; last exact: pull_real.
by apply: realB; [exact: push_real|rewrite realM ?realn].
Qed.

(** ** The product with the gradient *)

Lemma dot_split (a b c : nat -> C) s : dot n a (fun k => b k + s * c k) = dot n a b + s * dot n a c.
Proof. by rewrite /dot mulr_sumr -big_split; apply: eq_bigr => k _; rewrite mulrDr mulrCA. Qed.

Lemma dot_below (a b : nat -> C) : real_components (n * n - 1) a -> real_components (n * n - 1) b ->
  - (dot n a a + dot n b b) <= 2%:R * dot n a b.
Proof.
move=> Ra Rb; rewrite -subr_ge0 opprK.
have -> : 2%:R * dot n a b + (dot n a a + dot n b b) = \sum_(k < n * n - 1) (a k + b k) ^+ 2.
  rewrite /dot mulr_sumr -!big_split /=; apply: eq_bigr => k _.
  by rewrite sqrrD -!expr2 [RHS]addrAC [RHS]addrC mulr_natl.
by apply: sumr_ge0 => k _; rewrite real_exprn_even_ge0 // realD //; [exact: Ra|exact: Rb].
Qed.

Definition same_site (V : links C n) (F : moments C) : C :=
  \sum_(d <- directions L) \sum_(x <- sites L) dot n (F d x) (push (V d x) (F d x)).
Definition from_below (V : links C n) (F : moments C) : C :=
  \sum_(d <- directions L) \sum_(x <- sites L) dot n (F d x) (pull (V d (dn d x)) (F d (dn d x))).

Lemma zeuthen_product V F : prod F (zeuthen V F) =
  prod F F + frc (Zpos xH) (Zpos (xO (xO (xI xH)))) * (same_site V F - 2%:R * prod F F + from_below V F).
Proof.
rewrite /product /same_site /from_below mulr_sumr -sumrN -!big_split mulr_sumr -big_split; apply: eq_bigr => d _ /=.
rewrite mulr_sumr -sumrN -!big_split mulr_sumr -big_split; apply: eq_bigr => x _ /=.
rewrite -!/(dot n _ _) -[LHS]/(dot n (F d x) (fun k => F d x k + frc (Zpos xH) (Zpos (xO (xO (xI xH)))) * (fun k =>
  push (V d x) (F d x) k - 2%:R * F d x k + pull (V d (dn d x)) (F d (dn d x)) k) k)).
rewrite dot_split; congr (_ + _ * _).
rewrite /dot mulr_sumr -sumrN -!big_split; apply: eq_bigr => k _ /=.
by rewrite mulrDr mulrDr mulrN; congr (_ - _ + _); rewrite mulrCA.
Qed.

Lemma sites_down (f : site -> C) d : \sum_(x <- sites L) f (dn d x) = \sum_(x <- sites L) f x.
Proof. exact: (sum_shift [:: Down d] f HL). Qed.

Lemma same_below V F : real_momenta n L F -> unitary_links L V -> - prod F F <= same_site V F.
Proof.
move=> R HV; rewrite /product /same_site -sumrN; apply: ler_sum_In => d /directions_lt hd.
rewrite -sumrN; apply: ler_sum_In => x /sites_In hx; rewrite -/(dot n _ _).
have RF : real_components (n * n - 1) (F d x) by move=> k hk; exact: R.
have := dot_below RF (@push_real C n n0 (V d x) (F d x)).
have [_ u] := unitary_dg (HV d x hd hx); rewrite (push_norm n0 RF u) -mulr2n -mulNrn -[X in X <= _]mulr_natl.
by rewrite ler_pmul2l // ltr0n.
Qed.

Lemma below_below V F : real_momenta n L F -> unitary_links L V -> - prod F F <= from_below V F.
Proof.
move=> R HV; rewrite /product /from_below -sumrN; apply: ler_sum_In => d /directions_lt hd.
have E : 2%:R * - (\sum_(x <- sites L) dot n (F d x) (F d x))
   = \sum_(x <- sites L) - (dot n (F d x) (F d x) + dot n (F d (dn d x)) (F d (dn d x))).
  by rewrite sumrN big_split /= (sites_down (fun x => dot n (F d x) (F d x))) mulrN mulr_natl mulr2n.
rewrite -(@ler_pmul2l _ 2%:R) ?ltr0n //.
apply: (le_trans (y := \sum_(x <- sites L) - (dot n (F d x) (F d x) + dot n (F d (dn d x)) (F d (dn d x))))).
  by rewrite -E.
rewrite mulr_sumr; apply: ler_sum_In => x /sites_In hx.
have hy := down_on L d x HL hx.
have RF y : on_lattice L y -> real_components (n * n - 1) (F d y) by move=> h k hk; exact: R.
have := dot_below (RF _ hx) (@pull_real C n n0 (V d (dn d x)) (F d (dn d x))).
by have [_ u] := unitary_dg (HV d _ hd hy); rewrite (pull_norm n0 (RF _ hy) u).
Qed.

Lemma zeuthen_positive V F : real_momenta n L F -> unitary_links L V ->
  2%:R / 3%:R * prod F F <= prod F (zeuthen V F).
Proof.
move=> R HV; rewrite zeuthen_product frc_pos -subr_ge0.
have -> : (Pos.to_nat xH)%:R / (Pos.to_nat (xO (xO (xI xH))))%:R = 12%:R^-1 :> C by rewrite div1r.
have -> : prod F F + 12%:R^-1 * (same_site V F - 2%:R * prod F F + from_below V F) - 2%:R / 3%:R * prod F F
   = 12%:R^-1 * ((same_site V F + prod F F) + (from_below V F + prod F F)).
  have i12 : (12%:R : C) * 12%:R^-1 = 1 by rewrite mulfV // pnatr_eq0.
  have -> : 2%:R / 3%:R = 8%:R * 12%:R^-1 :> C.
    by apply/eqP; rewrite eqr_div ?pnatr_eq0 // -!natrM.
  exact: (pure_zeuthen (mc_ring C) _ _ _ i12).
rewrite mulr_ge0 ?invr_ge0 ?ler0n // addr_ge0 // -[X in _ + X]opprK subr_ge0; [exact: same_below|exact: below_below].
Qed.
End Zeuthen.
