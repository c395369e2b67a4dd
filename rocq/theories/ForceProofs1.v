(** Derivatives of numbers and matrices. *)
Set Warnings "-notation-overridden,-ambiguous-paths".
From Coq Require Import ZArith List.
From mathcomp Require Import all_ssreflect all_algebra.
From Verif Require Import GaugeModel GaugeSpec GaugeMatrix MatrixSpec FieldTac ForceModel ForceSpec.
Set Implicit Arguments.
Unset Strict Implicit.
Unset Printing Implicit Defensive.
Import Order.TTheory GRing.Theory Num.Theory.
Local Open Scope ring_scope.

Section PureRing.
Variables (R : Type) (r0 r1 : R) (radd rmul rsub : R -> R -> R) (ropp : R -> R).
Variable RT : ring_theory r0 r1 radd rmul rsub ropp eq.
Add Ring RR : RT.
Notation "a + b" := (radd a b).
Notation "a * b" := (rmul a b).
Notation "a - b" := (rsub a b).

Lemma pure_sum f g a b c d t :
  f + g - (a + c) - t * (b + d) = (f - a - t * b) + (g - c - t * d).
Proof. ring. Qed.

Lemma pure_product f g a b c d t :
  f * g - a * c - t * (a * d + b * c) =
  f * (g - c - t * d) + (f - a - t * b) * (c + t * d) + (t * t) * (b * d).
Proof. ring. Qed.
End PureRing.

Section Numbers.
Variable C : numClosedFieldType.
Implicit Types (f g : C -> C) (a b c d : C).

Lemma deriv_bound f a b : derivative f a b -> exists2 B, 0 <= B &
  forall t, t \is Num.real -> `|t| <= 1 -> `|f t - a - t * b| <= B * `|t| ^+ 2.
Proof.
case=> B H; exists B => //.
by have := H 1 (rpred1 _); rewrite normr1 => /(_ (lexx _)); rewrite expr1n mulr1; apply: le_trans.
Qed.

Lemma deriv_ext f g a b : (forall t, t \is Num.real -> f t = g t) -> derivative f a b -> derivative g a b.
Proof. by move=> E [B H]; exists B => t rt ht; rewrite -E //; apply: H. Qed.

Lemma deriv_const a : derivative (fun _ => a) a 0.
Proof. by exists 0 => t _ _; rewrite mulr0 subrr subr0 normr0 mul0r. Qed.

Lemma deriv_add f g a b c d : derivative f a b -> derivative g c d ->
  derivative (fun t => f t + g t) (a + c) (b + d).
Proof.
case=> B H [D K]; exists (B + D) => t rt ht.
have -> : f t + g t - (a + c) - t * (b + d) = (f t - a - t * b) + (g t - c - t * d).
  exact: (pure_sum (mc_ring C)).
by rewrite (le_trans (ler_norm_add _ _)) // mulrDl ler_add ?H ?K.
Qed.

Lemma deriv_scale f a b s : derivative f a b -> derivative (fun t => s * f t) (s * a) (s * b).
Proof.
case=> B H; exists (`|s| * B) => t rt ht.
have -> : s * f t - s * a - t * (s * b) = s * (f t - a - t * b) by rewrite !mulrBr mulrCA.
by rewrite normrM -mulrA ler_wpmul2l ?normr_ge0 ?H.
Qed.

Lemma deriv_opp f a b : derivative f a b -> derivative (fun t => - f t) (- a) (- b).
Proof.
move=> H; have := deriv_scale (- 1) H; rewrite !mulN1r; apply: deriv_ext => t _.
by rewrite mulN1r.
Qed.

Lemma deriv_sub f g a b c d : derivative f a b -> derivative g c d ->
  derivative (fun t => f t - g t) (a - c) (b - d).
Proof. by move=> H K; apply: deriv_add H (deriv_opp K). Qed.

Lemma deriv_mul f g a b c d : derivative f a b -> derivative g c d ->
  derivative (fun t => f t * g t) (a * c) (a * d + b * c).
Proof.
move=> /deriv_bound [B B0 H] /deriv_bound [D D0 K].
exists ((`|a| + `|b| + B) * D + B * (`|c| + `|d|) + `|b| * `|d|) => t rt ht.
set r := f t - a - t * b; set s := g t - c - t * d.
have fE : f t = a + t * b + r by rewrite /r -[f t - a - _]addrA -opprD addrC subrK.
have -> : f t * g t - a * c - t * (a * d + b * c) = f t * s + r * (c + t * d) + t ^+ 2 * (b * d).
  exact: (pure_product (mc_ring C)).
have nf : `|f t| <= `|a| + `|b| + B.
  rewrite fE (le_trans (ler_norm_add _ _)) // ler_add //; last first.
    by rewrite (le_trans (H t rt ht)) // ler_pimulr // exprn_ile1.
  by rewrite (le_trans (ler_norm_add _ _)) // ler_add // normrM ler_pimull.
have nc : `|c + t * d| <= `|c| + `|d|.
  by rewrite (le_trans (ler_norm_add _ _)) // ler_add // normrM ler_pimull.
rewrite (le_trans (ler_norm_add _ _)) // mulrDl ler_add //; last first.
  by rewrite normrM normrX normrM mulrC.
rewrite (le_trans (ler_norm_add _ _)) // mulrDl !normrM ler_add //.
  by rewrite -mulrA ler_pmul ?K.
by rewrite mulrAC ler_pmul ?H.
Qed.

Lemma deriv_conj f a b : derivative f a b -> derivative (fun t => (f t)^*) a^* b^*.
Proof.
case=> B H; exists B => t rt ht.
have -> : (f t)^* - a^* - t * b^* = (f t - a - t * b)^*.
  by rewrite !rmorphB rmorphM /= (CrealP rt).
by rewrite norm_conjC H.
Qed.

Lemma deriv_re f a b : derivative f a b -> derivative (fun t => 'Re (f t)) ('Re a) ('Re b).
Proof.
move=> H; have := deriv_scale 2%:R^-1 (deriv_add H (deriv_conj H)).
rewrite -![2%:R^-1 * _]mulrC -!ReE; apply: deriv_ext => t _.
by rewrite ReE mulrC.
Qed.

Lemma deriv_sum (T : Type) (l : seq T) (P : pred T) (f : T -> C -> C) (a b : T -> C) :
  (forall x, In x l -> P x -> derivative (f x) (a x) (b x)) ->
  derivative (fun t => \sum_(x <- l | P x) f x t) (\sum_(x <- l | P x) a x) (\sum_(x <- l | P x) b x).
Proof.
elim: l => [|x l IH] H.
  rewrite !big_nil; apply: deriv_ext (deriv_const 0) => t _; by rewrite big_nil.
have := IH (fun y yl => H y (or_intror yl)); move=> {}IH.
rewrite !big_cons; case Px: (P x).
  apply: deriv_ext (deriv_add (H x (or_introl (erefl _)) Px) IH) => t _; by rewrite big_cons Px.
by apply: deriv_ext IH => t _; rewrite big_cons Px.
Qed.

Lemma deriv_fsum (T : finType) (P : pred T) (f : T -> C -> C) (a b : T -> C) :
  (forall x, P x -> derivative (f x) (a x) (b x)) ->
  derivative (fun t => \sum_(x | P x) f x t) (\sum_(x | P x) a x) (\sum_(x | P x) b x).
Proof. by move=> H; apply: deriv_sum => x _; apply: H. Qed.

(** A derivative is determined. *)
Lemma deriv_unique f a b c d : derivative f a b -> derivative f c d -> a = c /\ b = d.
Proof.
move=> H K; have := deriv_sub H K => {H K} /deriv_bound [B B0 H].
have E0 : a - c = 0.
  have := H 0 (rpred0 _); rewrite normr0 => /(_ ler01).
  by rewrite mul0r subr0 expr0n mulr0 subrr sub0r normrN normr_le0 => /eqP.
split; first by apply/eqP; rewrite -subr_eq0 E0.
apply/eqP; rewrite -subr_eq0 -normr_le0; apply/negPn/negP => N.
have p : 0 < `|b - d| by rewrite real_ltNge ?normr_real // real0.
set e := `|b - d| / (B + `|b - d|).
have q : 0 < B + `|b - d| by rewrite (lt_le_trans p) // ler_addr.
have e0 : 0 < e by rewrite divr_gt0.
have e1 : `|e| <= 1 by rewrite gtr0_norm // ler_pdivr_mulr // mul1r ler_addr.
have := H e (gtr0_real e0) e1.
rewrite subrr sub0r E0 oppr0 add0r normrN normrM (gtr0_norm e0) expr2 mulrA [e * _]mulrC ler_pmul2r //.
rewrite /e mulrA ler_pdivl_mulr // mulrDr [B * _]mulrC ger_addl; apply/negP.
by rewrite -real_ltNge ?real0 ?mulr_gt0 ?rpredM ?normr_real.
Qed.
End Numbers.

Section Matrices.
Variables (C : numClosedFieldType) (n : nat).
Notation M := 'M[C]_n.

Definition mderiv (f : C -> M) (a b : M) : Prop :=
  forall i j, derivative (fun t => f t i j) (a i j) (b i j).

Definition dg (A : M) : M := (map_mx conjC A)^T.

Lemma mderiv_const a : mderiv (fun _ => a) a 0.
Proof. by move=> i j; rewrite mxE; apply: deriv_const. Qed.

Lemma mderiv_add f g a b c d : mderiv f a b -> mderiv g c d ->
  mderiv (fun t => f t + g t) (a + c) (b + d).
Proof.
move=> H K i j; rewrite !mxE; apply: deriv_ext (deriv_add (H i j) (K i j)) => t _.
by rewrite mxE.
Qed.

Lemma mderiv_scale f a b s : mderiv f a b -> mderiv (fun t => s *: f t) (s *: a) (s *: b).
Proof.
move=> H i j; rewrite !mxE; apply: deriv_ext (deriv_scale s (H i j)) => t _.
by rewrite mxE.
Qed.

Lemma mderiv_sub f g a b c d : mderiv f a b -> mderiv g c d ->
  mderiv (fun t => f t - g t) (a - c) (b - d).
Proof.
move=> H K; have := mderiv_add H (mderiv_scale (-1) K); rewrite !scaleN1r => {K} {}H i j.
by apply: deriv_ext (H i j) => t _; rewrite scaleN1r.
Qed.

Lemma mderiv_mul f g a b c d : mderiv f a b -> mderiv g c d ->
  mderiv (fun t => f t *m g t) (a *m c) (a *m d + b *m c).
Proof.
move=> H K i j; rewrite !mxE -big_split /=.
apply: deriv_ext (deriv_fsum (P := xpredT) (fun k _ => deriv_mul (H i k) (K k j))) => t _.
by rewrite mxE.
Qed.

Lemma mderiv_dag f a b : mderiv f a b -> mderiv (fun t => dg (f t)) (dg a) (dg b).
Proof.
move=> H i j; rewrite !mxE; apply: deriv_ext (deriv_conj (H j i)) => t _.
by rewrite !mxE.
Qed.

Lemma deriv_trace f a b : mderiv f a b -> derivative (fun t => \tr (f t)) (\tr a) (\tr b).
Proof.
move=> H; rewrite /mxtrace.
by apply: (deriv_fsum (f := fun i t => f t i i) (P := xpredT)) => i _; apply: H.
Qed.

Lemma mderiv_scalar f a b : derivative f a b -> mderiv (fun t => (f t)%:M) a%:M b%:M.
Proof.
move=> H i j; rewrite !mxE; case: eqP => e.
  by apply: deriv_ext H => t _; rewrite mxE e eqxx.
rewrite !mulr0n; apply: deriv_ext (deriv_const 0) => t _; by rewrite mxE (introF eqP e) mulr0n.
Qed.
End Matrices.
