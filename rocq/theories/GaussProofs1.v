(** Components and matrices of the Lie algebra; conjugation with a link. *)
Set Warnings "-notation-overridden,-ambiguous-paths".
From Coq Require Import ZArith List.
From mathcomp Require Import all_ssreflect all_algebra.
From Verif Require Import LinalgSpec AlgebraModel AlgebraSpec AlgebraProofs2 AlgebraProofs3 AlgebraProofs4 AlgebraProofs5 AlgebraProps
  GaugeModel GaugeSpec GaugeMatrix GaugeProofs1 MatrixSpec ForceModel ForceSpec
  ForceProofs1 ForceProofs2 ForceProofs4 ForceProofs5 GaussModel GaussSpec.
Set Implicit Arguments.
Unset Strict Implicit.
Unset Printing Implicit Defensive.
Import Order.TTheory GRing.Theory Num.Theory.
Local Open Scope ring_scope.

Section Components.
Variables (C : numClosedFieldType) (n : nat).
Hypothesis n0 : (0 < n)%N.
Notation N := (n * n - 1)%N.
Notation Ex := (@algebra_matrix C n).
Notation toalg := (@algebra_components C n).
Notation rc := (real_components (n * n - 1)).
Implicit Types (A B U : 'M[C]_n) (a b : nat -> C).

Definition dot a b : C := \sum_(k < n * n - 1) a k * b k.

Lemma dotC a b : dot a b = dot b a.
Proof. by apply: eq_bigr => k _; rewrite mulrC. Qed.

Lemma toalg_real A : rc (toalg A).
Proof. by apply: (project_real (C73_hypotheses C)). Qed.

Lemma toalg_tr A k : (k < N)%N -> toalg A k =
  2%:R * 'Re (\tr (adjoint conjC (mxr n n (AlgebraModel.to_matrix (field_scalars (fun x : C => x) 0)
    (glist (fun x : C => sqrtC x) 'i n k))) *m A)).
Proof. by move=> h; rewrite /algebra_components (project_tr (C73_hypotheses C)) // elementsE. Qed.

Lemma toalg_lin A B s k : s \is Num.real -> (k < N)%N -> toalg (A + s *: B) k = toalg A k + s * toalg B k.
Proof.
move=> rs h; rewrite !toalg_tr // mulmxDr -scalemxAr re_trD re_trZ // mulrDr; congr (_ + _).
by rewrite mulrCA.
Qed.

Lemma toalg_Ex a k : rc a -> (k < N)%N -> toalg (Ex a) k = a k.
Proof.
move=> R h; rewrite -[RHS](project_expand (fun x : C => x) 0 (C73_hypotheses C) n0 R h).
by apply: (project_ext (C73_hypotheses C)) => //; rewrite elementsE.
Qed.

Lemma Ex_toalg A : Ex (toalg A) = AlgebraSpec.algebra_part conjC A.
Proof. by rewrite /algebra_matrix (expand_project (C73_hypotheses C)) // elementsE. Qed.

Lemma Ex_ext a b : (forall k, (k < N)%N -> a k = b k) -> Ex a = Ex b.
Proof. by apply: (expand_ext (C73_hypotheses C)). Qed.

Lemma Ex_lin a b s : s \is Num.real -> Ex (fun k => a k + s * b k) = Ex a + s *: Ex b.
Proof. by apply: (expand_lin (fun x : C => x) 0 (C73_hypotheses C)). Qed.

Lemma Ex_anti a : rc a -> dg (Ex a) = - Ex a /\ \tr (Ex a) = 0.
Proof.
move=> R; have [A T] := expand_anti (fun x : C => x) 0 (C73_hypotheses C) n0 R.
split=> //; rewrite -[RHS]A; by apply/matrixP => i j; rewrite !mxE.
Qed.

Lemma dot_toalg a A : rc a -> dot a (toalg A) = - (2%:R * 'Re (\tr (Ex a *m A))).
Proof.
move=> R; have := pairing n0 1 A R; rewrite mulr1 => <-; apply: eq_bigr => k _; congr (_ * _).
by rewrite /components (project_scaledE (C73_hypotheses C)) // mul1r.
Qed.

Lemma dot_Ex a b : rc a -> rc b -> dot a b = - (2%:R * 'Re (\tr (Ex a *m Ex b))).
Proof.
move=> Ra Rb; rewrite -dot_toalg //; apply: eq_bigr => k _; by rewrite toalg_Ex.
Qed.

Lemma toalg_ext A B k : A = B -> toalg A k = toalg B k. Proof. by move=> ->. Qed.

(** Conjugation: U^+ a U and U a U^+. *)
Definition pull U a : nat -> C := toalg (dg U *m Ex a *m U).
Definition push U a : nat -> C := toalg (U *m Ex a *m dg U).

Lemma pull_lin U a b s k : s \is Num.real -> (k < N)%N ->
  pull U (fun k => a k + s * b k) k = pull U a k + s * pull U b k.
Proof. by move=> rs h; rewrite /pull Ex_lin // mulmxDr mulmxDl -scalemxAr -scalemxAl toalg_lin. Qed.
Lemma push_lin U a b s k : s \is Num.real -> (k < N)%N ->
  push U (fun k => a k + s * b k) k = push U a k + s * push U b k.
Proof. by move=> rs h; rewrite /push Ex_lin // mulmxDr mulmxDl -scalemxAr -scalemxAl toalg_lin. Qed.

Lemma pull_ext U a b : (forall k, (k < N)%N -> a k = b k) -> pull U a = pull U b.
Proof. by move=> E; rewrite /pull (Ex_ext E). Qed.
Lemma push_ext U a b : (forall k, (k < N)%N -> a k = b k) -> push U a = push U b.
Proof. by move=> E; rewrite /push (Ex_ext E). Qed.

Lemma pull_real U a : rc (pull U a). Proof. exact: toalg_real. Qed.
Lemma push_real U a : rc (push U a). Proof. exact: toalg_real. Qed.

Lemma pull_push U a b : rc a -> rc b -> dot (pull U a) b = dot a (push U b).
Proof.
move=> Ra Rb; rewrite dotC !dot_toalg //; congr (- (_ * 'Re _)).
by rewrite -!mulmxA [LHS]mxtrace_mulC -!mulmxA [LHS]mxtrace_mulC -!mulmxA.
Qed.

Lemma Ex_conj A a : rc a -> dg A *m A = 1%:M -> Ex (toalg (dg A *m Ex a *m A)) = dg A *m Ex a *m A.
Proof.
move=> R H; rewrite Ex_toalg; have [D T] := Ex_anti R.
apply: part_id.
  rewrite /antihermitean; have -> : adjoint conjC (dg A *m Ex a *m A) = dg (dg A *m Ex a *m A).
    by apply/matrixP => i j; rewrite !mxE.
  by rewrite !dg_mul dgK D mulNmx mulmxN mulmxA.
rewrite mxtrace_mulC mulmxA.
by rewrite (mulmx1C H) mul1mx.
Qed.

Lemma Ex_pull U a : rc a -> dg U *m U = 1%:M -> Ex (pull U a) = dg U *m Ex a *m U.
Proof. exact: Ex_conj. Qed.
Lemma Ex_push U a : rc a -> dg U *m U = 1%:M -> Ex (push U a) = U *m Ex a *m dg U.
Proof.
move=> R H; have := @Ex_conj (dg U) a R; rewrite dgK; apply; exact: mulmx1C H.
Qed.

Lemma pull_norm U a : rc a -> dg U *m U = 1%:M -> dot (pull U a) (pull U a) = dot a a.
Proof.
move=> R H; rewrite !dot_Ex //; try exact: pull_real.
rewrite Ex_pull //; congr (- (_ * 'Re _)).
rewrite -!mulmxA [LHS]mxtrace_mulC !mulmxA.
by do 2! rewrite -[_ *m U *m dg U]mulmxA (mulmx1C H) mulmx1.
Qed.
Lemma push_norm U a : rc a -> dg U *m U = 1%:M -> dot (push U a) (push U a) = dot a a.
Proof.
move=> R H; rewrite !dot_Ex //; try exact: push_real.
rewrite Ex_push //; congr (- (_ * 'Re _)).
rewrite -!mulmxA [LHS]mxtrace_mulC !mulmxA.
by do 2! rewrite -[_ *m dg U *m U]mulmxA H mulmx1.
Qed.

Lemma dot_ge0 a : rc a -> 0 <= dot a a.
Proof. by move=> R; apply: sumr_ge0 => k _; rewrite -expr2 real_exprn_even_ge0 //; apply: R. Qed.

Lemma dot_real a b : rc a -> rc b -> dot a b \is Num.real.
Proof. by move=> Ra Rb; apply: rpred_sum => k _; rewrite rpredM //; [apply: Ra|apply: Rb]. Qed.

(** The norm as a norm of the matrix. *)
Lemma dot_norm a : rc a -> dot a a = 2%:R * \sum_i \sum_j `|Ex a i j| ^+ 2.
Proof.
move=> R; rewrite norm2_tr dot_Ex //; have [D _] := Ex_anti R.
rewrite D mulNmx linearN /= -mulrN; congr (_ * _).
have H : \tr (Ex a *m Ex a) \is Num.real.
  rewrite CrealE -tr_dg dg_mul D mulNmx mulmxN opprK; exact: eqxx.
by move: H => /Creal_ReP ->.
Qed.
End Components.
