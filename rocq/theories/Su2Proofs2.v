(** SU2 matrices as 2 by 2 matrices. *)
Set Warnings "-notation-overridden,-ambiguous-paths".
From mathcomp Require Import all_ssreflect all_algebra.
From Verif Require Import FieldTac LinalgModel LinalgSpec MatrixModel MatrixSpec MatrixProofs1 EigenSpec EigenProofs1
  EigenProofs2 SuModel SuSpec SuProofs2 AlgebraModel AlgebraSpec AlgebraProofs3 AlgebraProofs4 AlgebraProofs5 Su2Model Su2Spec Su2Proofs1.
Set Implicit Arguments.
Unset Strict Implicit.
Unset Printing Implicit Defensive.
Import Order.TTheory GRing.Theory Num.Theory.
Local Open Scope ring_scope.

Section Two.
Variables (F : numFieldType) (f : F -> F) (u : F) (cj : {rmorphism F -> F}) (re im root : F -> F) (I : F).
Hypothesis P : complex_parts cj re im root I.
Notation FS := (field_scalars f u).
Notation M q := (mxr 2 2 (su2_matrix FS I q) : 'M[F]_2).

Lemma mx2P (A B : nat -> nat -> F) :
  (forall i j, (i < 2)%N -> (j < 2)%N -> A i j = B i j) -> mxr 2 2 A = mxr 2 2 B.
Proof. by move=> H; apply/matrixP => i j; rewrite !mxE; apply: H. Qed.

Lemma II' : I * I = - 1. Proof. exact: (AlgebraProofs3.II P). Qed.
Lemma two0 : 1 + 1 <> 0 :> F.
Proof. by apply/eqP; rewrite -[1 + 1]/(2%:R) pnatr_eq0. Qed.

Notation FT := (mc_field F).
Lemma M_add p q : M (su2_add FS p q) = M p + M q.
Proof. have H := II'; by apply/matrixP => i j; rewrite !mxE; apply: (e_add FT). Qed.
Lemma M_sub p q : M (su2_sub FS p q) = M p - M q.
Proof. have H := II'; by apply/matrixP => i j; rewrite !mxE; apply: (e_sub FT). Qed.
Lemma M_opp q : M (su2_opp FS q) = - M q.
Proof. have H := II'; by apply/matrixP => i j; rewrite !mxE; apply: (e_opp FT). Qed.
Lemma M_scalar z : M (su2_scalar FS z) = z%:M.
Proof.
have H := II'; by apply/matrixP => i j; rewrite !mxE (e_scalar FT) // -val_eqE /=; case: eqP; rewrite ?mulr1n ?mulr0n.
Qed.
Lemma M_scale q z : M (su2_scale FS q z) = z *: M q.
Proof. have H := II'; by apply/matrixP => i j; rewrite !mxE; apply: (e_scale FT). Qed.
Lemma M_div q z : z != 0 -> M (su2_div FS q z) = z^-1 *: M q.
Proof. by move=> /eqP z0; apply/matrixP => i j; rewrite !mxE; apply: (e_div FT). Qed.
Lemma M_add_scalar q z : M (su2_add_scalar FS q z) = M q + z%:M.
Proof. by rewrite -M_scalar -M_add; rewrite [X in su2_matrix _ _ X](e_add_scalar FT). Qed.
Lemma M_sub_scalar q z : M (su2_sub_scalar FS q z) = M q - z%:M.
Proof. by rewrite -M_scalar -M_sub; rewrite [X in su2_matrix _ _ X](e_sub_scalar FT). Qed.
Lemma M_scalar_sub q z : M (su2_scalar_sub FS z q) = z%:M - M q.
Proof. by rewrite -M_scalar -M_sub; rewrite [X in su2_matrix _ _ X](e_scalar_sub FT). Qed.

Lemma mul2E (A B : 'M[F]_2) i j : (A *m B) i j = A i 0 * B 0 j + A i 1 * B 1 j.
Proof. by rewrite mxE big_ord_recl big_ord1 (_ : lift ord0 ord0 = 1) //; apply: val_inj. Qed.
Lemma tr2E (A : 'M[F]_2) : \tr A = A 0 0 + A 1 1.
Proof. by rewrite /mxtrace big_ord_recl big_ord1 (_ : lift ord0 ord0 = 1) //; apply: val_inj. Qed.

Lemma M_mul p q : M (su2_mul FS p q) = M p *m M q.
Proof. have H := II'; by apply/matrixP => i j; rewrite mul2E !mxE; apply: (e_mul FT); rewrite ?II'. Qed.

Lemma M_trace q : \tr (M q) = su2_trace FS q.
Proof. by rewrite tr2E !mxE; apply: (su2_traceE FT). Qed.

Lemma M_det q : \det (M q) = su2_det FS q.
Proof.
rewrite (expand_det_row _ 0) big_ord_recl big_ord1 /cofactor !det_mx11 !mxE /=.
rewrite expr0 mul1r expr1 mulN1r mulrN; apply: (su2_detE FT); exact: II'.
Qed.

Lemma M_dagger q : real_su2 q -> M (su2_dagger FS q) = adjoint cj (M q).
Proof.
case: P => C _ _; have cI := cjI P.
case=> /(cj_real C) ra /(cj_real C) rb /(cj_real C) rc /(cj_real C) rd.
have e (x y : F) : cj x = x -> cj y = y -> cj (x + I * y) = x + I * (- y).
  by move=> hx hy; rewrite rmorphD rmorphM hx hy cI mulNr mulrN.
apply/matrixP => i j; rewrite [RHS]mxE !mxE.
case: i j => [[|[|i]] hi] [[|[|j]] hj] //; rewrite !(m00, m01, m10, m11).
all: rewrite e ?rmorphN ?ra ?rb ?rc ?rd //= ?opprK //.
Qed.

Lemma real_dagger q : real_su2 q -> real_su2 (su2_dagger FS q).
Proof. by case=> ra rb rc rd; split; rewrite //= realN. Qed.
Lemma real_mul p q : real_su2 p -> real_su2 q -> real_su2 (su2_mul FS p q).
Proof.
case=> ra rb rc rd [ra' rb' rc' rd'].
by split; rewrite /= ?(realB, realD, realM).
Qed.

Lemma det_ge0 q : real_su2 q -> 0 <= su2_det FS q.
Proof.
case=> ra rb rc rd; have s x : x \is Num.real -> 0 <= x * x by move=> rx; rewrite -expr2 real_exprn_even_ge0.
by rewrite /su2_det /=; do !apply: addr_ge0; apply: s.
Qed.

Lemma M_mul_dagger q : real_su2 q -> adjoint cj (M q) *m M q = (su2_det FS q)%:M.
Proof. by move=> rq; rewrite -M_dagger // -M_mul (su2_dagger_mul (mc_field F)) M_scalar. Qed.

Lemma su2_special q : real_su2 q -> special_unitary cj (M q) <-> su2_det FS q = 1.
Proof.
move=> rq; rewrite /special_unitary M_det; split=> [[]//|d1]; split=> //.
by rewrite /unitary M_mul_dagger // d1.
Qed.

Lemma su2_squarenormE q : real_su2 q -> \sum_i \sum_j `|M q i j| ^+ 2 = 2%:R * su2_squarenorm FS q.
Proof.
move=> rq; case: P => C _ _.
transitivity (\tr (adjoint cj (M q) *m M q)).
  rewrite exchange_big; apply: eq_bigr => j _; rewrite mxE; apply: eq_bigr => i _.
  by rewrite !mxE mulrC (cj_norm C).
by rewrite M_mul_dagger // mxtrace_scalar mulr_natl.
Qed.

Lemma su2_normal q : real_su2 q -> su2_det FS q != 0 ->
  let q' := su2_normalize FS root q in
  [/\ real_su2 q', M q' = (root (su2_det FS q))^-1 *: M q, special_unitary cj (M q') & 0 < root (su2_det FS q)].
Proof.
move=> rq d0 q'; case: P => C _ _; have d := det_ge0 rq.
have dp : 0 < su2_det FS q by rewrite lt_def d0.
have rp : 0 < root (su2_det FS q) by apply: (root_gt0 C).
have rr : root (su2_det FS q) \is Num.real by rewrite realE ltW.
have rq' : real_su2 q' by case: rq => ra rb rc rd; split; rewrite /=; apply: realM => //; rewrite realV.
split=> //; first by apply: M_div; rewrite gt_eqF.
apply/(su2_special rq'); apply: (su2_normalize_det (mc_field F)); last exact/eqP.
by rewrite -expr2 (rootK C).
Qed.

End Two.
