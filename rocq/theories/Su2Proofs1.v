(** Identities of the components of SU2 matrices. *)
Set Warnings "-notation-overridden,-ambiguous-paths".
From mathcomp Require Import all_ssreflect.
From Verif Require Import FieldTac LinalgModel MatrixModel SuModel AlgebraModel Su2Model.
Set Implicit Arguments.
Unset Strict Implicit.
Unset Printing Implicit Defensive.

Section PureField.
Variables (K : Type) (zero one : K) (add mul sub div : K -> K -> K) (opp inv : K -> K).
Hypothesis FT : field_theory zero one add mul sub opp div inv eq.
Add Field K_field : FT.
Variables (iz : K -> bool) (le leq : K -> K -> bool) (sq ab ov : K -> K) (un : K).
Let S := mkScalars K zero one add sub mul div opp iz le leq sq ab ov un.
Variables (root : K -> K) (I : K).
Notation "a + b" := (add a b).
Notation "a * b" := (mul a b).
Notation "a - b" := (sub a b).
Notation "a / b" := (div a b).
Notation "- a" := (opp a).
Notation M := (su2_matrix S I).
Arguments mkSu2 {S}.
Arguments mkAlg {S}.
Hypothesis two0 : one + one <> zero.
Hypothesis II : I * I = - one.

Lemma tw0 : zero + one + one <> zero.
Proof. by have -> : zero + one + one = one + one by ring. Qed.

Lemma m00 : forall q, M q 0 0 = qd S q + I * qc S q. Proof. by []. Qed.
Lemma m01 : forall q, M q 0 1 = qb S q + I * qa S q. Proof. by []. Qed.
Lemma m10 : forall q, M q 1 0 = - qb S q + I * qa S q. Proof. by []. Qed.
Lemma m11 : forall q, M q 1 1 = qd S q + I * (- qc S q). Proof. by []. Qed.

Lemma mul00 : forall p q, M (su2_mul S p q) 0 0 = M p 0 0 * M q 0 0 + M p 0 1 * M q 1 0.
Proof. by move=> [a b c d] [a' b' c' d']; rewrite !m00 m01 m10 /=; ring [II]. Qed.
Lemma mul01 : forall p q, M (su2_mul S p q) 0 1 = M p 0 0 * M q 0 1 + M p 0 1 * M q 1 1.
Proof. by move=> [a b c d] [a' b' c' d']; rewrite !m00 !m01 m11 /=; ring [II]. Qed.
Lemma mul10 : forall p q, M (su2_mul S p q) 1 0 = M p 1 0 * M q 0 0 + M p 1 1 * M q 1 0.
Proof. by move=> [a b c d] [a' b' c' d']; rewrite !m00 !m10 !m11 /=; ring [II]. Qed.
Lemma mul11 : forall p q, M (su2_mul S p q) 1 1 = M p 1 0 * M q 0 1 + M p 1 1 * M q 1 1.
Proof. by move=> [a b c d] [a' b' c' d']; rewrite !m01 !m10 !m11 /=; ring [II]. Qed.

Lemma su2_detE : forall q, M q 0 0 * M q 1 1 - M q 0 1 * M q 1 0 = su2_det S q.
Proof. by move=> [a b c d]; rewrite m00 m11 m01 m10 /su2_det /=; ring [II]. Qed.

Lemma su2_det_mul : forall p q, su2_det S (su2_mul S p q) = su2_det S p * su2_det S q.
Proof. by move=> [a b c d] [a' b' c' d']; rewrite /su2_det /=; ring. Qed.

Lemma su2_traceE : forall q, M q 0 0 + M q 1 1 = su2_trace S q.
Proof. by move=> [a b c d]; rewrite m00 m11 /su2_trace /=; ring. Qed.

Lemma su2_mul_traceE : forall p q, su2_mul_trace S p q = su2_trace S (su2_mul S p q).
Proof. by []. Qed.

Lemma su2_ext (p q : su2 S) :
  qa S p = qa S q -> qb S p = qb S q -> qc S p = qc S q -> qd S p = qd S q -> p = q.
Proof. by case: p q => [a b c d] [a' b' c' d'] /= -> -> -> ->. Qed.

Lemma alg_ext (p q : su2_algebra S) :
  ea S p = ea S q -> eb S p = eb S q -> ec S p = ec S q -> p = q.
Proof. by case: p q => [a b c] [a' b' c'] /= -> -> ->. Qed.

(** Conjugation. *)
Lemma t3E (a b c d : K) : a * a + b * b + c * c + d * d = one ->
  (zero + one + one) * d * d - one = d * d - a * a - b * b - c * c.
Proof. by move=> H; rewrite -[X in _ - X = _]H; ring. Qed.

Lemma right_quat : forall U E, su2_det S U = one ->
  su2_mul S (su2_mul S (su2_dagger S U) (alg_expand S E)) U = alg_expand S (su2_right S U E).
Proof.
have tw0 := tw0; move=> [a b c d] [x y z]; rewrite /su2_det /= => /t3E H.
by rewrite /su2_right /=; apply: su2_ext; rewrite /= ?H; field.
Qed.

Lemma left_quat : forall U E, su2_det S U = one ->
  su2_mul S (su2_mul S U (alg_expand S E)) (su2_dagger S U) = alg_expand S (su2_left S U E).
Proof.
have tw0 := tw0; move=> [a b c d] [x y z]; rewrite /su2_det /= => /t3E H.
by rewrite /su2_left /=; apply: su2_ext; rewrite /= ?H; field.
Qed.

Lemma su2_mulA : forall p q r, su2_mul S p (su2_mul S q r) = su2_mul S (su2_mul S p q) r.
Proof. by move=> [a b c d] [a' b' c' d'] [x y z w]; change (num S) with K in *; apply: su2_ext; rewrite /=; change (num S) with K in *; ring. Qed.

Lemma su2_mul1 : forall p, su2_mul S (su2_scalar S one) p = p.
Proof. by move=> [a b c d]; change (num S) with K in *; apply: su2_ext; rewrite /=; change (num S) with K in *; ring. Qed.

Lemma su2_mulr1 : forall p, su2_mul S p (su2_scalar S one) = p.
Proof. by move=> [a b c d]; change (num S) with K in *; apply: su2_ext; rewrite /=; change (num S) with K in *; ring. Qed.

Lemma su2_mul_dagger : forall p, su2_mul S p (su2_dagger S p) = su2_scalar S (su2_det S p).
Proof. by move=> [a b c d]; apply: su2_ext; rewrite /su2_det /=; ring. Qed.

Lemma su2_dagger_mul : forall p, su2_mul S (su2_dagger S p) p = su2_scalar S (su2_det S p).
Proof. by move=> [a b c d]; apply: su2_ext; rewrite /su2_det /=; ring. Qed.

Lemma su2_project_expand : forall E, su2_project S (alg_expand S E) = E.
Proof. by have tw0 := tw0; move=> [a b c]; apply: alg_ext; rewrite /=; field. Qed.

Lemma su2_right_left : forall U E, su2_det S U = one -> su2_right S U (su2_left S U E) = E.
Proof.
move=> U E D; apply: (can_inj su2_project_expand).
rewrite -right_quat // -left_quat // !su2_mulA su2_dagger_mul D su2_mul1.
by rewrite -su2_mulA su2_dagger_mul D su2_mulr1.
Qed.

Lemma su2_left_right : forall U E, su2_det S U = one -> su2_left S U (su2_right S U E) = E.
Proof.
move=> U E D; apply: (can_inj su2_project_expand).
rewrite -left_quat // -right_quat // !su2_mulA su2_mul_dagger D su2_mul1.
by rewrite -su2_mulA su2_mul_dagger D su2_mulr1.
Qed.

(** tr(E E') = - dot / 2 *)
Lemma dot_quat : forall x y,
  su2_trace S (su2_mul S (alg_expand S x) (alg_expand S y)) = - (alg_dot S x y / (zero + one + one)).
Proof. by have tw0 := tw0; move=> [a b c] [x y z]; rewrite /su2_trace /alg_dot /=; field. Qed.

Lemma su2_trace_mulC : forall p q, su2_trace S (su2_mul S p q) = su2_trace S (su2_mul S q p).
Proof. by move=> [a b c d] [x y z w]; rewrite /su2_trace /=; ring. Qed.

Lemma half_inj (x y : K) : - (x / (zero + one + one)) = - (y / (zero + one + one)) -> x = y.
Proof.
have tw0 := tw0; move=> H.
have E u : u = - ((zero + one + one) * - (u / (zero + one + one))) by field.
by rewrite (E x) H -E.
Qed.

Lemma su2_right_dot : forall U x y, su2_det S U = one ->
  alg_dot S (su2_right S U x) (su2_right S U y) = alg_dot S x y.
Proof.
move=> U x y D; apply: half_inj; rewrite -!dot_quat -!right_quat //.
rewrite !su2_mulA -[su2_mul S (su2_mul S (su2_mul S _ _) _) (su2_dagger S _)]su2_mulA su2_mul_dagger.
rewrite D su2_mulr1 su2_trace_mulC !su2_mulA su2_mul_dagger D su2_mul1.
by [].
Qed.

Lemma su2_left_dot : forall U x y, su2_det S U = one ->
  alg_dot S (su2_left S U x) (su2_left S U y) = alg_dot S x y.
Proof.
move=> U x y D; apply: half_inj; rewrite -!dot_quat -!left_quat //.
rewrite !su2_mulA -[su2_mul S (su2_mul S (su2_mul S _ _) _) U]su2_mulA su2_dagger_mul.
rewrite D su2_mulr1 su2_trace_mulC !su2_mulA su2_dagger_mul D su2_mul1.
by [].
Qed.

Lemma su2_normalize_det : forall q, let r := root (su2_det S q) in
  r * r = su2_det S q -> su2_det S q <> zero -> su2_det S (su2_normalize S root q) = one.
Proof.
move=> q r; move=> H n0.
have r0 : r <> zero.
  move=> E; apply: n0; rewrite -H E.
  by change (zero * zero = zero :> K); ring.
rewrite -[LHS]/(su2_det S (su2_div S q r)).
have -> : su2_det S (su2_div S q r) = su2_det S q / (r * r).
  by rewrite /su2_det /su2_div /=; field.
by rewrite -H; change ((r * r) / (r * r) = one :> K); field.
Qed.
Local Ltac entries := case=> [|[|i]] [|[|j]] // _ _; rewrite ?m00 ?m01 ?m10 ?m11 /=; ring [II].

Lemma e_add p q i j : (i < 2)%N -> (j < 2)%N -> M (su2_add S p q) i j = M p i j + M q i j :> K.
Proof. case: p q => [a b c d] [a' b' c' d']; move: i j; entries. Qed.
Lemma e_sub p q i j : (i < 2)%N -> (j < 2)%N -> M (su2_sub S p q) i j = M p i j - M q i j :> K.
Proof. case: p q => [a b c d] [a' b' c' d']; move: i j; entries. Qed.
Lemma e_opp q i j : (i < 2)%N -> (j < 2)%N -> M (su2_opp S q) i j = - M q i j :> K.
Proof. case: q => [a b c d]; move: i j; entries. Qed.
Lemma e_scalar z i j : (i < 2)%N -> (j < 2)%N -> M (su2_scalar S (z : K)) i j = (if i == j then z else zero) :> K.
Proof. move: i j; entries. Qed.
Lemma e_scale q (z : K) i j : (i < 2)%N -> (j < 2)%N -> M (su2_scale S q z) i j = z * M q i j :> K.
Proof. case: q => [a b c d]; move: i j; entries. Qed.
Lemma e_add_scalar q (z : K) : su2_add_scalar S q z = su2_add S q (su2_scalar S z).
Proof. by case: q => [a b c d]; change (num S) with K in *; apply: su2_ext; rewrite /=; change (num S) with K in *; ring. Qed.
Lemma e_sub_scalar q (z : K) : su2_sub_scalar S q z = su2_sub S q (su2_scalar S z).
Proof. by case: q => [a b c d]; change (num S) with K in *; apply: su2_ext; rewrite /=; change (num S) with K in *; ring. Qed.
Lemma e_scalar_sub q (z : K) : su2_scalar_sub S z q = su2_sub S (su2_scalar S z) q.
Proof. by case: q => [a b c d]; change (num S) with K in *; apply: su2_ext; rewrite /=; change (num S) with K in *; ring. Qed.
Lemma e_div q (z : K) i j : z <> zero -> (i < 2)%N -> (j < 2)%N -> M (su2_div S q z) i j = inv z * M q i j :> K.
Proof. case: q => [a b c d]; move=> z0; move: i j; case=> [|[|i]] [|[|j]] // _ _; rewrite ?m00 ?m01 ?m10 ?m11 /=; field; exact: z0. Qed.
Lemma e_mul p q i j : (i < 2)%N -> (j < 2)%N ->
  M (su2_mul S p q) i j = M p i 0 * M q 0 j + M p i 1 * M q 1 j :> K.
Proof. case: p q => [a b c d] [a' b' c' d']; move: i j; entries. Qed.
End PureField.
