(** Subgroups, the algebra, and SU(N) with N = 2. *)
Set Warnings "-notation-overridden,-ambiguous-paths".
From mathcomp Require Import all_ssreflect all_algebra.
From Verif Require Import FieldTac LinalgModel LinalgSpec LinalgProofs1 LinalgProofs4 MatrixModel MatrixSpec MatrixProofs1 EigenSpec EigenProofs1
  EigenProofs2 SuModel SuSpec SuProofs2 AlgebraModel AlgebraSpec AlgebraProofs3 AlgebraProofs4 AlgebraProofs5 Su2Model Su2Spec Su2Proofs1 Su2Proofs2.
Set Implicit Arguments.
Unset Strict Implicit.
Unset Printing Implicit Defensive.
Import Order.TTheory GRing.Theory Num.Theory.
Local Open Scope ring_scope.

Section PureField.
Variables (K : Type) (zero one : K) (add mul sub div : K -> K -> K) (opp inv : K -> K).
Hypothesis FT : field_theory zero one add mul sub opp div inv eq.
Add Field K_field : FT.
Notation "a + b" := (add a b).
Notation "a * b" := (mul a b).
Notation "a - b" := (sub a b).
Notation "a / b" := (div a b).
Notation "- a" := (opp a).
Hypothesis two0 : one + one <> zero.

Lemma overlap_field a b c d r00 i00 r01 i01 r10 i10 r11 i11 s :
  let t := zero + one + one in
  d * r00 - c * i00 + (b * r10 - a * i10) + ((- b * r01 - a * i01) + (d * r11 - (- c) * i11)) + s
  = t * (d * ((r00 + r11) * (one / t)) - a * ((i01 + i10) * (one / t))
      - b * ((r01 - r10) * (one / t)) - c * ((i00 - i11) * (one / t))) + s.
Proof. by have h := tw0 FT two0; rewrite /=; field. Qed.

Lemma half_sum x : (x + x) * (one / (zero + one + one)) = x.
Proof. by have h := tw0 FT two0; field. Qed.
Lemma half_diff x y : (x - y - (x - - y)) = - (y + y).
Proof. by ring. Qed.
Lemma pauli_field a b c J : J * J = - one ->
  let t := zero + one + one in let s := one + one in
  [/\ zero * (one / t) + J * (c * (one / t)) = J / s * (a * zero + b * zero + c * one),
      b * (one / t) + J * (a * (one / t)) = J / s * (a * one + b * - J + c * zero),
      - (b * (one / t)) + J * (a * (one / t)) = J / s * (a * one + b * J + c * zero) &
      zero * (one / t) + J * - (c * (one / t)) = J / s * (a * zero + b * zero + c * - one)].
Proof.
have h := tw0 FT two0; move=> H; split; rewrite /=.
- by field.
- have -> : J / (one + one) * (a * one + b * - J + c * zero) = (J * a - (J * J) * b) / (one + one) by field.
  by rewrite H; field.
- have -> : J / (one + one) * (a * one + b * J + c * zero) = (J * a + (J * J) * b) / (one + one) by field.
  by rewrite H; field.
by field.
Qed.
Lemma scaled_field s a t h : a * (s * t) * h = a * t * h * s.
Proof. by ring. Qed.
Lemma part_field a : a * (zero + one + one) * (one / (zero + one + one)) = (a - - a) * inv (one + one).
Proof. by have h := tw0 FT two0; field. Qed.
End PureField.

Section Three.
Variables (F : numFieldType) (f : F -> F) (u : F) (cj : {rmorphism F -> F}) (re im root : F -> F) (I : F).
Hypothesis P : complex_parts cj re im root I.
Let C : complex_numbers cj re root. Proof. by case: P. Qed.
Notation FS := (field_scalars f u).
Notation M q := (mxr 2 2 (su2_matrix FS I q) : 'M[F]_2).
Notation FT := (mc_field F).

Lemma tr_embed2 n p q (X : nat -> nat -> F) (A : nat -> nat -> F) : (p < n)%N -> (q < n)%N -> p != q ->
  \tr (embed2 n p q X *m mxr n n A) =
  X 0%N 0%N * A p p + X 0%N 1%N * A q p + (X 1%N 0%N * A p q + X 1%N 1%N * A q q)
  + \sum_(k < n | (k != p :> nat) && (k != q :> nat)) A k k.
Proof.
move=> pn qn pq; rewrite -(leftE f u) // /mxtrace.
rewrite (bigD1 (Ordinal pn)) //= (bigD1 (Ordinal qn)) /=; last by rewrite -val_eqE /= eq_sym.
rewrite !mxE !left_loop // !ltn_ord /= !eqxx [q == p]eq_sym (negbTE pq) [LHS]addrA; congr (_ + _).
apply: eq_big => [k|k /andP[kp kq]]; first by rewrite -!val_eqE.
by rewrite mxE left_loop // ltn_ord -[k == p :> nat]/(k == Ordinal pn) (negbTE kp) -[k == q :> nat]/(k == Ordinal qn) (negbTE kq).
Qed.

Lemma re_cx x y z : x \is Num.real -> y \is Num.real -> re ((x + I * y) * z) = x * re z - y * im z.
Proof.
move=> rx ry; rewrite mulrDl (reD P) (reZ P) // [I * y]mulrC -mulrA (reZ P) //.
by rewrite -[I * z]opprK -mulNr -mulN1r (reZ P) ?realN ?real1 // (re_NI P) mulN1r mulrN.
Qed.

Lemma cj_parts x : cj x = re x + I * - im x.
Proof. by rewrite -[LHS](parts P) (re_cj P) (im_cj P). Qed.

(** The overlap of a matrix with an element of a subgroup. *)
Lemma project_overlap n p q (A : nat -> nat -> F) V : (p < n)%N -> (q < n)%N -> p != q -> real_su2 V ->
  re (\tr (embed2 n p q (su2_matrix FS I V) *m mxr n n A)) =
  su2_mul_trace FS V (project_from_matrix FS re im A p q)
  + re (\sum_(k < n | (k != p :> nat) && (k != q :> nat)) A k k).
Proof.
move=> pn qn pq [ra rb rc rd]; rewrite tr_embed2 // !m00 !m01 !m10 !m11 !(reD P) !re_cx ?realN //.
move: (re (\sum_(k < n | _) _)) => s.
exact: (@overlap_field _ _ _ _ _ _ _ _ _ FT (@two0 F) (qa FS V) (qb FS V) (qc FS V) (qd FS V)
  (re (A p p)) (im (A p p)) (re (A p q)) (im (A p q)) (re (A q p)) (im (A q p)) (re (A q q)) (im (A q q)) s).
Qed.

Lemma project_matrix q : real_su2 q -> project_from_matrix FS re im (su2_matrix FS I q) 0 1 = q.
Proof.
case: q => [a b c d] [/= ra rb rc rd].
have h := half_sum FT (@two0 F).
rewrite /project_from_matrix !m00 !m01 !m10 !m11 /= !(re_complex P) ?(im_complex P) ?realN // !opprK.
by apply: su2_ext; rewrite /= ?opprK; exact: h.
Qed.

Lemma special_project (W : nat -> nat -> F) : special_unitary cj (mxr 2 2 W) ->
  real_su2 (project_from_matrix FS re im W 0 1) /\ M (project_from_matrix FS re im W 0 1) = mxr 2 2 W.
Proof.
move=> [U D].
have A : adjoint cj (mxr 2 2 W) = \adj (mxr 2 2 W).
  have := mul_mx_adj (mxr 2 2 W); rewrite D => H.
  by rewrite -[LHS]mulmx1 -H mulmxA U mul1mx.
have e00 : cj (W 0%N 0%N) = W 1%N 1%N.
  by move/matrixP/(_ 0 0): A; rewrite !mxE /cofactor !det_mx11 !mxE /= expr0 mul1r.
have e10 : cj (W 0%N 1%N) = - W 1%N 0%N.
  by move/matrixP/(_ 1 0): A; rewrite !mxE /cofactor !det_mx11 !mxE /= expr1 mulN1r.
have h := half_sum FT (@two0 F).
have rr := re_real C; have ri := im_real P.
have hr : half FS \is Num.real by rewrite /half /=; apply: realM; rewrite ?realV ?real1 // !realD ?real0 ?real1.
split.
  by split; rewrite /= realM ?realD ?realB ?realN //.
have q : project_from_matrix FS re im W 0 1 = mkSu2 FS (im (W 0%N 1%N)) (re (W 0%N 1%N)) (im (W 0%N 0%N)) (re (W 0%N 0%N)).
  have e10' : W 1%N 0%N = - cj (W 0%N 1%N) by rewrite e10 opprK.
  have reN x : re (- x) = - re x by rewrite -mulN1r (reZ P) ?realN ?real1 // mulN1r.
  have imN x : im (- x) = - im x by rewrite -sub0r (imB P) (imE P 0) rmorph0 subrr mul0r sub0r.
  apply: su2_ext; rewrite /= ?e10' -?e00 ?reN ?imN ?(re_cj P) ?(im_cj P) ?opprK; exact: h.
rewrite q; apply/matrixP => i j; rewrite !mxE.
case: i j => [[|[|i]] hi] [[|[|j]] hj] //; rewrite ?(m00, m01, m10, m11) /= ?(parts P) //.
- by rewrite -[RHS]opprK -e10 cj_parts opprD mulrN opprK.
- by rewrite -e00 cj_parts.
Qed.

(** *** The algebra *)

Lemma M_expand E : M (alg_expand FS E) =
  (I / 2%:R) *: (ea FS E *: pauli1 F + eb FS E *: pauli2 I + ec FS E *: pauli3 F).
Proof.
case: E => [a b c]; apply/matrixP => i j; rewrite !mxE.
case: i j => [[|[|i]] hi] [[|[|j]] hj] //; rewrite !(m00, m01, m10, m11) /=.
all: by case: (pauli_field FT (@two0 F) a b c (AlgebraProofs3.II P)).
Qed.

Lemma real_expand E : real_algebra E -> real_su2 (alg_expand FS E).
Proof.
case: E => [a b c] [/= ra rb rc].
have hr : half FS \is Num.real by rewrite /half /=; apply: realM; rewrite ?realV ?real1 // !realD ?real0 ?real1.
by split; rewrite /=; apply: realM => //; apply: real0.
Qed.

Lemma dagger_expand E : su2_dagger FS (alg_expand FS E) = su2_opp FS (alg_expand FS E).
Proof. by apply: su2_ext; rewrite //= mul0r oppr0. Qed.

Lemma expand_anti2 E : real_algebra E -> antihermitean cj (M (alg_expand FS E)) /\ \tr (M (alg_expand FS E)) = 0.
Proof.
move=> rE; rewrite /antihermitean -(M_dagger P) ?dagger_expand; last exact: real_expand.
by rewrite (M_opp P) M_trace /su2_trace /= mul0r mulr0.
Qed.

Lemma expand_project2 q : real_su2 q -> M (alg_expand FS (su2_project FS q)) = algebra_part cj (M q).
Proof.
move=> rq; rewrite /algebra_part -(M_dagger P) // -(M_sub P) -(M_scale P).
rewrite M_trace /su2_trace /= subrr mul0r mulr0 mul0r -scalemx1 scale0r subr0.
have h := part_field FT (@two0 F).
have -> // : alg_expand FS (su2_project FS q) = su2_scale FS (su2_sub FS q (su2_dagger FS q)) 2%:R^-1.
case: (q) => [a b c d]; apply: su2_ext; rewrite /= ?mul0r ?subrr ?mul0r //; exact: h.
Qed.

Lemma real_right U E : real_su2 U -> real_algebra E -> real_algebra (su2_right FS U E).
Proof.
case: U E => [a b c d] [x y z] [/= ra rb rc rd] [/= rx ry rz].
by split; rewrite /= ?(realB, realD, realM, real0, real1).
Qed.

Lemma real_left U E : real_su2 U -> real_algebra E -> real_algebra (su2_left FS U E).
Proof.
case: U E => [a b c d] [x y z] [/= ra rb rc rd] [/= rx ry rz].
by split; rewrite /= ?(realB, realD, realM, real0, real1).
Qed.

(** The components in the order of Algebra<SU<2>>. *)
Definition sun_order (E : su2_algebra FS) (k : nat) : F := nth 0 [:: ec FS E; eb FS E; ea FS E] k.

Lemma sun_expand E : real_algebra E ->
  mxr 2 2 (expand FS cj root I 2 (sun_order E)) = M (alg_expand FS E).
Proof.
case: E => [a b c] [/= ra rb rc].
have r4 : root (1 / (0 + 1 + 1) / ((0 + 1) * (0 + 1 + 1))) = 1 / (0 + 1 + 1).
  rewrite !add0r mul1r !mul1r -invfM -expr2 -exprVn (root_sqr C) // invr_ge0.
  by rewrite -[1 + 1]/(2%:R) ler0n.
have hr : (1 / (0 + 1 + 1) : F) \is Num.real.
  by rewrite realM ?realV ?realD ?real0 ?real1.
apply/matrixP => i j; rewrite !mxE.
case: i j => [[|[|i]] hi] [[|[|j]] hj] //; rewrite !(m00, m01, m10, m11) /expand /expand_diag /= /set /setv /= //.
- by rewrite /loop /= r4 mul0r !add0r.
- have rc' (x y : F) : x \is Num.real -> y \is Num.real -> - cj (x + I * y) = - x + I * y.
    by move=> rx ry; rewrite rmorphD rmorphM (cjI P) !(cj_real C) // opprD mulNr opprK.
  by apply: rc'; apply: realM.
- by rewrite /loop /= r4 mul0r !add0r mulN1r mulrN.
Qed.

Lemma sun_real E : real_algebra E -> real_components (2 * 2 - 1) (sun_order E).
Proof. by move=> [ra rb rc] [|[|[|k]]]. Qed.

Lemma expand_project_scaled s q : real_su2 q ->
  M (alg_expand FS (su2_project_scaled FS s q)) = s *: algebra_part cj (M q).
Proof.
move=> rq; rewrite -expand_project2 // -(M_scale P).
have -> // : alg_expand FS (su2_project_scaled FS s q) = su2_scale FS (alg_expand FS (su2_project FS q)) s.
by apply: su2_ext; rewrite /= ?mul0r ?mul0r //; have := scaled_field FT s; apply.
Qed.

Lemma su2_dot_tr D E : real_algebra D ->
  alg_dot FS D E = 2%:R * \tr (adjoint cj (M (alg_expand FS D)) *m M (alg_expand FS E)).
Proof.
move=> rD; rewrite -(M_dagger P) ?dagger_expand; last exact: real_expand.
rewrite (M_opp P) mulNmx raddfN /= -(M_mul P) M_trace.
rewrite (dot_quat FT (@two0 F) D E) opprK /=.
by rewrite add0r -[1 + 1]/(2%:R) mulrCA divff ?mulr1 // pnatr_eq0.
Qed.

End Three.
