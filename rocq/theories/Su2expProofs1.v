(** Exponential and logarithm of SU(2). *)
From Coq Require Import Reals Arith Lra Lia.
From Verif Require Import LinalgModel MatrixModel SuModel AlgebraModel Su2Model Su2expSpec.
Local Open Scope R_scope.

Section Exp.
Context (f : R -> R) (u : R).
Notation RS := (real_scalars f u).
Notation alg_exp := (alg_exp RS sqrt sin cos).
Notation su2_log := (su2_log RS sqrt acos).
Notation mkSu2 := (mkSu2 RS).
Notation mkAlg := (mkAlg RS).

Lemma below_true : forall x y, x <= y -> below x y = true.
Proof. intros x y H; unfold below; destruct (Rle_dec x y); [reflexivity|contradiction]. Qed.
Lemma below_false : forall x y, y < x -> below x y = false.
Proof. intros x y H; unfold below; destruct (Rle_dec x y); [lra|reflexivity]. Qed.

(** *** Series *)

Lemma cos_sum : forall r, Un_cv (fun n => sum_f_R0 (fun i => cos_n i * Rsqr r ^ i) n) (cos r).
Proof.
  intros r; unfold cos; destruct (exist_cos (Rsqr r)) as [l H]; exact H.
Qed.

Lemma sin_sum : forall r, r <> 0 -> Un_cv (fun n => sum_f_R0 (fun i => sin_n i * Rsqr r ^ i) n) (sin r / r).
Proof.
  intros r r0; unfold sin; destruct (exist_sin (Rsqr r)) as [l H].
  replace (r * l / r) with l by (field; exact r0); exact H.
Qed.

Lemma half_cv : forall s l, Un_cv s l -> Un_cv (fun n => s (Nat.div2 n)) l.
Proof.
  intros s l H eps e0; destruct (H eps e0) as [N HN]; exists (2 * N)%nat; intros n hn; apply HN.
  pose proof (Nat.div2_odd n); destruct (Nat.odd n); simpl in *; lia.
Qed.

Lemma pred_cv : forall s l, Un_cv s l -> Un_cv (fun n => s (Nat.pred n)) l.
Proof.
  intros s l H eps e0; destruct (H eps e0) as [N HN]; exists (S N); intros n hn; apply HN; lia.
Qed.

Lemma tail_cv : forall s t l, (forall n, s (S n) = t (S n)) -> Un_cv s l -> Un_cv t l.
Proof.
  intros s t l E H eps e0; destruct (H eps e0) as [N HN]; exists (S N); intros n hn.
  destruct n as [|n]; [lia|]; rewrite <- E; apply HN; lia.
Qed.

Lemma scale_cv : forall x s l, Un_cv s l -> Un_cv (fun n => x * s n) (x * l).
Proof.
  intros x s l H; apply (CV_mult (fun _ => x) s); [|exact H].
  intros eps e0; exists O; intros n _; unfold R_dist; rewrite Rminus_diag_eq by reflexivity; rewrite Rabs_R0; exact e0.
Qed.

(** Sum of the even terms up to n, and of the odd terms. *)
Definition even_part (r : R) (n : nat) : R := sum_f_R0 (fun i => cos_n i * Rsqr r ^ i) (Nat.div2 n).
Definition odd_part (r : R) (n : nat) : R := 
  match n with O => 0 | S n => sum_f_R0 (fun i => sin_n i * Rsqr r ^ i) (Nat.div2 n) end.

Lemma even_cv : forall r, Un_cv (even_part r) (cos r).
Proof. intros r; exact (half_cv _ _ (cos_sum r)). Qed.
Lemma odd_cv : forall r, r <> 0 -> Un_cv (odd_part r) (sin r / r).
Proof.
  intros r r0; apply tail_cv with (s := fun n => sum_f_R0 (fun i => sin_n i * Rsqr r ^ i) (Nat.div2 (Nat.pred n))).
  - reflexivity.
  - exact (pred_cv _ _ (half_cv _ _ (sin_sum r r0))).
Qed.

(** *** Powers *)

Section Power.
Variables x y z : R.
Let A := group_matrix x y z 0.
Let q := x * x + y * y + z * z.

Definition even_power (k : nat) : m2 := mscale ((- q) ^ k) mone.
Definition odd_power (k : nat) : m2 := mscale ((- q) ^ k) A.

Lemma m2_eq : forall a b c d e g h i a' b' c' d' e' g' h' i',
  a = a' -> b = b' -> c = c' -> d = d' -> e = e' -> g = g' -> h = h' -> i = i' ->
  mkM2 (a, b) (c, d) (e, g) (h, i) = mkM2 (a', b') (c', d') (e', g') (h', i').
Proof. intros; subst; reflexivity. Qed.

Lemma power_step : forall k, mmul A (even_power k) = odd_power k /\ mmul A (odd_power k) = even_power (S k).
Proof.
  intros k; split.
  - unfold mmul, even_power, odd_power, A, mscale, mone, group_matrix, cadd, cmul, cscale; simpl.
    apply m2_eq; ring.
  - unfold mmul, even_power, odd_power, A, mscale, mone, group_matrix, cadd, cmul, cscale; cbn [c11 c12 c21 c22 fst snd pow].
    replace ((- q) ^ S k) with ((- q) * (- q) ^ k) by reflexivity.
    generalize ((- q) ^ k); intros t; apply m2_eq; unfold q; ring.
Qed.

Lemma powers : forall k, mpow A (2 * k) = even_power k /\ mpow A (2 * k + 1) = odd_power k.
Proof.
  induction k as [|k [IH1 IH2]].
  - split; simpl.
    + unfold even_power, mscale, mone, cscale; simpl; apply m2_eq; ring.
    + unfold mmul, odd_power, A, mscale, mone, group_matrix, cadd, cmul, cscale; simpl; apply m2_eq; ring.
  - replace (2 * S k + 1)%nat with (S (S (2 * k + 1))) by lia.
    replace (2 * S k)%nat with (S (2 * k + 1)) by lia.
    cbn [mpow]; rewrite IH2; destruct (power_step k) as [_ E]; rewrite E; split; [reflexivity|].
    apply power_step.
Qed.

Lemma exp_sumE : forall r n, r * r = q ->
  exp_sum A n = madd (mscale (even_part r n) mone) (mscale (odd_part r n) A).
Proof.
  intros r n E; induction n as [|n IH].
  - unfold even_part, odd_part; cbn [Nat.div2 sum_f_R0 exp_sum].
    unfold cos_n, madd, mscale, mone, A, group_matrix, cadd, cscale; simpl; apply m2_eq; field.
  - cbn [exp_sum]; rewrite IH; clear IH.
    destruct (Nat.Even_or_Odd n) as [[k ->]|[k ->]].
    + replace (S (2 * k)) with (2 * k + 1)%nat by lia; destruct (powers k) as [_ ->].
      assert (H1 : even_part r (2 * k + 1) = even_part r (2 * k)).
      { unfold even_part; replace (2 * k + 1)%nat with (S (2 * k)) by lia.
        now rewrite Nat.div2_succ_double, Nat.div2_double. }
      assert (H2 : odd_part r (2 * k + 1) = odd_part r (2 * k) + / INR (fact (2 * k + 1)) * (- q) ^ k).
      { destruct k as [|k].
        - unfold odd_part, sin_n; simpl; field.
        - replace (2 * S k + 1)%nat with (S (S (2 * k + 1))) by lia.
          replace (2 * S k)%nat with (S (2 * k + 1)) by lia; unfold odd_part.
          replace (Nat.div2 (S (2 * k + 1))) with (S k).
          2:{ replace (S (2 * k + 1)) with (2 * (S k))%nat by lia; now rewrite Nat.div2_double. }
          replace (Nat.div2 (2 * k + 1)) with k.
          2:{ replace (2 * k + 1)%nat with (S (2 * k)) by lia; now rewrite Nat.div2_succ_double. }
          cbn [sum_f_R0]; f_equal; unfold sin_n, Rsqr; rewrite E.
          replace (2 * S k + 1)%nat with (S (S (2 * k + 1))) by lia.
          replace (- q) with ((-1) * q) by ring; rewrite Rpow_mult_distr; unfold Rdiv; ring. }
      rewrite H1, H2; unfold odd_power.
      unfold madd, mscale, mone, A, group_matrix, cadd, cscale; cbn [c11 c12 c21 c22 fst snd]; apply m2_eq; ring.
    + replace (S (2 * k + 1)) with (2 * S k)%nat by lia; destruct (powers (S k)) as [-> _].
      assert (H1 : odd_part r (2 * S k) = odd_part r (2 * k + 1)).
      { replace (2 * S k)%nat with (S (S (2 * k))) by lia; replace (2 * k + 1)%nat with (S (2 * k)) by lia.
        unfold odd_part; now rewrite Nat.div2_succ_double, Nat.div2_double. }
      assert (H2 : even_part r (2 * S k) = even_part r (2 * k + 1) + / INR (fact (2 * S k)) * (- q) ^ S k).
      { unfold even_part; rewrite Nat.div2_double.
        replace (2 * k + 1)%nat with (S (2 * k)) by lia; rewrite Nat.div2_succ_double.
        cbn [sum_f_R0]; f_equal; unfold cos_n, Rsqr; rewrite E.
        replace (- q) with ((-1) * q) by ring; rewrite Rpow_mult_distr; unfold Rdiv; ring. }
      rewrite H1, H2; unfold even_power.
      unfold madd, mscale, mone, A, group_matrix, cadd, cscale; cbn [c11 c12 c21 c22 fst snd]; apply m2_eq; ring.
Qed.
End Power.


Lemma const_cv : forall x, Un_cv (fun _ => x) x.
Proof.
  intros x eps e0; exists O; intros n _; unfold R_dist; rewrite Rminus_diag_eq by reflexivity.
  rewrite Rabs_R0; exact e0.
Qed.

Lemma lin_cv : forall e o C T v w, Un_cv e C -> (w = 0 \/ Un_cv o T) ->
  Un_cv (fun n => e n * v + o n * w) (C * v + T * w).
Proof.
  intros e o C T v w He Ho.
  apply (CV_plus (fun n => e n * v) (fun n => o n * w)).
  - apply (CV_mult e (fun _ => v)); [exact He|apply const_cv].
  - destruct Ho as [->|Ho].
    + apply (tail_cv (fun _ => T * 0)); [intros; ring|apply const_cv].
    + apply (CV_mult o (fun _ => w)); [exact Ho|apply const_cv].
Qed.

Lemma exp_cv : forall x y z r T, r * r = x * x + y * y + z * z ->
  (r = 0 \/ r <> 0 /\ T = sin r / r) ->
  is_exp (group_matrix x y z 0) (group_matrix (T * x) (T * y) (T * z) (cos r)).
Proof.
  intros x y z r T E H.
  assert (L : forall v w, (r = 0 -> w = 0) ->
    Un_cv (fun n => even_part r n * v + odd_part r n * w) (cos r * v + T * w)).
  { intros v w Hw; apply lin_cv; [apply even_cv|]; destruct H as [H|[H ->]]; [left; auto|right; now apply odd_cv]. }
  assert (Z : r = 0 -> x = 0 /\ y = 0 /\ z = 0).
  { intros Hr; rewrite Hr in E; repeat split; nra. }
  assert (Hx : r = 0 -> x = 0) by (intros Hr; apply Z in Hr; tauto).
  assert (Hy : r = 0 -> y = 0) by (intros Hr; apply Z in Hr; tauto).
  assert (Hz : r = 0 -> z = 0) by (intros Hr; apply Z in Hr; tauto).
  assert (G : forall v w t l, (forall n, t n = even_part r n * v + odd_part r n * w) -> (r = 0 -> w = 0) ->
    l = cos r * v + T * w -> Un_cv t l).
  { intros v w t l Ht Hw ->; apply (tail_cv (fun n => even_part r n * v + odd_part r n * w)); [intros n; now rewrite Ht|].
    now apply L. }
  assert (X : forall n, exp_sum (group_matrix x y z 0) n =
    madd (mscale (even_part r n) mone) (mscale (odd_part r n) (group_matrix x y z 0))).
  { intros n; now apply exp_sumE. }
  unfold is_exp, mcv, ccv, group_matrix; cbn [c11 c12 c21 c22 fst snd].
  assert (U : forall g : m2 -> R, forall n, g (exp_sum (group_matrix x y z 0) n) =
    g (madd (mscale (even_part r n) mone) (mscale (odd_part r n) (group_matrix x y z 0)))) by (intros g n; now rewrite X).
  assert (N : forall w, (r = 0 -> w = 0) -> r = 0 -> - w = 0) by (intros w Hw Hr; rewrite Hw by exact Hr; ring).
  repeat split.
  - apply (G 1 0); [exact (U (fun m => fst (c11 m)))|auto|ring].
  - apply (G 0 z); [exact (U (fun m => snd (c11 m)))|auto|ring].
  - apply (G 0 y); [exact (U (fun m => fst (c12 m)))|auto|ring].
  - apply (G 0 x); [exact (U (fun m => snd (c12 m)))|auto|ring].
  - apply (G 0 (- y)); [exact (U (fun m => fst (c21 m)))|auto|ring].
  - apply (G 0 x); [exact (U (fun m => snd (c21 m)))|auto|ring].
  - apply (G 1 0); [exact (U (fun m => fst (c22 m)))|auto|ring].
  - apply (G 0 (- z)); [exact (U (fun m => snd (c22 m)))|auto|ring].
Qed.

(** *** The function exp of the algebra *)

Lemma half2 : half RS = / 2.
Proof. unfold half; cbn [LinalgModel.one LinalgModel.div real_scalars MatrixModel.of_nat]; simpl; field; lra. Qed.

Lemma sq3 : forall x y z, 0 <= x * x + y * y + z * z.
Proof. intros; nra. Qed.

Definition rad (a b c : R) : R := sqrt (a * a + b * b + c * c).

Lemma rad_sq : forall a b c, rad a b c * rad a b c = a * a + b * b + c * c.
Proof. intros; unfold rad; apply sqrt_sqrt, sq3. Qed.
Lemma rad_ge0 : forall a b c, 0 <= rad a b c.
Proof. intros; apply sqrt_pos. Qed.
Lemma rad0 : forall a b c, rad a b c <= 0 -> a = 0 /\ b = 0 /\ c = 0.
Proof.
  intros a b c H; assert (E := rad_sq a b c); assert (P := rad_ge0 a b c).
  assert (Z : rad a b c = 0) by lra; rewrite Z in E; repeat split; nra.
Qed.
Lemma rad_scale : forall t a b c, rad (t * a) (t * b) (t * c) = Rabs t * rad a b c.
Proof.
  intros t a b c; unfold rad.
  replace (t * a * (t * a) + t * b * (t * b) + t * c * (t * c)) with ((t * t) * (a * a + b * b + c * c)) by ring.
  rewrite sqrt_mult_alt by nra.
  fold (Rsqr t); now rewrite sqrt_Rsqr_abs.
Qed.
Lemma rad_half : forall a b c, rad (a * / 2) (b * / 2) (c * / 2) = rad a b c / 2.
Proof.
  intros a b c; rewrite !(Rmult_comm _ (/ 2)), rad_scale, Rabs_pos_eq by lra; lra.
Qed.
Lemma rad_1 : forall a b c d, a * a + b * b + c * c + d * d = 1 -> rad a b c = sqrt (1 - d * d).
Proof. intros a b c d H; unfold rad; f_equal; lra. Qed.

Lemma alg_expE : forall a b c, alg_exp (mkAlg a b c) =
  let r := rad a b c / 2 in
  if below r 0 then su2_scalar RS 1
  else mkSu2 (sin r / r * (a * / 2)) (sin r / r * (b * / 2)) (sin r / r * (c * / 2)) (cos r).
Proof.
  intros a b c; unfold Su2Model.alg_exp, alg_scale, alg_squarenorm.
  cbn [ea eb ec]; rewrite half2; cbv zeta.
  rewrite <- rad_half; reflexivity.
Qed.

(** In one formula: along the axis (a, b, c), of length 1. *)
Lemma alg_exp_axis : forall a b c t, a * a + b * b + c * c = 1 ->
  alg_exp (mkAlg (t * a) (t * b) (t * c)) = mkSu2 (sin (t / 2) * a) (sin (t / 2) * b) (sin (t / 2) * c) (cos (t / 2)).
Proof.
  intros a b c t H; rewrite alg_expE; cbv zeta.
  assert (R1 : rad a b c = 1) by (unfold rad; rewrite H; apply sqrt_1).
  rewrite rad_scale, R1, Rmult_1_r.
  destruct (Req_EM_T t 0) as [->|t0].
  - rewrite Rabs_R0, below_true by lra; unfold su2_scalar; replace (0 / 2) with 0 by field; rewrite sin_0, cos_0.
    f_equal; cbn; ring.
  - assert (P := Rabs_pos_lt t t0); rewrite below_false by lra.
    assert (S' : sin (Rabs t / 2) / (Rabs t / 2) = sin (t / 2) / (t / 2)).
    { destruct (Rle_dec 0 t).
      - now rewrite Rabs_pos_eq.
      - rewrite Rabs_left by lra; replace (- t / 2) with (- (t / 2)) by field; rewrite sin_neg; field; exact t0. }
    assert (C' : cos (Rabs t / 2) = cos (t / 2)).
    { destruct (Rle_dec 0 t).
      - now rewrite Rabs_pos_eq.
      - rewrite Rabs_left by lra; replace (- t / 2) with (- (t / 2)) by field; apply cos_neg. }
    rewrite S', C'; f_equal; field; exact t0.
Qed.

(** Every vector is a multiple of a vector of length 1. *)
Lemma axis : forall a b c, exists x y z t, x * x + y * y + z * z = 1 /\ 0 <= t /\ t = rad a b c /\
  a = t * x /\ b = t * y /\ c = t * z.
Proof.
  intros a b c; destruct (Rle_lt_dec (rad a b c) 0) as [H|H].
  - destruct (rad0 _ _ _ H) as [-> [-> ->]]; exists 1, 0, 0, 0; repeat split; try lra.
    unfold rad; replace (0 * 0 + 0 * 0 + 0 * 0) with 0 by ring; symmetry; apply sqrt_0.
  - exists (a / rad a b c), (b / rad a b c), (c / rad a b c), (rad a b c); repeat split; try (field; lra); try lra.
    assert (E := rad_sq a b c).
    replace (a / rad a b c * (a / rad a b c) + b / rad a b c * (b / rad a b c) + c / rad a b c * (c / rad a b c))
      with ((a * a + b * b + c * c) / (rad a b c * rad a b c)) by (field; lra).
    rewrite <- E; field; lra.
Qed.

Lemma trig : forall t, sin t * sin t + cos t * cos t = 1.
Proof. intros t; exact (sin2_cos2 t). Qed.

Lemma alg_exp_series : forall e, is_exp (algebra_of f u e) (matrix_of f u (alg_exp e)).
Proof.
  intros [a b c]; unfold algebra_of, matrix_of; cbn [ea eb ec]; rewrite alg_expE; cbv zeta.
  assert (E : algebra_matrix a b c = group_matrix (a * / 2) (b * / 2) (c * / 2) 0) by reflexivity.
  rewrite E.
  assert (Q : rad a b c / 2 * (rad a b c / 2) = a * / 2 * (a * / 2) + b * / 2 * (b * / 2) + c * / 2 * (c * / 2)).
  { assert (H := rad_sq a b c); nra. }
  destruct (Rle_lt_dec (rad a b c) 0) as [H|H].
  - destruct (rad0 _ _ _ H) as [-> [-> ->]]; rewrite below_true by lra.
    assert (Z : rad 0 0 0 / 2 = 0) by (assert (P := rad_ge0 0 0 0); lra); rewrite Z in Q.
    unfold su2_scalar; cbn [qa qb qc qd LinalgModel.zero LinalgModel.one real_scalars].
    replace 1 with (cos 0) by apply cos_0.
    replace (group_matrix 0 0 0 (cos 0)) with (group_matrix (1 * (0 * / 2)) (1 * (0 * / 2)) (1 * (0 * / 2)) (cos 0)) by (f_equal; ring).
    apply exp_cv; [exact Q|left; reflexivity].
  - rewrite below_false by lra; cbn [qa qb qc qd]; apply exp_cv; [exact Q|right; split; [lra|reflexivity]].
Qed.

Lemma alg_exp_in : forall e, in_su2 f u (alg_exp e).
Proof.
  intros [a b c]; destruct (axis a b c) as (x & y & z & t & H & _ & _ & -> & -> & ->).
  rewrite alg_exp_axis by exact H; unfold in_su2; cbn [qa qb qc qd].
  assert (T := trig (t / 2)).
  replace (sin (t / 2) * x * (sin (t / 2) * x) + sin (t / 2) * y * (sin (t / 2) * y) + sin (t / 2) * z * (sin (t / 2) * z))
    with (sin (t / 2) * sin (t / 2) * (x * x + y * y + z * z)) by ring.
  rewrite H; lra.
Qed.

Lemma alg_exp_sum : forall s t a b c, alg_exp (mkAlg ((s + t) * a) ((s + t) * b) ((s + t) * c)) =
  su2_mul RS (alg_exp (mkAlg (s * a) (s * b) (s * c))) (alg_exp (mkAlg (t * a) (t * b) (t * c))).
Proof.
  intros s t a b c; destruct (axis a b c) as (x & y & z & r & H & _ & _ & -> & -> & ->).
  rewrite <- !Rmult_assoc, !alg_exp_axis by exact H.
  unfold su2_mul; cbn [qa qb qc qd real_scalars LinalgModel.add LinalgModel.mul LinalgModel.sub].
  replace ((s + t) * r / 2) with (s * r / 2 + t * r / 2) by field; rewrite sin_plus, cos_plus.
  f_equal; [ring|ring|ring|].
  replace (sin (s * r / 2) * sin (t * r / 2)) with (sin (s * r / 2) * sin (t * r / 2) * (x * x + y * y + z * z)) by (rewrite H; ring).
  ring.
Qed.

Lemma alg_exp_neg : forall a b c, alg_exp (mkAlg (- a) (- b) (- c)) = su2_dagger RS (alg_exp (mkAlg a b c)).
Proof.
  intros a b c; destruct (axis a b c) as (x & y & z & r & H & _ & _ & -> & -> & ->).
  rewrite <- !Ropp_mult_distr_l_reverse, !alg_exp_axis by exact H.
  unfold su2_dagger; cbn [qa qb qc qd real_scalars LinalgModel.opp].
  replace (- r / 2) with (- (r / 2)) by field; rewrite sin_neg, cos_neg; f_equal; ring.
Qed.

(** *** The logarithm *)

Lemma su2_logE : forall a b c d, su2_log (mkSu2 a b c d) =
  let r := rad a b c in
  if below r 0 then mkAlg 0 0 0
  else mkAlg (2 * (acos d / r) * a) (2 * (acos d / r) * b) (2 * (acos d / r) * c).
Proof.
  intros a b c d; unfold Su2Model.su2_log; cbn [qa qb qc qd].
  replace (of_nat RS 2) with 2 by (cbn; ring); reflexivity.
Qed.

Lemma abc_le : forall a b c d, a * a + b * b + c * c + d * d = 1 -> -1 <= d <= 1.
Proof. intros a b c d H; nra. Qed.

Lemma exp_log : forall a b c d, a * a + b * b + c * c + d * d = 1 -> d <> -1 ->
  alg_exp (su2_log (mkSu2 a b c d)) = mkSu2 a b c d.
Proof.
  intros a b c d H d1; rewrite su2_logE; cbv zeta.
  destruct (Rle_lt_dec (rad a b c) 0) as [Hr|Hr].
  - destruct (rad0 _ _ _ Hr) as [-> [-> ->]]; rewrite below_true by lra.
    assert (D : d = 1) by (assert ((d - 1) * (d + 1) = 0) by lra; destruct (Rmult_integral _ _ H0); lra).
    rewrite D, alg_expE; cbv zeta; rewrite below_true by lra; reflexivity.
  - rewrite below_false by lra.
    assert (B := abc_le a b c d H).
    assert (S1 : sin (acos d) = rad a b c).
    { rewrite sin_acos by exact B; unfold Rsqr; symmetry; now apply rad_1. }
    assert (B2 : -1 < d < 1).
    { assert (Q := rad_sq a b c); split; nra. }
    assert (B3 := acos_bound_lt d B2).
    set (r := rad a b c) in *.
    assert (N : a / r * (a / r) + b / r * (b / r) + c / r * (c / r) = 1).
    { assert (E := rad_sq a b c); fold r in E.
      replace (a / r * (a / r) + b / r * (b / r) + c / r * (c / r)) with ((a * a + b * b + c * c) / (r * r)) by (field; lra).
      rewrite <- E; field; lra. }
    replace (2 * (acos d / r) * a) with (2 * acos d * (a / r)) by (field; lra).
    replace (2 * (acos d / r) * b) with (2 * acos d * (b / r)) by (field; lra).
    replace (2 * (acos d / r) * c) with (2 * acos d * (c / r)) by (field; lra).
    rewrite alg_exp_axis by exact N.
    replace (2 * acos d / 2) with (acos d) by field.
    rewrite S1, cos_acos by exact B; f_equal; field; lra.
Qed.

Lemma log_exp : forall a b c, length_of f u (mkAlg a b c) < 2 * PI -> su2_log (alg_exp (mkAlg a b c)) = mkAlg a b c.
Proof.
  intros a b c H; unfold length_of in H; cbn [ea eb ec] in H; fold (rad a b c) in H.
  rewrite alg_expE; cbv zeta.
  destruct (Rle_lt_dec (rad a b c) 0) as [Hr|Hr].
  - destruct (rad0 _ _ _ Hr) as [-> [-> ->]]; rewrite below_true by lra.
    unfold su2_scalar; rewrite su2_logE; cbv zeta; cbn [LinalgModel.zero real_scalars]; rewrite below_true by lra; reflexivity.
  - rewrite below_false by lra; rewrite su2_logE; cbv zeta.
    set (r := rad a b c / 2) in *; assert (r0 : 0 < r < PI) by (unfold r; lra).
    assert (s0 := sin_gt_0 r (proj1 r0) (proj2 r0)).
    rewrite rad_scale, rad_half; fold r.
    rewrite Rabs_pos_eq by (apply Rlt_le, Rdiv_lt_0_compat; lra).
    replace (sin r / r * r) with (sin r) by (field; lra).
    rewrite below_false by lra; rewrite acos_cos by lra.
    f_equal; field; lra.
Qed.

End Exp.
