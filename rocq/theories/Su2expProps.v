(** Exponential and logarithm of SU(2). *)
From Coq Require Import Reals Arith Lra Lia.
From Verif Require Import LinalgModel Su2Model Su2expSpec Su2expProofs1.
Local Open Scope R_scope.

(** C76: exp() of the algebra is the limit of the exponential series of the matrix
    (i / 2) (a s1 + b s2 + c s3), and an element of SU(2). *)
Theorem C76_exp : forall (f : R -> R) (u : R) (e : su2_algebra (real_scalars f u)),
  let U := alg_exp (real_scalars f u) sqrt sin cos e in
  is_exp (algebra_of f u e) (matrix_of f u U) /\ in_su2 f u U.
Proof. intros f u e U; split; [apply alg_exp_series|apply alg_exp_in]. Qed.
Print Assumptions C76_exp.

(** Steps along one direction add up, and the step back is the adjoint. *)
Theorem C76_steps : forall (f : R -> R) (u : R) (a b c s t : R),
  let RS := real_scalars f u in
  let E r := alg_exp RS sqrt sin cos (mkAlg RS (r * a) (r * b) (r * c)) in
  E (s + t) = su2_mul RS (E s) (E t) /\
  alg_exp RS sqrt sin cos (mkAlg RS (- a) (- b) (- c)) =
    su2_dagger RS (alg_exp RS sqrt sin cos (mkAlg RS a b c)).
Proof. intros f u a b c s t RS E; split; [apply alg_exp_sum|apply alg_exp_neg]. Qed.
Print Assumptions C76_steps.

(** exp(log(U)) is U for every U in SU(2) but -1, and log(exp(E)) is E for every E
    shorter than 2 pi. *)
Theorem C76_log : forall (f : R -> R) (u : R),
  let RS := real_scalars f u in
  let exp := alg_exp RS sqrt sin cos in
  let log := su2_log RS sqrt acos in
  (forall U, in_su2 f u U -> U <> mkSu2 RS 0 0 0 (-1) -> exp (log U) = U) /\
  (forall E, length_of f u E < 2 * PI -> log (exp E) = E).
Proof.
  intros f u RS exp log; split.
  - intros [a b c d] H N; unfold in_su2 in H; cbn [qa qb qc qd] in H; apply exp_log; [exact H|].
    intros ->; apply N; assert (a = 0) by nra; assert (b = 0) by nra; assert (c = 0) by nra; now subst.
  - intros [a b c] H; now apply log_exp.
Qed.
Print Assumptions C76_log.

(** At -1 it is not: log gives 0, whose exponential is 1, although -1 is the
    exponential of an element of the algebra. *)
Theorem C76_log_refuted : forall (f : R -> R) (u : R),
  let RS := real_scalars f u in
  let exp := alg_exp RS sqrt sin cos in
  let log := su2_log RS sqrt acos in
  exists U, in_su2 f u U /\ (exists E, exp E = U) /\ exp (log U) <> U.
Proof.
  intros f u RS exp log; exists (mkSu2 RS 0 0 0 (-1)); repeat split.
  - unfold in_su2; cbn [qa qb qc qd]; ring.
  - exists (mkAlg RS (2 * PI * 1) (2 * PI * 0) (2 * PI * 0)); unfold exp, RS; rewrite alg_exp_axis by ring.
    replace (2 * PI / 2) with PI by field; rewrite sin_PI, cos_PI; f_equal; ring.
  - unfold exp, log, RS; rewrite su2_logE; cbv zeta.
    assert (Z : rad 0 0 0 = 0) by (unfold rad; replace (0 * 0 + 0 * 0 + 0 * 0) with 0 by ring; apply sqrt_0).
    rewrite Z, below_true by lra; rewrite alg_expE; cbv zeta; rewrite Z, below_true by lra.
    unfold su2_scalar; intros K; injection K; lra.
Qed.
Print Assumptions C76_log_refuted.

(** exp() of SU2 is right for multiples of the unit matrix.  Elsewhere, if the sine
    is not 0, its result depends on what its memory holds before, so that there
    is no function it computes. *)
Theorem C76_su2_exp_refuted : forall (f : R -> R) (u : R) (q : su2 (real_scalars f u)),
  let RS := real_scalars f u in
  let r := sqrt (qa RS q * qa RS q + qb RS q * qb RS q + qc RS q * qc RS q) in
  (r = 0 -> forall before, su2_exp RS sqrt exp sin cos before q = mkSu2 RS 0 0 0 (exp (qd RS q))) /\
  (sin r <> 0 -> forall B, exists before, su2_exp RS sqrt exp sin cos before q <> B).
Proof.
  intros f u q RS r; split.
  - intros r0 before; unfold su2_exp; cbv zeta.
    cbn [LinalgModel.leq LinalgModel.mul LinalgModel.add LinalgModel.zero LinalgModel.div RS real_scalars].
    fold r; rewrite below_true by lra; reflexivity.
  - intros s0 B.
    assert (rp : 0 < r).
    { assert (0 <= r) by apply sqrt_pos; destruct (Req_dec r 0) as [E|E]; [rewrite E, sin_0 in s0; lra|lra]. }
    exists (mkSu2 RS ((qa RS B + 1) / (exp (qd RS q) * sin r / r)) 0 0 0).
    unfold su2_exp; cbv zeta.
    cbn [LinalgModel.leq LinalgModel.mul LinalgModel.add LinalgModel.zero LinalgModel.div RS real_scalars].
    fold r; rewrite below_false by lra.
    intros K; apply (f_equal (qa _)) in K; cbn [qa] in K.
    assert (e0 := exp_pos (qd RS q)).
    assert (E : (qa RS B + 1) / (exp (qd RS q) * sin r / r) * (exp (qd RS q) * sin r / r) = qa RS B + 1).
    { field; repeat split; lra. }
    unfold RS in *; rewrite E in K; lra.
Qed.
Print Assumptions C76_su2_exp_refuted.

(** Instances: a vector shorter than 2 pi that is not 0, an SU2 that is not +-1,
    and one at which the sine is not 0. *)
Example C76_hypotheses : forall (f : R -> R) (u : R),
  let RS := real_scalars f u in
  length_of f u (mkAlg RS 3 0 4) < 2 * PI /\
  in_su2 f u (mkSu2 RS (1 / 5) (2 / 5) (4 / 5) (2 / 5)) /\
  sin (sqrt (PI / 2 * (PI / 2) + 0 * 0 + 0 * 0)) <> 0.
Proof.
  intros f u RS; repeat split.
  - unfold length_of; cbn [ea eb ec]; replace (3 * 3 + 0 * 0 + 4 * 4) with (5 * 5) by ring.
    rewrite sqrt_square by lra; assert (P := PI_4); assert (Q := PI2_3_2); lra.
  - unfold in_su2; cbn [qa qb qc qd]; field.
  - replace (PI / 2 * (PI / 2) + 0 * 0 + 0 * 0) with (PI / 2 * (PI / 2)) by ring.
    assert (P := PI_RGT_0); rewrite sqrt_square by lra; rewrite sin_PI2; lra.
Qed.

(** The exponential of a quarter turn about the third axis. *)
Example C76_example : forall (f : R -> R) (u : R),
  let RS := real_scalars f u in
  alg_exp RS sqrt sin cos (mkAlg RS (PI * 0) (PI * 0) (PI * 1)) = mkSu2 RS 0 0 1 0.
Proof.
  intros f u RS; unfold RS; rewrite alg_exp_axis by ring; rewrite sin_PI2, cos_PI2; f_equal; ring.
Qed.
