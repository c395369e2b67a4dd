(** Theorems about the conjugate gradient solver: property C47. *)
From Coq Require Import List Bool Field_theory Field Lia Arith QArith Qcanon.
From Verif Require Import CgModel CgSpec CgProofs1 CgProofs2.
Import ListNotations.
Open Scope nat_scope.

(** ** An example: rational numbers, two components *)

Definition Qc_scalar : scalar :=
  mkScalar Qc 0%Qc 1%Qc Qcplus Qcminus Qcmult Qcdiv
    (fun x => Qc_eq_bool x 0%Qc) (fun x y => negb (Qle_bool (this y) (this x))).

Lemma qc_less x y : less Qc_scalar x y = true <-> (x < y)%Qc.
Proof.
  cbn. unfold Qclt. rewrite negb_true_iff. split.
  - intros H. apply Qnot_le_lt. intros L. apply Qle_bool_iff in L. congruence.
  - intros H. destruct (Qle_bool y x) eqn:E; [|reflexivity].
    apply Qle_bool_iff in E. apply Qle_not_lt in E. contradiction.
Qed.

Lemma Qc_ordered : ordered_field Qc_scalar.
Proof.
  constructor.
  - cbn. constructor.
    + constructor; intros; cbn; ring.
    + discriminate.
    + intros. cbn. unfold Qcdiv. ring.
    + intros p H. cbn. field. exact H.
  - intros x. cbn. split; [apply Qc_eq_bool_correct|].
    intros ->. reflexivity.
  - intros x. destruct (less Qc_scalar x x) eqn:E; [|reflexivity].
    apply qc_less in E. apply Qclt_not_eq in E. destruct (E eq_refl).
  - intros x y z A B. apply qc_less. apply qc_less in A, B. eapply Qclt_trans; eassumption.
  - intros x y N. destruct (Qc_dec x y) as [[H|H]|H].
    + left. apply qc_less, H.
    + right. apply qc_less, H.
    + contradiction.
  - intros x y z H. apply qc_less. apply qc_less in H. cbn.
    unfold Qclt, Qcplus, Q2Qc in *. cbn [this]. rewrite !Qred_correct.
    apply Qplus_lt_le_compat; [exact H|apply Qle_refl].
  - intros x y A B. apply qc_less. apply qc_less in A, B.
    change (0 < x * y)%Qc. change (0 < x)%Qc in A. change (0 < y)%Qc in B.
    replace 0%Qc with (0 * y)%Qc by ring. apply Qcmult_lt_compat_r; assumption.
Qed.

(** The matrices (1 1; 0 1) and its transpose, on two components. *)
Definition example_apply (v : list Qc) : list Qc :=
  match v with [x; y] => [(x + y)%Qc; y] | _ => v end.
Definition example_dagger (v : list Qc) : list Qc :=
  match v with [x; y] => [x; (x + y)%Qc] | _ => v end.

Ltac entries := repeat apply (f_equal2 (@cons Qc)); first [ring|reflexivity].
Ltac two v := destruct v as [|? [|? [|? ?]]]; try discriminate.

Example example_linear :
  linear Qc_scalar 2 example_apply /\ linear Qc_scalar 2 example_dagger /\
  adjoint Qc_scalar 2 example_apply example_dagger /\
  injective Qc_scalar 2 example_apply.
Proof.
  unfold vec. split; [|split; [|split]].
  - constructor; unfold vec; intros; cbn in *.
    + two u. reflexivity.
    + two u. two v. cbn. entries.
    + two u. cbn. entries.
  - constructor; unfold vec; intros; cbn in *.
    + two u. reflexivity.
    + two u. two v. cbn. entries.
    + two u. cbn. entries.
  - intros u v U V. unfold vec in *. cbn in *. two u. two v. cbn. ring.
  - intros u U E. unfold vec in U.
    destruct u as [|q [|q0 [|? ?]]]; try discriminate.
    change ([(q + q0)%Qc; q0] = [0%Qc; 0%Qc]) in E.
    assert (E2 : q0 = 0%Qc) by congruence.
    assert (E1 : (q + q0 = 0)%Qc) by congruence. rewrite E2 in *.
    change ([q; 0%Qc] = [0%Qc; 0%Qc]). change (num Qc_scalar) with Qc in *.
    replace q with (q + 0)%Qc by ring. rewrite E1. reflexivity.
Qed.

(** ** The residual *)

(** Whenever the solver returns after at least one allowed iteration, the sum
    of squares it reports is that of source minus operator applied to the
    returned field; if it stopped because this was small, the field solves the
    equation to the requested accuracy; otherwise all iterations were used.
    Since the number of allowed iterations is arbitrary, this says that the
    residual is the true one at every iteration. *)
Theorem C47_residual : forall S m apply dagger accuracy maxiters source guess
    iterations out rrnew converged,
  ordered_field S -> linear S m apply -> linear S m dagger ->
  vec S m source -> vec S m guess -> maxiters <> 0 ->
  cg S apply dagger accuracy maxiters source guess =
    Finished iterations out rrnew converged ->
  vec S m out /\
  rrnew = squarenorm S (vsub S source (dagger (apply out))) /\
  if converged then
    less S rrnew (times S (times S accuracy accuracy) (squarenorm S source)) = true /\
    iterations < maxiters
  else iterations = maxiters.
Proof.
  intros S m D D' acc maxi b x n out s c O L L' B X M E. unfold cg in E.
  pose proof (loop_residual S O m D D' L L' b B
    (times S (times S acc acc) (squarenorm S b)) maxi 0 x
    (vsub S b (D' (D x))) (vsub S b (D' (D x))) (squarenorm S (vsub S b (D' (D x)))) (zero S)) as H.
  rewrite E in H. rewrite Nat.add_0_r in H. apply H; auto.
  - apply vsub_vec; [exact B|]. apply (A_vec S m D D' L L'), X.
  - apply vsub_vec; [exact B|]. apply (A_vec S m D D' L L'), X.
  - reflexivity.
Qed.
Print Assumptions C47_residual.

Example residual_example :
  match cg Qc_scalar example_apply example_dagger (Q2Qc (1 # 100)) 5
    [Q2Qc 1; Q2Qc 2] [Q2Qc 0; Q2Qc 0] with
  | Undefined => False
  | Finished n out rrnew converged =>
      n = 1 /\ map this out = [0%Q; 1%Q] /\ this rrnew = 0%Q /\ converged = true
  end.
Proof. vm_compute. repeat split. Qed.

(** ** Division by zero *)

(** For an invertible operator with the right adjoint, the solver divides by
    zero exactly if the field is an exact solution at the start of one of the
    iterations: the run that was allowed only [k] iterations ended there, not
    below the target. *)
Theorem C47_undefined : forall S m apply dagger accuracy maxiters source guess,
  ordered_field S -> linear S m apply -> linear S m dagger ->
  adjoint S m apply dagger -> injective S m apply ->
  vec S m source -> vec S m guess ->
  (cg S apply dagger accuracy maxiters source guess = Undefined <->
   exists k out rr, k < maxiters /\
     cg S apply dagger accuracy k source guess = Finished k out rr false /\
     dagger (apply out) = source).
Proof.
  intros S m D D' acc maxi b x O L L' Ad In B X. unfold cg.
  pose proof (inv_start S O m D D' L L' b B x X) as I0. split.
  - intros E.
    destruct (loop_undefined S O m D D' L L' b B Ad In _ _ _ _ _ _ _ _ _ _ I0
                (or_introl eq_refl) E) as (k & x' & s & Hk & E1 & E2).
    exists k, x', s. rewrite Nat.add_0_r in E1. auto.
  - intros (k & x' & s & Hk & E1 & E2).
    apply (loop_exact S O m D D' L L' b B Ad _ _ _ _ _ _ _ _ _ _ k x' s I0);
      [|exact Hk|rewrite Nat.add_0_r; exact E1|exact E2].
    intros Z. apply (norm_zero S O m); [|exact Z].
    apply vsub_vec; [exact B|]. apply (A_vec S m D D' L L'), X.
Qed.
Print Assumptions C47_undefined.

(** In particular for an exact starting guess ... *)
Theorem C47_exact_guess_refuted : forall S m apply dagger accuracy maxiters guess,
  ordered_field S -> linear S m apply -> linear S m dagger ->
  adjoint S m apply dagger -> injective S m apply ->
  vec S m guess -> maxiters <> 0 ->
  cg S apply dagger accuracy maxiters (dagger (apply guess)) guess = Undefined.
Proof.
  intros S m D D' acc maxi x O L L' Ad In X M.
  apply (C47_undefined S m); auto.
  - apply (A_vec S m D D' L L'), X.
  - exists 0, x, (zero S). split; [lia|]. split; reflexivity.
Qed.
Print Assumptions C47_exact_guess_refuted.

(** ... and for a zero source and a zero starting guess. *)
Theorem C47_zero_source_refuted : forall S m apply dagger accuracy maxiters,
  ordered_field S -> linear S m apply -> linear S m dagger ->
  adjoint S m apply dagger -> injective S m apply -> maxiters <> 0 ->
  cg S apply dagger accuracy maxiters (zeros S m) (zeros S m) = Undefined.
Proof.
  intros S m D D' acc maxi O L L' Ad In M.
  rewrite <- (D_zero S O m D' L') at 1. rewrite <- (D_zero S O m D L) at 1.
  apply (C47_exact_guess_refuted S m); auto. apply zeros_vec.
Qed.
Print Assumptions C47_zero_source_refuted.

Example zero_source_example :
  cg Qc_scalar example_apply example_dagger (Q2Qc (1 # 100)) 5
    [Q2Qc 0; Q2Qc 0] [Q2Qc 0; Q2Qc 0] = Undefined.
Proof. vm_compute. reflexivity. Qed.

(** ** Convergence *)

(** In exact arithmetic the solver reaches any positive target within as many
    iterations as there are components, unless the guess is exact. *)
Theorem C47_converges : forall S m apply dagger accuracy maxiters source guess,
  ordered_field S -> linear S m apply -> linear S m dagger ->
  adjoint S m apply dagger -> injective S m apply ->
  vec S m source -> vec S m guess ->
  less S (zero S) (times S (times S accuracy accuracy) (squarenorm S source)) = true ->
  dagger (apply guess) <> source -> m <= maxiters ->
  exists iterations out rrnew,
    cg S apply dagger accuracy maxiters source guess = Finished iterations out rrnew true /\
    iterations < maxiters /\
    less S (squarenorm S (vsub S source (dagger (apply out))))
      (times S (times S accuracy accuracy) (squarenorm S source)) = true.
Proof.
  intros S m D D' acc maxi b x O L L' Ad In B X Ht Ne M.
  pose proof (inv_start S O m D D' L L' b B x X) as I0.
  assert (Nr : squarenorm S (vsub S b (D' (D x))) <> zero S).
  { intros Z. destruct (rr_zero S O m D D' L L' b B _ _ _ _ _ _ I0 Z) as [_ E]. contradiction. }
  assert (Hm : maxi <> 0).
  { intros ->. apply Nr. assert (m = 0) by lia. subst m.
    assert (V : vec S 0 (vsub S b (D' (D x))))
      by (apply vsub_vec; [exact B|apply (A_vec S 0 D D' L L'), X]).
    unfold vec in V. destruct (vsub S b (D' (D x))); [reflexivity|discriminate]. }
  destruct (loop_converges S O m D D' L L' b B Ad In _ Ht maxi 0 [] [] x _ _ _ (zero S) I0 Nr)
    as (n & x' & s & E); [cbn; lia|lia|].
  exists n, x', s. split; [exact E|].
  destruct (C47_residual S m D D' acc maxi b x n x' s true) as (_ & Es & E1 & E2); auto.
  split; [exact E2|]. rewrite <- Es. exact E1.
Qed.
Print Assumptions C47_converges.

Example converges_example :
  less Qc_scalar 0%Qc (Q2Qc (1 # 10) * Q2Qc (1 # 10) * squarenorm Qc_scalar [Q2Qc 1; Q2Qc 2])%Qc
    = true /\
  example_dagger (example_apply [Q2Qc 0; Q2Qc 0]) <> [Q2Qc 1; Q2Qc 2].
Proof. split; [reflexivity|]. vm_compute. discriminate. Qed.
