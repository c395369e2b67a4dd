(** C49: the staggered Dirac operators. *)
From Coq Require Import ZArith List Bool Lia QArith Qcanon.
From Verif Require Import Common GaugeModel GaugeSpec GaugeProofs1 GaugeMatrix GaugeProps
  DiracModel DiracSpec DiracProofs1 DiracMatrix.
Import ListNotations.
Open Scope Z_scope.

(** ** An example: quaternions act on quaternions *)

Definition quaternion_vectors : vectors quaternions :=
  mkVectors quaternions quat
     (* vzero *) (Quat 0 0 0 0)
     (* vadd *) (madd quaternions)
     (* vsub *) (fun a b => (Quat (q0 a - q0 b) (q1 a - q1 b) (q2 a - q2 b) (q3 a - q3 b))%Qc)
     (* vneg *) (fun a => (Quat (- q0 a) (- q1 a) (- q2 a) (- q3 a))%Qc)
     (* vscale *) (fun r a => (Quat (r * q0 a) (r * q1 a) (r * q2 a) (r * q3 a))%Qc)
     (* act *) (mul quaternions)
     (* half *) (fun k => Q2Qc (inject_Z k / 2))
     (* rinv *) Qcinv.

Definition quaternion_dot (a b : quat) : Qc :=
  (q0 a * q0 b + q1 a * q1 b + q2 a * q2 b + q3 a * q3 b)%Qc.

Lemma quaternion_dot_laws :
  dot_laws quaternions quaternion_vectors quaternion_dot Qcopp Qcmult.
Proof.
  constructor; unfold quaternion_dot; cbn; intros;
    repeat match goal with a : quat |- _ => destruct a end; cbn; try ring.
  assert (E : Q2Qc (inject_Z (- k) / 2) = (- Q2Qc (inject_Z k / 2))%Qc).
  { apply Qc_is_canon. unfold Qcopp, Q2Qc. cbn [this]. rewrite !Qred_correct.
    unfold Qeq, inject_Z, Qdiv, Qinv, Qmult, Qopp. cbn [Qnum Qden]. lia. }
  rewrite E. ring.
Qed.

(** n component complex vectors. *)
Theorem C49_complex : forall C n,
  dot_laws (complex_matrices C n) (complex_vectors C n) (@complex_dot C n)
    (@complex_neg C) (@complex_scale C).
Proof. exact complex_dot_laws. Qed.
Print Assumptions C49_complex.

(** ** The operator on all sites *)

(** dagger() is the adjoint of apply(), and apply() of dagger(), for every
    lattice, boundary conditions, gauge field and mass. *)
Theorem C49_adjoint : forall M, matrix_laws M -> forall V dot cneg cscale,
  dot_laws M V dot cneg cscale -> forall L, sizes L ->
  forall anti stale stale' gauge mass,
  adjoint_of dot L ALL (apply V L anti stale gauge mass) (dagger_op V L anti stale' gauge mass) /\
  adjoint_of dot L ALL (dagger_op V L anti stale gauge mass) (apply V L anti stale' gauge mass).
Proof.
  intros M W V dot cneg cscale D L HL anti stale stale' gauge mass. split.
  - exact (operator_adjoint M W V dot cneg cscale D L HL 1 anti stale stale' gauge mass).
  - exact (operator_adjoint M W V dot cneg cscale D L HL (-1) anti stale stale' gauge mass).
Qed.
Print Assumptions C49_adjoint.

Lemma eta_sign : forall L x, on_lattice L x -> forall d, 1 * staggered_eta d x = - eta d x.
Proof.
  intros L x Hx d. unfold staggered_eta, eta.
    assert (S : forall d y, fold_left (fun s d2 => s + coordinate d2 y) (seq 0 d) 0
        = zsum (firstn d y)).
    { assert (S' : forall d (y : site) k z, fold_left (fun s d2 => s + coordinate d2 y) (seq k d) z
        = z + zsum (firstn d (skipn k y))).
      { induction d0 as [|d0 IH]; intros y k z; cbn [seq fold_left].
        - change (firstn 0 (skipn k y)) with (@nil Z). unfold zsum; cbn. lia.
        - rewrite IH. unfold coordinate.
          assert (K : skipn k y = [] \/ skipn k y = nth k y 0 :: skipn (S k) y).
          { clear. revert k. induction y as [|b y IHy]; intros k; [left; destruct k; reflexivity|].
            destruct k; [right; reflexivity|]. apply IHy. }
          destruct K as [K|K].
          + assert (L1 : (length y <= k)%nat).
            { pose proof (f_equal (@length Z) K) as E. rewrite skipn_length in E. cbn in E. lia. }
            rewrite (nth_overflow y 0 L1), K.
            rewrite (skipn_all2 y (n := S k)) by lia. rewrite !firstn_nil. lia.
          + rewrite K. cbn [firstn]. rewrite zsum_cons. lia. }
      intros d0 y. rewrite S'. reflexivity. }
    rewrite S. set (s := zsum (firstn d x)).
    assert (P : 0 <= s).
    { unfold s. clear -Hx. revert d. induction Hx as [|l a L x Ha H IH]; intros d.
      - rewrite firstn_nil. cbn. lia.
      - destruct d; cbn [firstn]; [cbn; lia|]. rewrite zsum_cons. specialize (IH d). lia. }
    rewrite Z.rem_mod_nonneg by lia. rewrite Zeven_mod.
    pose proof (Z.mod_pos_bound s 2 ltac:(lia)).
    destruct (Zeq_bool (s mod 2) 0) eqn:B.
    - apply Zeq_bool_eq in B. rewrite B. reflexivity.
    - apply Zeq_bool_neq in B. replace (s mod 2) with 1 by lia. reflexivity.
Qed.

Lemma hops_hopping : forall M (V : vectors M) L anti gauge v z x, on_lattice L x ->
  hops M V L anti gauge 1 v z x = add_hopping V L anti gauge v z x.
Proof.
  intros M V L anti gauge v z x Hx. unfold hops, add_hopping, term. revert z.
  generalize (directions L).
  induction l as [|d l IH]; intros z; cbn [fold_left]; [reflexivity|].
  rewrite IH, (eta_sign L x Hx). reflexivity.
Qed.

(** What apply() computes: the mass term and the symmetric difference with
    phases; the phases have the sign opposite to the documented ones. *)
Theorem C49_apply : forall M (V : vectors M) L, sizes L ->
  forall anti stale gauge mass v x, on_lattice L x ->
  apply V L anti stale gauge mass v x
  = add_hopping V L anti gauge v (vadd V (vzero V) (vscale V mass (v x))) x.
Proof.
  intros M V L HL anti stale gauge mass v x Hx. unfold apply.
  rewrite operator_form by assumption. apply hops_hopping; assumption.
Qed.
Print Assumptions C49_apply.

(** The comment in the code: +1 if sumcoord is divisible by 2. *)
Theorem C49_eta_refuted : exists d x, on_lattice [2; 2] x /\ staggered_eta d x <> eta d x.
Proof. exists 0%nat, [0; 0]. split; [repeat constructor; lia|discriminate]. Qed.
Print Assumptions C49_eta_refuted.

(** ** The even-odd operator *)

(** On lattices with even sizes dagger() is the adjoint of apply(), for the
    scalar product over the even sites. *)
Theorem C49_evenodd_adjoint : forall M, matrix_laws M -> forall V dot cneg cscale,
  dot_laws M V dot cneg cscale -> forall L, sizes L -> even_sizes L ->
  forall anti s1 s2 s3 s4 gauge mass,
  adjoint_of dot L EVEN (evenodd_apply V L anti s1 s2 gauge mass)
    (evenodd_dagger V L anti s3 s4 gauge mass).
Proof.
  intros M W V dot cneg cscale D L HL HE anti s1 s2 s3 s4 gauge mass.
  exact (evenodd_adjoint M W V dot cneg cscale D L HL 1 anti s1 s2 s3 s4 gauge mass HE).
Qed.
Print Assumptions C49_evenodd_adjoint.

(** What apply() computes at the even sites: the hopping term of 1/m times the
    hopping term at the odd sites is added to the mass term. *)
Theorem C49_evenodd_apply : forall M (V : vectors M) L, sizes L -> even_sizes L ->
  forall anti stale stale' gauge mass v x, on_lattice L x -> has_parity EVEN x = true ->
  evenodd_apply V L anti stale stale' gauge mass v x
  = add_hopping V L anti gauge
      (fun y => vscale V (rinv V mass) (add_hopping V L anti gauge v (vzero V) y))
      (vadd V (vzero V) (vscale V mass (v x))) x.
Proof.
  intros M V L HL HE anti stale stale' gauge mass v x Hx Px. unfold evenodd_apply.
  rewrite evenodd_form by assumption. rewrite <- hops_hopping by assumption.
  apply hops_ext; try assumption. intros y Hy _. unfold odd_part.
  rewrite hops_hopping by assumption. reflexivity.
Qed.
Print Assumptions C49_evenodd_apply.

(** The example: a vector field on the 2 x 4 lattice, antiperiodic in
    direction 1. *)
Definition psi24 : site -> quat := fun x =>
  match coordinate 1 x with
  | 0 => qi | 1 => Quat 1 (Q2Qc (coordinate 0 x # 1)) 0 0 | 2 => q345 | _ => qj
  end.
Definition chi24 : site -> quat := fun x =>
  if coordinate 0 x =? 0 then q345 else Quat 0 1 1 (Q2Qc (coordinate 1 x # 1)).
Definition anti24 (d : nat) : bool := (d =? 1)%nat.
Definition stale0 (d : nat) (x : site) : quat := qi.

Example adjoint_example :
  this (field_dot (V := quaternion_vectors) quaternion_dot L24 ALL chi24
    (apply quaternion_vectors L24 anti24 stale0 U24 (Q2Qc (1 # 2)) psi24)) = (84 # 25)%Q /\
  this (field_dot (V := quaternion_vectors) quaternion_dot L24 ALL
    (dagger_op quaternion_vectors L24 anti24 stale0 U24 (Q2Qc (1 # 2)) chi24) psi24) = (84 # 25)%Q /\
  this (field_dot (V := quaternion_vectors) quaternion_dot L24 EVEN chi24
    (evenodd_apply quaternion_vectors L24 anti24 stale0 stale0 U24 (Q2Qc (1 # 2)) psi24)) = (-(159 # 25))%Q /\
  this (field_dot (V := quaternion_vectors) quaternion_dot L24 EVEN
    (evenodd_dagger quaternion_vectors L24 anti24 stale0 stale0 U24 (Q2Qc (1 # 2)) chi24) psi24)
    = (-(159 # 25))%Q.
Proof. repeat split; vm_compute; reflexivity. Qed.

(** ** The even-odd operator is not the Schur complement *)

(** If D psi = phi with phi = 0 on the odd sites, the even sites satisfy
    (m - D_eo D_oe / m) psi = phi.  The code computes m + D_eo D_oe / m: here
    the operator of mass 1 maps a non-zero vector to zero, while D psi does
    not vanish (D is invertible for every mass that is not 0). *)
Definition L4 : list Z := [4].
Definition U1 (d : nat) (x : site) : quat := Quat 1 0 0 0.
Definition psi4 (x : site) : quat :=
  match coordinate 0 x with
  | 0 => Quat 1 0 0 0 | 1 => Quat (- (1)) 0 0 0 | 2 => Quat (- (1)) 0 0 0 | _ => Quat 1 0 0 0
  end.

Theorem C49_evenodd_refuted :
  exists M V L gauge mass psi, matrix_laws M /\ sizes L /\ even_sizes L /\
    (exists dot cneg cscale, dot_laws M V dot cneg cscale) /\
    let none (_ : nat) := false in
    let zero (_ : nat) (_ : site) := vzero V in
    (forall x, on_lattice L x -> has_parity ODD x = true ->
       apply V L none zero gauge mass psi x = vzero V) /\
    (forall x, on_lattice L x -> has_parity EVEN x = true ->
       evenodd_apply V L none zero zero gauge mass psi x = vzero V /\
       apply V L none zero gauge mass psi x <> vzero V).
Proof.
  exists quaternions, quaternion_vectors, L4, U1, 1%Qc, psi4.
  split; [exact quaternion_laws|]. split; [repeat constructor|]. split; [repeat constructor|].
  split; [eexists _, _, _; exact quaternion_dot_laws|]. cbv zeta.
  assert (A : forall x, on_lattice L4 x -> x = [0] \/ x = [1] \/ x = [2] \/ x = [3]).
  { intros x H. inversion H as [|? a ? y Ha Hy]; subst. inversion Hy; subst.
    assert (a = 0 \/ a = 1 \/ a = 2 \/ a = 3) as [E|[E|[E|E]]] by lia; subst; auto. }
  assert (Q : forall q : quat, show q = map this [0; 0; 0; 0]%Qc ->
      q = vzero quaternion_vectors).
  { intros [a b c d] H. cbn in H. injection H as H0 H1 H2 H3. cbn.
    f_equal; apply Qc_is_canon; [rewrite H0|rewrite H1|rewrite H2|rewrite H3]; reflexivity. }
  split.
  - intros x Hx Px. destruct (A x Hx) as [->|[->|[->| ->]]]; try discriminate Px;
      apply Q; vm_compute; reflexivity.
  - intros x Hx Px. destruct (A x Hx) as [->|[->|[->| ->]]]; try discriminate Px;
      (split; [apply Q; vm_compute; reflexivity|]);
      intros E; apply (f_equal show) in E; vm_compute in E; discriminate.
Qed.
Print Assumptions C49_evenodd_refuted.
