(** C46: integrators; C58: the hybrid Monte Carlo update. *)
From Coq Require Import ZArith QArith Qcanon List Lia.
From Verif Require Import IntegratorModel IntegratorSpec IntegratorProofs1.
Import ListNotations.
Open Scope Q_scope.

(** A step of size eps followed by one of size -eps restores links and
    momenta, for every hierarchy of integrators and all numbers of steps. *)
Theorem C46_reversible : forall D i eps s,
  reversible D -> matching s -> step D i (- eps) (step D i eps s) = s.
Proof. intros D i eps s R H. apply step_back; [exact R|reflexivity|exact H]. Qed.
Print Assumptions C46_reversible.

(** So does reversing the momenta: a step, a reversal, a step, a reversal. *)
Theorem C46_momentum_flip : forall D neg i eps s,
  reversible D -> flips D neg -> matching s ->
  flip neg (step D i eps (flip neg (step D i eps s))) = s.
Proof.
  intros D neg i eps s R F H.
  rewrite (step_flip D neg F i eps (- eps)) by reflexivity.
  rewrite (flip_twice D neg F). apply step_back; [exact R|reflexivity|exact H].
Qed.
Print Assumptions C46_momentum_flip.

(** Without forces a step moves every link by its momentum for the time eps. *)
Theorem C46_time : forall D i eps s,
  additive D -> no_force D -> (forall j u, length (force D j u) = length u) ->
  proper i -> matching s ->
  step D i eps s = gauge_update D eps s.
Proof. intros D i eps s A N L P H. apply step_free; assumption. Qed.
Print Assumptions C46_time.

(** With links that stay, a step changes the momenta by the forces of all
    terms, of all levels, for the time eps. *)
Theorem C46_forces : forall D i eps s,
  additive D -> frozen D -> (forall j u, length (force D j u) = length u) ->
  proper i -> matching s ->
  step D i eps s = pushed D (all_terms i) eps s.
Proof. intros D i eps s A N L P H. apply step_frozen; assumption. Qed.
Print Assumptions C46_forces.

Lemma qc_add e e' e'' : e'' == e + e' -> Q2Qc e'' = (Q2Qc e + Q2Qc e')%Qc.
Proof.
  intros H. unfold Qcplus. apply Q2Qc_eq_iff. rewrite H. cbn. rewrite !Qred_correct. reflexivity.
Qed.

Lemma qc_opp e e' : e' == - e -> Q2Qc e' = (- Q2Qc e)%Qc.
Proof.
  intros H. unfold Qcopp. apply Q2Qc_eq_iff. rewrite H. cbn. rewrite !Qred_correct. reflexivity.
Qed.

(** A level without steps of the lower level does not advance. *)
Theorem C46_time_refuted :
  ~ (forall D i eps s,
      additive D -> no_force D -> (forall j u, length (force D j u) = length u) ->
      matching s -> step D i eps s = gauge_update D eps s).
Proof.
  intros H.
  pose (D := mkDynamics Qc Qc (fun e p g => (g + Q2Qc e * p)%Qc) (fun _ _ p => p)
               (fun _ u => u)).
  assert (A : additive D).
  { split; cbn; intros; [|reflexivity|reflexivity].
    rewrite (qc_add e e' e'') by assumption. ring. }
  assert (N : no_force D) by (intros ? ? ? ? ?; reflexivity).
  specialize (H D (Leapfrog (Term 0) Lowest 0) 1 ([Q2Qc 0], [Q2Qc 1]) A N
    (fun _ _ => eq_refl) eq_refl).
  cbn in H. injection H as H. discriminate.
Qed.
Print Assumptions C46_time_refuted.

(** An example: one real degree of freedom per link, coupled to its
    neighbour. *)
Fixpoint springs (u : list Qc) : list Qc :=
  match u with
  | [] => []
  | x :: t => (match t with [] => 0 | y :: _ => y - x end)%Qc :: springs t
  end.

Definition example_dynamics : dynamics :=
  mkDynamics Qc Qc (fun e p g => (g + Q2Qc e * p)%Qc) (fun e f p => (p + Q2Qc e * f)%Qc)
    (fun i u => match i with O => springs u | _ => map (fun x => - x)%Qc u end).

Lemma springs_length u : length (springs u) = length u.
Proof. induction u as [|x u IH]; [reflexivity|]. cbn. rewrite IH. reflexivity. Qed.

Example example_reversible : reversible example_dynamics.
Proof.
  split; cbn; intros.
  - rewrite (qc_opp e e') by assumption. ring.
  - rewrite (qc_opp e e') by assumption. ring.
  - ring.
  - destruct i; [apply springs_length|apply map_length].
Qed.

Example example_additive : additive example_dynamics.
Proof.
  split; cbn; intros.
  - rewrite (qc_add e e' e'') by assumption. ring.
  - rewrite (qc_add e e' e'') by assumption. ring.
  - ring.
Qed.

Example example_flips : flips example_dynamics (fun p => - p)%Qc.
Proof.
  split; cbn; intros; try (rewrite (qc_opp e e') by assumption); ring.
Qed.

Definition example_integrator : integrator :=
  O2 (Term 0) (Leapfrog (Sum (Term 1) (Term 2)) Lowest 2) 3.

Definition example_state : state example_dynamics :=
  ([Q2Qc 1; Q2Qc 2], [Q2Qc (1 # 2); Q2Qc 0]).

Example example_matching : matching example_state /\ proper example_integrator.
Proof. cbn. repeat split; lia. Qed.

(** The example does move. *)
Example example_moves :
  map this (fst (step example_dynamics (Leapfrog (Term 0) Lowest 1) 1 example_state)) =
  [15 # 8; 2].
Proof. vm_compute. reflexivity. Qed.

(** ** The update of a trajectory *)

(** A rejected update leaves the links as they were; an accepted one holds the
    end of the trajectory; in both cases the trajectory started from the old
    links and the fresh momenta, and its total time is [length]. *)
Theorem C58_rejected : forall D i steps length draw accept s,
  snd (update_hmc D i steps length draw accept s) = false ->
  fst (fst (update_hmc D i steps length draw accept s)) = fst s.
Proof.
  intros D i steps length draw accept s. unfold update_hmc. cbn [fst snd].
  destruct (accept _ _); cbn; [discriminate|reflexivity].
Qed.
Print Assumptions C58_rejected.

Theorem C58_accepted : forall D i steps length draw accept s,
  snd (update_hmc D i steps length draw accept s) = true ->
  fst (update_hmc D i steps length draw accept s) =
  repeatedly steps (step D i (length / qnat steps)) (fst s, draw).
Proof.
  intros D i steps length draw accept s. unfold update_hmc. cbn [fst snd].
  destruct (accept _ _); cbn; [reflexivity|discriminate].
Qed.
Print Assumptions C58_accepted.

(** The trajectory is reversible: started at its end with reversed momenta it
    leads back to the links it came from, with the drawn momenta reversed. *)
Theorem C58_reversible : forall D neg i steps length draw (s : state D),
  reversible D -> flips D neg -> List.length draw = List.length (fst s) ->
  let traj := repeatedly steps (step D i (length / qnat steps)) in
  traj (flip neg (traj (fst s, draw))) = flip neg (fst s, draw).
Proof.
  intros D neg i steps length draw s R F H. cbv zeta.
  set (e := length / qnat steps).
  rewrite (repeatedly_flip D neg steps (step D i e) (step D i (- e)))
    by (intros y; apply step_flip; [exact F|reflexivity]).
  f_equal. apply (repeatedly_back matching).
  - intros y Hy. apply step_matching; assumption.
  - intros y Hy. apply step_back; [exact R|reflexivity|exact Hy].
  - exact H.
Qed.
Print Assumptions C58_reversible.

(** Without forces the whole trajectory advances by its length. *)
Theorem C58_length : forall D i steps length draw (s : state D),
  additive D -> no_force D -> (forall j u, List.length (force D j u) = List.length u) ->
  proper i -> (1 <= steps)%nat -> List.length draw = List.length (fst s) ->
  repeatedly steps (step D i (length / qnat steps)) (fst s, draw) =
  gauge_update D length (fst s, draw).
Proof.
  intros D i steps length draw s A N L P Hs H.
  assert (E : length == qnat steps * (length / qnat steps)) by (field; apply qnat_pos, Hs).
  rewrite <- (repeatedly_add (gauge_update D) steps _ _ (fst s, draw) (update_add D A) Hs E).
  clear E. set (e := length / qnat steps). clearbody e.
  assert (M : matching (fst s, draw)) by exact H. revert M. generalize (fst s, draw) as t.
  clear Hs. induction steps as [|n IH]; intros t M; [reflexivity|]. cbn [repeatedly].
  rewrite step_free by assumption. apply IH. apply update_matching, M.
Qed.
Print Assumptions C58_length.

(** A rejected and an accepted update of the example, which moves. *)
Definition hmc_case (b : bool) : state example_dynamics * bool :=
  update_hmc example_dynamics (Leapfrog (Term 0) Lowest 1) 1 1 [Q2Qc (1 # 2); Q2Qc 0]
    (fun _ _ => b) example_state.

Example hmc_example :
  snd (hmc_case false) = false /\ map this (fst (fst (hmc_case false))) = [1; 2] /\
  snd (hmc_case true) = true /\ map this (fst (fst (hmc_case true))) = [15 # 8; 2].
Proof. vm_compute. repeat split. Qed.
