(** C43: checkpoints and crashes. *)
From Coq Require Import ZArith List Bool Lia.
From Verif Require Import CheckpointModel CheckpointSpec CheckpointProofs1.
Import ListNotations.
Open Scope Z_scope.

Definition example_job (c : list Z) (t : Z) : job :=
  mkJob true c 100 t 77 3 None (Some 1) (Some 7) None.

Definition example_history : list event :=
  [Start; Check (example_job [1; 2; 3] 0); Check (example_job [4; 5; 6] 1);
   Crash (example_job [7; 8; 9] 2) 4; Start].

Example example_history_good : Forall (good_event 3) example_history.
Proof. repeat constructor. Qed.

(** In every history of starts, checkpoints, crashes at any point and kills,
    the configuration that was written completely last is on the disk, in the
    configuration file or in the file with ".prev" appended. *)
Theorem C43_newest_survives : forall size l c,
  Forall (good_event size) l -> newest size l = Some c ->
  on_disk (fst (history size l)) c.
Proof.
  intros size l c G H.
  pose proof (sound_history size l ((empty_disk, false), None) (sound_empty size) G) as [S E].
  fold (history size l) in E. unfold newest in H.
  apply (s_newest _ _ _ _ S) in H. rewrite E in H. exact H.
Qed.
Print Assumptions C43_newest_survives.

Example newest_example :
  newest 3 example_history = Some [4; 5; 6] /\
  prev (fst (history 3 example_history)) = Some [4; 5; 6] /\
  config (fst (history 3 example_history)) = Some [7; 8].
Proof. repeat split. Qed.

(** At every crash point of one checkpoint the complete configuration that
    was there before is still there, under one of the two names; once all bytes
    of the new one are written, the new one is there as well. *)
Theorem C43_crash_point : forall d j k old,
  save_old j = true -> config d = Some old ->
  let d' := apply_all d (firstn k (checkpoint_ops d j)) in
  on_disk d' old /\
  ((written_after d j <= k)%nat -> config d' = Some (conf j)).
Proof.
  intros d j k old Hs E. cbv zeta.
  assert (W : written_after d j = S (S (length (conf j))))
    by (unfold written_after; rewrite E; lia).
  destruct (crash_present d j k old E Hs) as [[-> D]|[[-> [A B]]|[Hk [A B]]]].
  - split; [left; rewrite D; exact E|lia].
  - split; [right; exact B|lia].
  - split; [right; exact B|]. intros H.
    rewrite (firstn_all2 (conf j)) in A by lia. exact A.
Qed.
Print Assumptions C43_crash_point.

Definition example_disk : disk :=
  mkDisk (Some [1; 2; 3]) None (Some [Full 100; Full 1; Full 77; Full 3]).

Example example_disk_reached :
  fst (history 3 [Start; Check (example_job [1; 2; 3] 0)]) = example_disk.
Proof. reflexivity. Qed.

Example crash_point_example :
  let j := example_job [4; 5; 6] 1 in
  save_old j = true /\ config example_disk = Some [1; 2; 3] /\
  written_after example_disk j = 5%nat /\
  apply_all example_disk (firstn 3 (checkpoint_ops example_disk j)) =
  mkDisk (Some [4]) (Some [1; 2; 3]) (status example_disk).
Proof. repeat split. Qed.

(** What a restart does, for every crash point of a checkpoint of a run that
    has made one before. *)
Theorem C43_restart : forall size d j k old n t s tm,
  config d = Some old -> length old = size -> (0 < size)%nat ->
  status d = Some [Full n; Full t; Full s; Full tm] ->
  good_job size j ->
  let r := restore size (apply_all d (firstn k (checkpoint_ops d j))) in
  (k = 0%nat -> r = Resume old (Some (n, t, s))) /\
  ((1 <= k < size + 2)%nat -> r = Stop) /\
  (k = (size + 2)%nat -> r = Resume (conf j) (Some (n, t, s))) /\
  ((size + 3 <= k < size + 8)%nat -> r = Stop) /\
  (k = (size + 8)%nat ->
     r = match part3 j with
         | Some x => Resume (conf j) (Some (n, trajectory j + 1, x))
         | None => Stop
         end) /\
  ((size + 9 <= k)%nat -> r = Resume (conf j) (Some (n, trajectory j + 1, seed j))).
Proof.
  intros size d j k old n t s tm E El Hp Es G.
  exact (restore_cases size d j k old n t s tm E El Hp Es G).
Qed.
Print Assumptions C43_restart.

(** At every crash point other than the one between the last byte of the
    configuration and the opening of the status file, a restart that goes on
    does so with matching configuration and trajectory number. *)
Theorem C43_restart_matches : forall size d j k old n t s tm,
  config d = Some old -> length old = size -> (0 < size)%nat ->
  status d = Some [Full n; Full t; Full s; Full tm] ->
  good_job size j -> k <> written_after d j ->
  consistent_restart (restore size (apply_all d (firstn k (checkpoint_ops d j)))) old t j.
Proof.
  intros size d j k old n t s tm E El Hp Es G Hk.
  assert (W : written_after d j = (size + 2)%nat).
  { unfold written_after. rewrite E, (proj2 G). lia. }
  rewrite W in Hk.
  pose proof (restore_cases size d j k old n t s tm E El Hp Es G) as (R0 & R1 & _ & R3 & R4 & R5).
  cbv zeta in *. intros c n' t' s' H.
  assert (C : k = 0%nat \/ (1 <= k < size + 2)%nat \/ (size + 3 <= k < size + 8)%nat \/
              k = (size + 8)%nat \/ (size + 9 <= k)%nat) by lia.
  destruct C as [C|[C|[C|[C|C]]]].
  - rewrite (R0 C) in H. injection H as <- _ <- _. left; split; reflexivity.
  - rewrite (R1 C) in H. discriminate.
  - rewrite (R3 C) in H. discriminate.
  - rewrite (R4 C) in H. destruct (part3 j); [|discriminate].
    injection H as <- _ <- _. right; split; reflexivity.
  - rewrite (R5 C) in H. injection H as <- _ <- _. right; split; reflexivity.
Qed.
Print Assumptions C43_restart_matches.

Example restart_example :
  let j := example_job [4; 5; 6] 1 in
  good_job 3 j /\ (0 < 3)%nat /\
  restore 3 (apply_all example_disk (firstn 20 (checkpoint_ops example_disk j))) =
  Resume [4; 5; 6] (Some (100, 2, 77)).
Proof. repeat split. lia. Qed.

(** That is not so at all crash points: the new configuration can be taken up
    with the old trajectory number. *)
Theorem C43_restart_refuted :
  ~ (forall size d j k old n t s tm,
      config d = Some old -> length old = size -> (0 < size)%nat ->
      status d = Some [Full n; Full t; Full s; Full tm] -> good_job size j ->
      consistent_restart (restore size (apply_all d (firstn k (checkpoint_ops d j)))) old t j).
Proof.
  intros H.
  specialize (H 3%nat example_disk (example_job [4; 5; 6] 1) 5%nat [1; 2; 3] 100 1 77 3
                eq_refl eq_refl ltac:(lia) eq_refl (conj eq_refl eq_refl)).
  specialize (H [4; 5; 6] 100 1 77 eq_refl).
  destruct H as [[H _]|[_ H]]; discriminate.
Qed.
Print Assumptions C43_restart_refuted.

(** Nor does a restart go on whenever a complete configuration is on the disk:
    it never looks at the file with ".prev" appended. *)
Theorem C43_resume_refuted :
  ~ (forall size l c, Forall (good_event size) l -> newest size l = Some c ->
      exists x s, restore size (fst (history size l)) = Resume x s).
Proof.
  intros H. destruct (H 3%nat example_history [4; 5; 6] example_history_good eq_refl)
    as (x & s & E).
  discriminate.
Qed.
Print Assumptions C43_resume_refuted.

(** It can even start from the beginning, without any message that a complete
    configuration is there: two crashes, one before the first status file is
    written and one just after the renaming. *)
Theorem C43_fresh_refuted :
  ~ (forall size l c, Forall (good_event size) l -> newest size l = Some c ->
      restore size (fst (history size l)) <> Fresh).
Proof.
  intros H.
  apply (H 3%nat [Start; Crash (example_job [1; 2; 3] 0) 4; Start;
                  Crash (example_job [4; 5; 6] 0) 1] [1; 2; 3]); [|reflexivity|reflexivity].
  repeat constructor.
Qed.
Print Assumptions C43_fresh_refuted.

(** Without keeping the old file no complete configuration need survive. *)
Theorem C43_no_save_refuted :
  ~ (forall d j k old, config d = Some old -> length (conf j) = length old ->
      let d' := apply_all d (firstn k (checkpoint_ops d j)) in
      on_disk d' old \/ on_disk d' (conf j)).
Proof.
  intros H.
  destruct (H example_disk (mkJob false [4; 5; 6] 100 1 77 3 None None None None) 2%nat
              [1; 2; 3] eq_refl eq_refl) as [[E|E]|[E|E]]; discriminate.
Qed.
Print Assumptions C43_no_save_refuted.
