From Coq Require Import ZArith List Bool Lia.
From Verif Require Import CheckpointModel CheckpointSpec.
Import ListNotations.

(** Steps that leave the configuration files alone. *)
Definition is_status_op (o : op) : bool :=
  match o with Truncate | Write _ => true | _ => false end.

Lemma status_part_files l d :
  forallb is_status_op l = true ->
  config (apply_all d l) = config d /\ prev (apply_all d l) = prev d.
Proof.
  revert d; induction l as [|o l IH]; intros d H; [split; reflexivity|].
  cbn [forallb] in H. apply andb_prop in H. destruct H as [H1 H2].
  cbn [apply_all fold_left]. fold (apply_all (apply d o) l).
  destruct (IH (apply d o) H2) as [A B]. rewrite A, B.
  destruct o; try discriminate; split; reflexivity.
Qed.

Lemma forallb_firstn {A} (p : A -> bool) k l :
  forallb p l = true -> forallb p (firstn k l) = true.
Proof.
  revert k; induction l as [|a l IH]; intros [|k] H; try reflexivity.
  cbn in *. apply andb_prop in H. destruct H as [-> H]. cbn. auto.
Qed.

Lemma apply_all_app d l1 l2 : apply_all d (l1 ++ l2) = apply_all (apply_all d l1) l2.
Proof. apply fold_left_app. Qed.

Lemma append_all d f c :
  config d = Some f ->
  apply_all d (map Append c) = mkDisk (Some (f ++ c)) (prev d) (status d).
Proof.
  revert d f; induction c as [|b c IH]; intros d f H; cbn [map apply_all fold_left].
  - rewrite app_nil_r, <- H. destruct d; reflexivity.
  - fold (apply_all (apply d (Append b)) (map Append c)).
    rewrite (IH _ (f ++ [b])); [|cbn; rewrite H; reflexivity].
    cbn. rewrite <- app_assoc. reflexivity.
Qed.

Lemma status_rest_ok (d : disk) j :
  forallb is_status_op
    (match trajectories d j with Some n => status_ops n j | None => [] end) = true.
Proof. destruct (trajectories d j); reflexivity. Qed.

(** The configuration is being written: after [S k] further operations. *)
Lemma writing d c k l :
  forallb is_status_op l = true ->
  let d' := apply_all d (firstn (S k) ((Create :: map Append c) ++ l)) in
  config d' = Some (firstn k c) /\ prev d' = prev d.
Proof.
  intros Hl. cbn [firstn app apply_all fold_left].
  fold (apply_all (apply d Create) (firstn k (map Append c ++ l))).
  rewrite firstn_app, map_length, apply_all_app, firstn_map.
  rewrite (append_all _ []); [|reflexivity]. cbn [app].
  match goal with |- context [apply_all ?a ?b] =>
    destruct (status_part_files b a) as [A B] end.
  { apply forallb_firstn, Hl. }
  rewrite A, B. split; reflexivity.
Qed.

(** The files after [k] operations of a checkpoint. *)
Lemma crash_absent d j k :
  config d = None ->
  let d' := apply_all d (firstn k (checkpoint_ops d j)) in
  (k = O /\ d' = d) \/
  (0 < k)%nat /\ config d' = Some (firstn (k - 1) (conf j)) /\ prev d' = prev d.
Proof.
  intros H. unfold checkpoint_ops, config_ops. rewrite H.
  cbn [exists_file]. rewrite andb_false_r. cbn [app].
  destruct k as [|k]; [left; split; reflexivity|]. right. split; [lia|].
  replace (S k - 1)%nat with k by lia.
  exact (writing d (conf j) k _ (status_rest_ok d j)).
Qed.

Lemma crash_present d j k f :
  config d = Some f -> save_old j = true ->
  let d' := apply_all d (firstn k (checkpoint_ops d j)) in
  (k = O /\ d' = d) \/
  (k = 1%nat /\ config d' = None /\ prev d' = Some f) \/
  (1 < k)%nat /\ config d' = Some (firstn (k - 2) (conf j)) /\ prev d' = Some f.
Proof.
  intros H Hs. unfold checkpoint_ops, config_ops. rewrite H, Hs.
  cbn [exists_file andb app].
  destruct k as [|[|k]].
  - left; split; reflexivity.
  - right; left. cbn. rewrite H. repeat split; reflexivity.
  - right; right. split; [lia|]. replace (S (S k) - 2)%nat with k by lia.
    change (firstn (S (S k)) (Rename :: ?l)) with (Rename :: firstn (S k) l).
    cbn [apply_all fold_left].
    pose proof (writing (apply d Rename) (conf j) k _ (status_rest_ok d j)) as W.
    cbn [app firstn apply_all fold_left] in W.
    cbn [app firstn apply_all fold_left].
    destruct W as [W1 W2]. split; [exact W1|]. rewrite W2. cbn. rewrite H. reflexivity.
Qed.

Lemma all_ops_firstn d j :
  checkpoint_ops d j = firstn (length (checkpoint_ops d j)) (checkpoint_ops d j).
Proof. symmetry. apply firstn_all. Qed.

Lemma ops_length d j :
  save_old j = true -> (written_after d j <= length (checkpoint_ops d j))%nat.
Proof.
  intros Hs. unfold checkpoint_ops, config_ops, written_after. rewrite Hs, !app_length.
  cbn [length]. rewrite map_length. destruct (config d); cbn; lia.
Qed.

(** What holds along every history. *)
Record sound (size : nat) (d : disk) (running : bool) (c : option (list Z)) : Prop := {
  s_newest : forall x, c = Some x -> on_disk d x;
  s_short : forall f, config d = Some f -> (length f <= size)%nat;
  s_whole : forall f, config d = Some f -> length f = size -> c = Some f;
  s_running : running = true ->
    config d = None \/ exists f, config d = Some f /\ length f = size
}.

Lemma sound_crash size d j k c :
  sound size d true c -> good_job size j ->
  sound size (apply_all d (firstn k (checkpoint_ops d j))) false
    (if Nat.leb (written_after d j) k then Some (conf j) else c).
Proof.
  intros [Hn Hs Hw Hr] [Hj Hl]. destruct (Hr eq_refl) as [E|[f [E Ef]]].
  - pose proof (crash_absent d j k E) as [[-> ->]|[Hk [A B]]].
    + unfold written_after. rewrite E. cbn [Nat.add Nat.leb]. split; auto; discriminate.
    + assert (W : written_after d j = S (length (conf j)))
        by (unfold written_after; rewrite E; lia).
      destruct (Nat.leb_spec (written_after d j) k) as [Hle|Hlt]; rewrite W in *.
      * rewrite (firstn_all2 (conf j)) in A by lia.
        split; [intros x [= <-]; left; exact A| | |discriminate].
        -- intros f. rewrite A. intros [= <-]. lia.
        -- intros f. rewrite A. intros [= <-] _. reflexivity.
      * assert (L : length (firstn (k - 1) (conf j)) = (k - 1)%nat) by (rewrite firstn_length; lia).
        split; [|intros f; rewrite A; intros [= <-]; lia| |discriminate].
        -- intros x Hx. destruct (Hn x Hx) as [C|C]; [congruence|]. right. rewrite B. exact C.
        -- intros f. rewrite A. intros [= <-] Hf. exfalso. lia.
  - pose proof (crash_present d j k f E Hj) as [[-> ->]|[[-> [A B]]|[Hk [A B]]]].
    + unfold written_after. rewrite E. cbn [Nat.add Nat.leb]. split; auto; discriminate.
    + unfold written_after. rewrite E. cbn [Nat.add Nat.leb].
      rewrite (Hw f E Ef). 
      split; [intros x [= <-]; right; exact B| | |discriminate]; intros g; rewrite A; discriminate.
    + pose proof (Hw f E Ef) as Hc.
      assert (W : written_after d j = S (S (length (conf j))))
        by (unfold written_after; rewrite E; lia).
      destruct (Nat.leb_spec (written_after d j) k) as [Hle|Hlt]; rewrite W in *.
      * rewrite (firstn_all2 (conf j)) in A by lia.
        split; [intros x [= <-]; left; exact A| | |discriminate].
        -- intros g. rewrite A. intros [= <-]. lia.
        -- intros g. rewrite A. intros [= <-] _. reflexivity.
      * assert (L : length (firstn (k - 2) (conf j)) = (k - 2)%nat) by (rewrite firstn_length; lia).
        split; [|intros g; rewrite A; intros [= <-]; lia| |discriminate].
        -- rewrite Hc. intros x [= <-]. right. exact B.
        -- intros g. rewrite A. intros [= <-] Hf. exfalso. lia.
Qed.

Lemma sound_step size d running c e :
  sound size d running c -> good_event size e ->
  let '(s', c') := newest_step size ((d, running), c) e in
  sound size (fst s') (snd s') c'.
Proof.
  intros H G. destruct e as [|j|j k|]; cbn [newest_step step fst snd].
  - destruct running; [exact H|]. cbn [fst snd]. destruct H as [Hn Hs Hw _].
    split; try assumption. intros R.
    unfold restore in R.
    assert (Rd : forall f, config d = Some f ->
        config_read size (config d) <> None -> length f = size).
    { intros f E. unfold config_read. rewrite E.
      destruct (Nat.ltb_spec (length f) size); [congruence|]. intros _. specialize (Hs f E). lia. }
    destruct (config d) as [f|] eqn:E; [right|left; reflexivity].
    exists f; split; [reflexivity|]. apply Rd; [reflexivity|]. intros Z.
    rewrite Z in R.
    destruct (status d) as [[|f1 [|f2 [|f3 l]]]|]; try discriminate.
    destruct (read_number f1), (read_number f2), (read_number f3); discriminate.
  - destruct running; [|exact H]. cbn [fst snd].
    pose proof (sound_crash size d j (length (checkpoint_ops d j)) c H G) as S.
    rewrite <- all_ops_firstn in S.
    pose proof (ops_length d j (proj1 G)) as L. apply Nat.leb_le in L. rewrite L in S.
    destruct S as [Hn Hs Hw _]. split; try assumption. intros _. right.
    exists (conf j). split; [|exact (proj2 G)].
    destruct G as [Gs Gl].
    apply Nat.leb_le in L. unfold written_after in L.
    destruct (config d) as [f|] eqn:E.
    + pose proof (crash_present d j (length (checkpoint_ops d j)) f E Gs) as D.
      rewrite <- all_ops_firstn in D.
      destruct D as [[D _]|[[D _]|[D [A _]]]]; try (exfalso; lia).
      rewrite (firstn_all2 (conf j)) in A by lia. exact A.
    + pose proof (crash_absent d j (length (checkpoint_ops d j)) E) as D.
      rewrite <- all_ops_firstn in D.
      destruct D as [[D _]|[D [A _]]]; try (exfalso; lia).
      rewrite (firstn_all2 (conf j)) in A by lia. exact A.
  - destruct running; [|exact H]. cbn [andb fst snd].
    apply sound_crash; assumption.
  - destruct H as [Hn Hs Hw _]. split; auto; discriminate.
Qed.

Lemma sound_history size l (st : state * option (list Z)) :
  sound size (fst (fst st)) (snd (fst st)) (snd st) -> Forall (good_event size) l ->
  let r := fold_left (newest_step size) l st in
  sound size (fst (fst r)) (snd (fst r)) (snd r) /\
  fst r = fold_left (step size) l (fst st).
Proof.
  revert st; induction l as [|e l IH]; intros [[d running] c] H G; cbn [fold_left].
  - split; [exact H|reflexivity].
  - cbn [fst snd] in H.
    pose proof (sound_step size d running c e H (Forall_inv G)) as S.
    assert (E : fst (newest_step size (d, running, c) e) = step size (d, running) e)
      by reflexivity.
    destruct (IH (newest_step size (d, running, c) e)) as [I1 I2].
    + destruct (newest_step size (d, running, c) e) as [[d1 r1] c1]. exact S.
    + exact (Forall_inv_tail G).
    + split; [exact I1|]. exact I2.
Qed.

Lemma sound_empty size : sound size empty_disk false None.
Proof. split; cbn; try discriminate. Qed.

(** ** What a restart finds after each crash point *)

Lemma restore_cases size d j k c n t s tm :
  config d = Some c -> length c = size -> (0 < size)%nat ->
  status d = Some [Full n; Full t; Full s; Full tm] ->
  good_job size j ->
  let r := restore size (apply_all d (firstn k (checkpoint_ops d j))) in
  (k = 0%nat -> r = Resume c (Some (n, t, s))) /\
  ((1 <= k < size + 2)%nat -> r = Stop) /\
  (k = (size + 2)%nat -> r = Resume (conf j) (Some (n, t, s))) /\
  ((size + 3 <= k < size + 8)%nat -> r = Stop) /\
  (k = (size + 8)%nat ->
     r = match part3 j with
         | Some x => Resume (conf j) (Some (n, (trajectory j + 1)%Z, x))
         | None => Stop
         end) /\
  ((size + 9 <= k)%nat -> r = Resume (conf j) (Some (n, (trajectory j + 1)%Z, seed j))).
Proof.
  intros E El Hp Es [Gs Gl].
  assert (Rc : forall f, length f = size -> config_read size (Some f) = Some f).
  { intros f Hf. unfold config_read. rewrite (proj2 (Nat.ltb_ge _ _)) by lia.
    rewrite firstn_all2 by lia. reflexivity. }
  assert (Rs : forall f, (length f < size)%nat -> config_read size (Some f) = None).
  { intros f Hf. unfold config_read. rewrite (proj2 (Nat.ltb_lt _ _)) by lia. reflexivity. }
  assert (Stop_if : forall d', status d' = status d -> config_read size (config d') = None ->
      restore size d' = Stop).
  { intros d' A B. unfold restore. rewrite A, Es. cbn [read_number]. rewrite B. reflexivity. }
  (* operations that concern the configuration do not touch the status *)
  assert (St : forall l d0, forallb (fun o => negb (is_status_op o)) l = true ->
      status (apply_all d0 l) = status d0).
  { induction l as [|o l IH]; intros d0 H; [reflexivity|].
    cbn [forallb] in H. apply andb_prop in H. destruct H as [H1 H2].
    cbn [apply_all fold_left]. fold (apply_all (apply d0 o) l). rewrite IH by exact H2.
    destruct o; try discriminate; try reflexivity.
    cbn. destruct (config d0); reflexivity. }
  assert (Ops : checkpoint_ops d j = config_ops d j ++ status_ops n j).
  { unfold checkpoint_ops, trajectories. rewrite Es. reflexivity. }
  assert (Cl : length (config_ops d j) = (size + 2)%nat).
  { unfold config_ops. rewrite Gs, E. cbn. rewrite map_length. lia. }
  assert (Cn : forallb (fun o => negb (is_status_op o)) (config_ops d j) = true).
  { unfold config_ops. rewrite Gs, E. cbn [exists_file andb app forallb is_status_op negb].
    clear. induction (conf j); [reflexivity|]. cbn. assumption. }
  assert (Cd : apply_all d (config_ops d j) = mkDisk (Some (conf j)) (Some c) (status d)).
  { unfold config_ops. rewrite Gs, E. cbn [exists_file andb app apply_all fold_left].
    fold (apply_all (apply (apply d Rename) Create) (map Append (conf j))).
    rewrite (append_all _ []) by reflexivity. cbn. rewrite E. reflexivity. }
  assert (Late : forall m, k = (size + 2 + m)%nat ->
      apply_all d (firstn k (checkpoint_ops d j)) =
      apply_all (mkDisk (Some (conf j)) (Some c) (status d)) (firstn m (status_ops n j))).
  { intros m ->. rewrite Ops, firstn_app, Cl.
    rewrite firstn_all2 by lia. replace (size + 2 + m - (size + 2))%nat with m by lia.
    rewrite apply_all_app, Cd. reflexivity. }
  split; [|split; [|split; [|split; [|split]]]].
  - intros ->. cbn [firstn apply_all fold_left]. unfold restore. rewrite Es.
    cbn [read_number]. rewrite E, Rc by exact El. reflexivity.
  - intros Hk. apply Stop_if.
    + rewrite Ops, firstn_app, Cl. replace (k - (size + 2))%nat with 0%nat by lia.
      cbn [firstn]. rewrite app_nil_r. apply St. apply forallb_firstn, Cn.
    + pose proof (crash_present d j k c E Gs) as [[D _]|[[D [A _]]|[D [A _]]]].
      * lia.
      * rewrite A. reflexivity.
      * rewrite A. apply Rs. rewrite firstn_length. lia.
  - intros Hk. rewrite (Late 0%nat) by lia. cbn [firstn apply_all fold_left].
    unfold restore. cbn [status config]. rewrite Es. cbn [read_number]. rewrite Rc by exact Gl.
    reflexivity.
  - intros Hk. rewrite (Late (k - (size + 2))%nat) by lia.
    assert (M : (1 <= k - (size + 2) < 6)%nat) by lia.
    destruct (k - (size + 2))%nat as [|[|[|[|[|[|m]]]]]]; try lia; try reflexivity.
  - intros Hk. rewrite (Late 6%nat) by lia. cbn -[config_read].
    destruct (part3 j); [|reflexivity]. rewrite Rc by exact Gl. reflexivity.
  - intros Hk. rewrite (Late (k - (size + 2))%nat) by lia.
    assert (M : (7 <= k - (size + 2))%nat) by lia.
    destruct (k - (size + 2))%nat as [|[|[|[|[|[|[|[|[|m]]]]]]]]]; try lia;
      cbn -[config_read]; try rewrite firstn_nil; cbn -[config_read];
      rewrite Rc by exact Gl; reflexivity.
Qed.
