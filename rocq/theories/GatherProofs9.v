(** The statements about user programs, and executable schedules. *)
From Verif Require Import Common LayoutModel LayoutSpec LayoutProofs1 LayoutProofs2 LayoutProofs7
  GatherModel GatherSpec GatherProofs1 GatherProofs2
  GatherProofs3 GatherProofs4 GatherProofs5 GatherProofs6 GatherProofs7 GatherProofs8 OverlapModel OverlapProofs1.

Section User.
  Variable V : Type.
  Variable lat : lattice.
  Hypothesis Hv : valid_lattice lat.
  Hypothesis Hev : even_where_split lat.
  Variable mem : Z -> Z -> Z -> V.
  Variable sb : Z -> Z -> Z -> Z -> V.
  Variable F : Z -> list Z -> V.
  Hypothesis Hm : initial_fields lat mem F.
  Variable h : list (api_op V).
  Hypothesis Hd : Forall (op_directions lat) h.
  Local Notation prog := (compile lat h).

  Lemma user_prog : prog_ok (op_ok lat) (ainit F) prog.
  Proof. apply (compile_ok lat h (ainit F) (init_sync V lat F) (aexcl_init F) Hd). Qed.
  Lemma user_log : aL (A V prog F (length prog)) = rev (spec_reads h F).
  Proof.
    unfold A. rewrite firstn_all.
    destruct (compile_ok lat h (ainit F) (init_sync V lat F) (aexcl_init F) Hd) as (_ & _ & E).
    rewrite E. apply app_nil_r.
  Qed.
  Lemma user_waits : waits_matched h [] -> prog_ok wait_ok (ainit F) prog.
  Proof.
    intros H. apply (waits_ok lat h (ainit F) []); auto; [apply init_sync|apply aexcl_init|intros ? ? ? []].
  Qed.
  Lemma user_sys : forall ls g, execution lat prog (init_system V mem sb) ls g -> sys_ok V lat prog F g.
  Proof. intros ls g E. eapply execution_sys; eauto using user_prog. apply init_sys; auto. Qed.

  Lemma user_reads : forall ls g r, execution lat prog (init_system V mem sb) ls g -> is_rank lat r ->
    let log := rev (rs_log V (sys_rank V g r)) in
    Forall2 (read_values lat r) (firstn (length log) (spec_reads h F)) log /\
    (rs_pc V (sys_rank V g r) = length prog -> length log = length (spec_reads h F)).
  Proof.
    intros ls g r E Hr log. assert (S := user_sys ls g E).
    destruct (log_ok V lat Hv prog F user_prog g r Hr S) as [A1 A2]. rewrite user_log, rev_involutive in *.
    unfold log. rewrite rev_length in *. auto.
  Qed.
  Lemma user_defined : forall ls g r o, execution lat prog (init_system V mem sb) ls g -> is_rank lat r ->
    nth_error prog (rs_pc V (sys_rank V g r)) = Some o -> exec_mop V lat r o (sys_rank V g r) <> Undefined.
  Proof. intros. eapply never_undefined; eauto using user_prog, user_sys. Qed.
  Lemma user_no_exit : waits_matched h [] -> forall ls g r o, execution lat prog (init_system V mem sb) ls g -> is_rank lat r ->
    nth_error prog (rs_pc V (sys_rank V g r)) = Some o -> exec_mop V lat r o (sys_rank V g r) <> Exited.
  Proof. intros. eapply never_exits; eauto using user_prog, user_sys, user_waits. Qed.
  Lemma user_progress : waits_matched h [] -> forall ls g, execution lat prog (init_system V mem sb) ls g ->
    finished lat prog g \/ exists l g', execution lat prog (init_system V mem sb) (ls ++ [l]) g'.
  Proof.
    intros Hw ls g E.
    assert (D : {finished lat prog g} + {~ finished lat prog g}).
    { destruct (forallb (fun r => Nat.eqb (rs_pc V (sys_rank V g r)) (length prog)) (zrange 0 (Z.to_nat (number_of_nodes lat)))) eqn:B.
      - left. intros r Hr. rewrite forallb_forall in B. apply Nat.eqb_eq, B, zrange_In. unfold is_rank in Hr. lia.
      - right. intros Hf. assert (forallb (fun r => Nat.eqb (rs_pc V (sys_rank V g r)) (length prog)) (zrange 0 (Z.to_nat (number_of_nodes lat))) = true); [|congruence].
        apply forallb_forall. intros r Hr. apply Nat.eqb_eq, Hf. apply zrange_In in Hr. unfold is_rank. lia. }
    destruct D as [D|D]; [left; auto|right].
    destruct (progress V lat Hv Hev prog F user_prog g (user_sys _ _ E) (user_waits Hw) D) as (l & g' & Hr & Es).
    exists l, g'. clear D Hw. induction E; cbn.
    - econstructor; eauto. constructor.
    - econstructor; eauto.
  Qed.
  Lemma user_bounded : forall ls g, execution lat prog (init_system V mem sb) ls g ->
    (length ls <= 3 * (Z.to_nat (number_of_nodes lat) * length prog))%nat.
  Proof.
    intros ls g E. assert (X := execution_measure V lat Hv Hev prog F user_prog _ _ _ (init_sys V lat prog F mem sb Hm) E).
    assert (Y := measure_bound V lat prog F (init_system V mem sb)). lia.
  Qed.
  Lemma user_contents : forall ls g r f c, execution lat prog (init_system V mem sb) ls g -> is_rank lat r ->
    rs_pc V (sys_rank V g r) = length prog -> holds lat r c ->
    rs_mem V (sys_rank V g r) f (site_index (nodeinfo lat r) c) = final_fields h F f c.
  Proof.
    intros ls g r f c E Hr Hp Hh. assert (S := user_sys ls g E).
    rewrite (ro_mem _ _ _ _ _ _ _ _ _ (so_rank _ _ _ _ _ S r Hr) f c Hh), Hp. unfold A. rewrite firstn_all.
    rewrite compile_contents; auto; [apply init_sync|apply aexcl_init].
  Qed.
End User.

Section UserFree.
  Variable V : Type.
  Variable lat : lattice.
  Hypothesis Hv : valid_lattice lat.
  Hypothesis Hev : even_where_split lat.

  Lemma user_messages : forall mem sb F (h : list (api_op V)) fs, initial_fields lat mem F ->
    Forall (op_directions lat) h -> frees_all h fs ->
    let prog := compile lat (h ++ map (@OFree V) fs) in
    forall ls g, execution lat prog (init_system V mem sb) ls g -> finished lat prog g ->
    forall s r t, is_rank lat s -> is_rank lat r -> s <> r ->
      (rs_nsend V (sys_rank V g s) r t = rs_nrecv V (sys_rank V g r) s t /\
       forall n, sys_net V g s r t n = (if (n <? rs_nsend V (sys_rank V g s) r t)%nat then Received V else Absent V)) /\
      forall k, rs_rreq V (sys_rank V g r) k = NoReq /\ rs_sreq V (sys_rank V g r) k = NoReq.
  Proof.
    intros mem sb F h fs Hm Hd Hf prog ls g E Hfin s r t Hs Hr Hn.
    assert (Hd' : Forall (op_directions lat) (h ++ map (@OFree V) fs)).
    { apply Forall_app. split; auto. apply Forall_forall. intros o Ho. apply in_map_iff in Ho. destruct Ho as (f & <- & _). exact I. }
    assert (P := user_prog V lat F _ Hd').
    assert (S := user_sys V lat Hv Hev mem sb F Hm _ Hd' ls g E).
    assert (Q : forall f d q, is_direction (l_size lat) d -> aS (A V prog F (length prog)) f d q <> STARTED).
    { intros f d q D. unfold A. rewrite firstn_all. apply freed_quiet; auto. }
    split.
    - apply (all_received V lat Hv prog F); auto.
    - intros k. apply (no_requests_left V lat prog F g S Hfin Q r k Hr).
  Qed.
End UserFree.

(** ** Running a schedule *)
Section Run.
  Variable V : Type.
  Variable lat : lattice.
  Variable prog : list (mop V).
  Definition label_ok (l : label) : bool :=
    let r := match l with Exec r => r | Transmit r _ => r | Deliver r _ => r end in (0 <=? r) && (r <? number_of_nodes lat).
  Fixpoint run_labels (g : system V) (ls : list label) : option (system V) :=
    match ls with
    | [] => Some g
    | l :: ls' => if label_ok l then match step V lat prog g l with Some g' => run_labels g' ls' | None => None end else None
    end.
  Lemma run_labels_execution : forall ls g g', run_labels g ls = Some g' -> execution lat prog g ls g'.
  Proof.
    induction ls as [|l ls IH]; intros g g' E; cbn in E; [inversion E; constructor|].
    destruct (label_ok l) eqn:L; [|discriminate]. destruct (step V lat prog g l) as [g1|] eqn:S; [|discriminate].
    econstructor; eauto. unfold label_ok in L. unfold is_rank. apply andb_true_iff in L. lia.
  Qed.
  (** Any schedule: take the first enabled label of a list of candidates. *)
  Fixpoint first_enabled (g : system V) (cs : list label) : option (label * system V) :=
    match cs with
    | [] => None
    | l :: cs' => if label_ok l then match step V lat prog g l with Some g' => Some (l, g') | None => first_enabled g cs' end
                  else first_enabled g cs'
    end.
  Fixpoint run_some (cs : list label) (fuel : nat) (g : system V) : list label * system V :=
    match fuel with
    | O => ([], g)
    | S n => match first_enabled g cs with
             | None => ([], g)
             | Some (l, g') => let '(ls, g2) := run_some cs n g' in (l :: ls, g2)
             end
    end.
  Lemma first_enabled_ok : forall cs g l g', first_enabled g cs = Some (l, g') ->
    is_rank lat (match l with Exec r => r | Transmit r _ => r | Deliver r _ => r end) /\ step V lat prog g l = Some g'.
  Proof.
    induction cs as [|c cs IH]; intros g l g' E; cbn in E; [discriminate|].
    destruct (label_ok c) eqn:L; auto. destruct (step V lat prog g c) eqn:S; auto.
    inversion E; subst. split; auto. unfold label_ok in L. unfold is_rank. apply andb_true_iff in L. lia.
  Qed.
  Lemma run_some_execution : forall cs n g, execution lat prog g (fst (run_some cs n g)) (snd (run_some cs n g)).
  Proof.
    intros cs n. induction n as [|n IH]; intros g; cbn; [constructor|].
    destruct (first_enabled g cs) as [[l g']|] eqn:E; [|constructor].
    apply first_enabled_ok in E. destruct E as [E1 E2]. specialize (IH g'). destruct (run_some cs n g') as [ls g2]. cbn in *.
    econstructor; eauto.
  Qed.
End Run.
