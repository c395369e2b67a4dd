(** Proofs for C10: the list of defined lattices refines the chains of sizes. *)
From Verif Require Import Common LayoutModel LayoutSpec LayoutProofs1 LayoutProofs2.
From Verif Require Import BlockModel BlockSpec BlockProofs1.

Lemma zlist_eqb_eq : forall a b, zlist_eqb a b = true <-> a = b.
Proof.
  induction a; destruct b; simpl; split; intros H; try discriminate; auto.
  - apply andb_true_iff in H. destruct H as [H1 H2]. apply IHa in H2. f_equal; auto. lia.
  - inversion H; subst. apply andb_true_iff. split; [lia|apply IHa; auto].
Qed.

Lemma find_size_some : forall siz l i k, find_size siz l i = Some k ->
  exists j e, k = (i + j)%nat /\ nth_error l j = Some e /\ l_size (e_lat e) = siz.
Proof.
  induction l as [|e l IH]; intros i k H; cbn [find_size] in H; [discriminate|].
  destruct (zlist_eqb (l_size (e_lat e)) siz) eqn:E.
  - inversion H; subst. exists 0%nat, e. rewrite Nat.add_0_r. apply zlist_eqb_eq in E. auto.
  - apply IH in H. destruct H as (j & e' & -> & H1 & H2). exists (S j), e'. split; [lia|auto].
Qed.

Lemma find_size_none : forall siz l i, find_size siz l i = None ->
  forall e, In e l -> l_size (e_lat e) <> siz.
Proof.
  induction l as [|e l IH]; intros i H e' He'; cbn [find_size] in H; [destruct He'|].
  destruct (zlist_eqb (l_size (e_lat e)) siz) eqn:E; [discriminate|].
  destruct He' as [<-|He']; [|eauto].
  intros H1. apply zlist_eqb_eq in H1. congruence.
Qed.

(** The blocked size is determined by the factors. *)
Lemma times_div : forall bf siz, Forall (fun b => 0 < b) bf -> length siz = length bf ->
  element_div (times bf siz) bf = siz.
Proof. intros. apply times_divisible; auto. Qed.

Lemma blocking_can : forall ls bf, blocking ls bf -> can_block_by_factor ls bf = Some true.
Proof.
  intros ls bf H. unfold can_block_by_factor.
  replace (forallb (fun f => 0 <? f) bf) with true.
  - f_equal. induction H; simpl; auto. destruct H as [Hb [k ->]].
    rewrite Z.rem_mul by lia. auto.
  - symmetry. apply forallb_forall. intros x Hx. apply blocking_pos in H.
    rewrite Forall_forall in H. apply H in Hx. lia.
Qed.

Lemma can_blocking : forall ls bf, length bf = length ls -> can_block_by_factor ls bf = Some true ->
  blocking ls bf.
Proof.
  intros ls bf Hl H. unfold can_block_by_factor in H.
  destruct (forallb (fun f => 0 <? f) bf) eqn:E; [|discriminate]. inversion H as [H1]. clear H.
  unfold blocking. revert bf Hl E H1. induction ls; destruct bf; intros Hl E H1; try discriminate; constructor.
  - cbn [forallb is_divisible] in *. apply andb_true_iff in E, H1. split; [lia|].
    destruct H1 as [H1 _]. apply Z.eqb_eq in H1. apply Z.rem_divide in H1; auto. lia.
  - cbn [forallb is_divisible] in *. apply andb_true_iff in E, H1. apply IHls; try tauto. simpl in Hl. lia.
Qed.

(** ** The simulation *)
Record sim (base : lattice) (s : nest) (t : lat_state) : Prop := mkSim {
  sim_len : length (known s) = length (defined t);
  sim_entry : forall i c, nth_error (known s) i = Some c ->
    exists e, nth_error (defined t) i = Some e /\ c <> [] /\
      e_lat e = setup_blocked_lattice (hd [] c) base /\
      match tl c with
      | [] => e_parent e = None
      | _ => exists j, e_parent e = Some j /\ (j < i)%nat /\ nth_error (known s) j = Some (tl c)
      end;
  sim_cur : nth_error (known s) (current t) = Some (cur s);
  sim_nodup : NoDup (known s)
}.

Lemma base_entry : forall lat, lat = setup_blocked_lattice (l_size lat) lat.
Proof. destruct lat; reflexivity. Qed.

Lemma sim_init : forall lat, sim lat (nest_init (l_size lat)) (lat_init lat).
Proof.
  intros lat. constructor; cbn [nest_init lat_init known defined current cur]; auto.
  - intros [|i] c H; cbn [nth_error] in H; [|destruct i; discriminate].
    inversion H; subst. exists (mkEntry lat None). cbn [nth_error hd tl e_lat e_parent].
    split; auto. split; [discriminate|]. split; auto. apply base_entry.
  - constructor; [simpl; tauto|constructor].
Qed.

Lemma sim_current : forall base s t, sim base s t ->
  exists e, nth_error (defined t) (current t) = Some e /\ l_size (e_lat e) = hd [] (cur s) /\
    e_lat e = setup_blocked_lattice (hd [] (cur s)) base /\ cur s <> [].
Proof.
  intros base s t H. destruct (sim_entry _ _ _ H _ _ (sim_cur _ _ _ H)) as (e & H1 & H2 & H3 & _).
  exists e. split; auto. split; [rewrite H3; reflexivity|auto].
Qed.

Lemma sim_block : forall base s t bf siz, sim base s t ->
  blocking (hd [] (cur s)) bf -> times bf siz = hd [] (cur s) -> length siz = length bf ->
  sizes_differ (push s siz) ->
  exists t', block_by_factor t bf = Some t' /\ sim base (push s siz) t' /\
    exists l, defined t' = defined t ++ l.
Proof.
  intros base s t bf siz H Hb Ht Hl Hd.
  destruct (sim_current _ _ _ H) as (e & He & Es & El & Hc).
  unfold block_by_factor. rewrite He, Es, blocking_can by auto.
  cbv zeta. replace (element_div (hd [] (cur s)) bf) with siz
    by (rewrite <- Ht, times_div; auto; eapply blocking_pos; eauto).
  destruct (find_size siz (defined t) 0) as [k|] eqn:Ef.
  - (* reuse *)
    apply find_size_some in Ef. destruct Ef as (j & e' & -> & Hj & Hs).
    destruct (nth_error (known s) j) as [c|] eqn:Ec.
    2:{ apply nth_error_None in Ec. rewrite (sim_len _ _ _ H) in Ec.
        apply nth_error_None in Ec. congruence. }
    destruct (sim_entry _ _ _ H _ _ Ec) as (e'' & H1 & H2 & H3 & H4).
    assert (e'' = e') by congruence. subst e''.
    assert (Hsz : hd [] c = siz) by (rewrite <- Hs, H3; reflexivity).
    assert (Hcc : c = siz :: cur s).
    { apply Hd.
      - unfold push. cbn [known]. destruct (in_dec chain_eq_dec _ _).
        + eapply nth_error_In; eauto.
        + apply in_or_app. left. eapply nth_error_In; eauto.
      - unfold push. cbn [known]. destruct (in_dec chain_eq_dec _ _); auto.
        apply in_or_app. right. simpl. auto.
      - exact Hsz. }
    eexists. split; [reflexivity|]. split; [|exists []; rewrite app_nil_r; auto].
    assert (Hin : In (siz :: cur s) (known s)) by (rewrite <- Hcc; eapply nth_error_In; eauto).
    unfold push. destruct (in_dec chain_eq_dec _ _); [|tauto].
    destruct H as [Ha Hb' Hc' Hd']. constructor; cbn [known cur defined current]; auto.
    rewrite Nat.add_0_l. congruence.
  - (* new *)
    assert (Hni : ~ In (siz :: cur s) (known s)).
    { intros Hin. apply In_nth_error in Hin. destruct Hin as [j Hj].
      destruct (sim_entry _ _ _ H _ _ Hj) as (e' & H1 & H2 & H3 & _).
      apply (find_size_none _ _ _ Ef e'); [eapply nth_error_In; eauto|]. rewrite H3. reflexivity. }
    eexists. split; [reflexivity|]. split; [|eexists; reflexivity].
    unfold push. destruct (in_dec chain_eq_dec _ _); [tauto|].
    destruct H as [Ha Hb' Hc' Hd']. constructor; cbn [known cur defined current]; auto.
    + rewrite !app_length. simpl. lia.
    + intros i c Hi. destruct (Nat.lt_ge_cases i (length (known s))) as [Hlt|Hge].
      * rewrite nth_error_app1 in Hi by auto. destruct (Hb' _ _ Hi) as (e' & H1 & H2 & H3 & H4).
        exists e'. rewrite nth_error_app1 by lia. split; auto. split; auto. split; auto.
        destruct (tl c); auto. destruct H4 as (j & H5 & H6 & H7). exists j. split; auto. split; auto.
        rewrite nth_error_app1; auto. apply nth_error_Some. congruence.
      * rewrite nth_error_app2 in Hi by auto.
        destruct (i - length (known s))%nat eqn:Ei; [|destruct n0; discriminate].
        cbn [nth_error] in Hi. inversion Hi; subst c; clear Hi.
        assert (i = length (defined t)) by lia. subst i.
        eexists. rewrite nth_error_app2, Nat.sub_diag by lia. cbn [nth_error].
        split; [reflexivity|]. split; [discriminate|]. cbn [hd tl e_lat e_parent]. split.
        { rewrite El. reflexivity. }
        destruct (cur s) eqn:Ecur; [tauto|]. exists (current t). split; auto.
        assert ((current t < length (known s))%nat) by (apply nth_error_Some; congruence).
        split; [lia|]. rewrite nth_error_app1; auto.
    + rewrite nth_error_app2 by lia. rewrite <- Ha, Nat.sub_diag. reflexivity.
    + apply NoDup_app_intro; auto.
      * constructor; [simpl; tauto|constructor].
      * intros x Hx [<-|[]]. auto.
Qed.

Lemma sim_step : forall base s t op s', sim base s t -> nest_step s op s' -> sizes_differ s' ->
  exists t', lat_step t op = Some t' /\ sim base s' t' /\ exists l, defined t' = defined t ++ l.
Proof.
  intros base s t op s' H Hn Hd. destruct Hn; cbn [lat_step].
  - apply sim_block; auto.
  - replace ((k =? 0) || (k =? 1)) with false by (symmetry; apply orb_false_iff; lia).
    destruct (sim_current _ _ _ H) as (e & He & Es & El & Hc). rewrite He.
    replace (map (fun _ : Z => k) (l_size (e_lat e))) with (repeat k (length (hd [] (cur s)))).
    2:{ rewrite Es. clear. induction (hd [] (cur s)); simpl; congruence. }
    assert (Hlen : length siz = length (hd [] (cur s))).
    { rewrite <- H3. clear. induction siz; simpl; congruence. }
    apply sim_block; auto.
    + rewrite <- Hlen. auto.
    + rewrite repeat_length. auto.
  - replace ((k =? 0) || (k =? 1)) with true by (symmetry; apply orb_true_iff; lia).
    exists t. split; auto. split; auto. exists []. rewrite app_nil_r. auto.
  - destruct (sim_entry _ _ _ H _ _ (sim_cur _ _ _ H)) as (e & H2 & H3 & H4 & H5).
    rewrite H0 in H5. cbn [tl] in H5. destruct c as [|x' c]; [tauto|].
    destruct H5 as (j & H5 & H6 & H7). rewrite H2. destruct e as [el ep]. cbn [e_parent] in H5. subst ep.
    eexists. split; [reflexivity|]. split; [|exists []; rewrite app_nil_r; auto].
    destruct H. constructor; cbn [known cur defined current]; auto.
  - eexists. split; [reflexivity|]. split; [|exists []; rewrite app_nil_r; auto].
    destruct H. constructor; cbn [known cur defined current]; auto.
  - assert (Hi : (i < length (defined t))%nat).
    { rewrite <- (sim_len _ _ _ H). apply nth_error_Some. congruence. }
    apply Nat.ltb_lt in Hi. rewrite Hi.
    eexists. split; [reflexivity|]. split; [|exists []; rewrite app_nil_r; auto].
    destruct H. constructor; cbn [known cur defined current]; auto.
Qed.

Lemma sim_run : forall base s ops s', nest_run s ops s' -> forall t, sim base s t ->
  exists t', lat_run t ops = Some t' /\ sim base s' t' /\ exists l, defined t' = defined t ++ l.
Proof.
  intros base s ops s' H. induction H; intros t Ht; cbn [lat_run].
  - exists t. split; auto. split; auto. exists []. rewrite app_nil_r. auto.
  - destruct (sim_step _ _ _ _ _ Ht H H0) as (t1 & E1 & H2 & l1 & Hl1). rewrite E1.
    destruct (IHnest_run _ H2) as (t2 & E2 & H3 & l2 & Hl2).
    exists t2. split; auto. split; auto. exists (l1 ++ l2). rewrite Hl2, Hl1, app_assoc. auto.
Qed.

(** The program stops only where the chain model has no step. *)
Lemma sim_stops : forall base s t op t', sim base s t ->
  (match op with Block bf => length bf = length (hd [] (cur s)) | _ => True end) ->
  lat_step t op = Some t' -> exists s', nest_step s op s'.
Proof.
  intros base s t op t' H Hw Hs. destruct (sim_current _ _ _ H) as (e & He & Es & El & Hc).
  assert (Hblk : forall bf, length bf = length (hd [] (cur s)) -> block_by_factor t bf = Some t' ->
     blocking (hd [] (cur s)) bf).
  { intros bf Hl Hb. unfold block_by_factor in Hb. rewrite He, Es in Hb.
    destruct (can_block_by_factor (hd [] (cur s)) bf) as [[]|] eqn:E; try discriminate.
    apply can_blocking; auto. }
  destruct op; cbn [lat_step] in Hs.
  - apply Hblk in Hs; auto. destruct (element_div_times _ _ Hs) as [E1 E2].
    exists (push s (element_div (hd [] (cur s)) bf)). constructor; auto. congruence.
  - destruct ((k =? 0) || (k =? 1)) eqn:E.
    + exists s. apply N_block_none. apply orb_true_iff in E. lia.
    + apply orb_false_iff in E. rewrite He in Hs.
      replace (map (fun _ : Z => k) (l_size (e_lat e))) with (repeat k (length (hd [] (cur s)))) in Hs.
      2:{ rewrite Es. clear. induction (hd [] (cur s)); simpl; congruence. }
      apply Hblk in Hs; [|apply repeat_length]. destruct (element_div_times _ _ Hs) as [E1 E2].
      exists (push s (element_div (hd [] (cur s)) (repeat k (length (hd [] (cur s)))))).
      constructor; auto; try lia. rewrite E2. auto.
  - rewrite He in Hs. destruct (sim_entry _ _ _ H _ _ (sim_cur _ _ _ H)) as (e' & H2 & H3 & H4 & H5).
    assert (e' = e) by congruence. subst e'. destruct e as [el [p|]]; [|discriminate].
    cbn [e_parent] in H5. destruct (cur s) as [|x c] eqn:Ec; [tauto|]. cbn [tl] in H5.
    exists (mkNest (known s) c). apply N_unblock with (x := x); auto.
    destruct c; [discriminate|discriminate].
  - assert (E : exists c, nth_error (known s) 0 = Some c).
    { assert (X := sim_cur _ _ _ H). destruct (known s) as [|c l]; [destruct (current t); discriminate|].
      exists c. auto. }
    destruct E as [c E]. eexists. apply N_base. eauto.
  - destruct (Nat.ltb i (length (defined t))) eqn:E; [|discriminate]. apply Nat.ltb_lt in E.
    rewrite <- (sim_len _ _ _ H) in E. apply nth_error_Some in E.
    destruct (nth_error (known s) i) eqn:Ei; [|tauto]. eexists. apply N_switch. eauto.
Qed.

(** The chain that the program sees. *)
Lemma sim_chain : forall base s t, sim base s t -> forall i c n, nth_error (known s) i = Some c ->
  (i < n)%nat -> chain_of n (defined t) i = Some c.
Proof.
  intros base s t H i. induction i as [i IH] using lt_wf_ind. intros c n Hi Hn.
  destruct (sim_entry _ _ _ H _ _ Hi) as (e & H1 & H2 & H3 & H4).
  destruct n; [lia|]. cbn [chain_of]. rewrite H1. destruct c as [|x c]; [tauto|].
  cbn [hd tl] in *. rewrite H3. cbn [setup_blocked_lattice l_size].
  destruct c as [|y c].
  - rewrite H4. auto.
  - destruct H4 as (j & H5 & H6 & H7). rewrite H5. rewrite (IH j) with (c := y :: c); auto. lia.
Qed.

Lemma nest_known_grows : forall s ops s', nest_run s ops s' -> exists l, known s' = known s ++ l.
Proof.
  intros s ops s' H. induction H.
  - exists []. rewrite app_nil_r. auto.
  - destruct IHnest_run as [l2 E2].
    assert (E1 : exists l1, known s' = known s ++ l1).
    { destruct H; try (exists []; rewrite app_nil_r; reflexivity);
        unfold push; cbn [known]; destruct (in_dec chain_eq_dec _ _);
        first [exists []; rewrite app_nil_r; reflexivity | eexists; reflexivity]. }
    destruct E1 as [l1 E1]. exists (l1 ++ l2). rewrite E2, E1, app_assoc. auto.
Qed.

(** Blocks followed by as many unblocks. *)
Lemma unblocks_run : forall xs s c, cur s = xs ++ c -> c <> [] -> sizes_differ s ->
  nest_run s (repeat Unblock (length xs)) (mkNest (known s) c).
Proof.
  induction xs; intros s c E Hc Hd; cbn [length repeat].
  - simpl in E. rewrite <- E. destruct s. constructor.
  - econstructor.
    + apply N_unblock with (x := a) (c := xs ++ c); [exact E|]. destruct xs; [auto|discriminate].
    + exact Hd.
    + exact (IHxs (mkNest (known s) (xs ++ c)) c eq_refl Hc Hd).
Qed.

Lemma blocks_cur : forall fs s s', nest_run s (map Block fs) s' ->
  exists xs, cur s' = xs ++ cur s /\ length xs = length fs.
Proof.
  induction fs; intros s s' H; cbn [map] in H.
  - inversion H; subst. exists []. auto.
  - inversion H as [|? ? s1 ? ? Hs Hd Hrun]; subst. apply IHfs in Hrun. destruct Hrun as (xs & E & El).
    inversion Hs; subst. cbn [push cur] in E. exists (xs ++ [siz]).
    rewrite <- app_assoc. split; [exact E|]. rewrite app_length. simpl. lia.
Qed.

Lemma last_differ : forall s ops s', nest_run s ops s' -> sizes_differ s -> sizes_differ s'.
Proof. induction 1; auto. Qed.

Lemma nest_run_app : forall s a s1 b s2, nest_run s a s1 -> nest_run s1 b s2 -> nest_run s (a ++ b) s2.
Proof. induction 1; intros; simpl; auto. econstructor; eauto. Qed.

Lemma init_differ : forall ls, sizes_differ (nest_init ls).
Proof. intros ls a b [<-|[]] [<-|[]] _. auto. Qed.

Lemma blocks_unblocks : forall lat ops s fs s', nest_run (nest_init (l_size lat)) ops s ->
  nest_run s (map Block fs) s' ->
  exists t t', lat_run (lat_init lat) ops = Some t /\
    lat_run t (map Block fs ++ repeat Unblock (length fs)) = Some t' /\
    current t' = current t /\
    nth_error (defined t') (current t') = nth_error (defined t) (current t).
Proof.
  intros lat ops s fs s' H1 H2.
  destruct (sim_run _ _ _ _ H1 _ (sim_init lat)) as (t & E1 & Ht & _).
  destruct (blocks_cur _ _ _ H2) as (xs & Ex & El).
  destruct (sim_current _ _ _ Ht) as (e & He & _ & _ & Hc).
  assert (Hd : sizes_differ s') by (eapply last_differ; [exact H2|eapply last_differ; eauto using init_differ]).
  assert (H3 := unblocks_run xs s' (cur s) Ex Hc Hd). rewrite El in H3.
  destruct (sim_run _ _ _ _ (nest_run_app _ _ _ _ _ H2 H3) _ Ht) as (t' & E2 & Ht' & l & Hl).
  exists t, t'. split; auto. split; auto.
  assert (Ec : current t' = current t).
  { destruct (nest_known_grows _ _ _ H2) as [kl Hk].
    assert (A := sim_cur _ _ _ Ht'). cbn [known cur] in A. assert (B := sim_cur _ _ _ Ht).
    assert (N := sim_nodup _ _ _ Ht'). cbn [known] in N.
    rewrite NoDup_nth_error in N. apply N.
    - apply nth_error_Some. congruence.
    - rewrite A, Hk. rewrite nth_error_app1; auto. apply nth_error_Some. congruence. }
  split; auto. rewrite Ec, Hl, nth_error_app1; auto. apply nth_error_Some. congruence.
Qed.

Lemma nest_refined : forall lat ops s, nest_run (nest_init (l_size lat)) ops s ->
  exists t, lat_run (lat_init lat) ops = Some t /\
    length (defined t) = length (known s) /\
    chain_of (length (defined t)) (defined t) (current t) = Some (cur s) /\
    (forall i c, nth_error (known s) i = Some c ->
       chain_of (length (defined t)) (defined t) i = Some c) /\
    (forall i e, nth_error (defined t) i = Some e ->
       e_lat e = setup_blocked_lattice (l_size (e_lat e)) lat) /\
    (forall op t', (match op with Block bf => length bf = length (hd [] (cur s)) | _ => True end) ->
       lat_step t op = Some t' -> exists s', nest_step s op s').
Proof.
  intros lat ops s H. destruct (sim_run _ _ _ _ H _ (sim_init lat)) as (t & E & Ht & _).
  exists t. split; auto. split; [symmetry; apply (sim_len _ _ _ Ht)|].
  assert (Hch : forall i c, nth_error (known s) i = Some c ->
       chain_of (length (defined t)) (defined t) i = Some c).
  { intros i c Hi. eapply sim_chain; eauto. rewrite <- (sim_len _ _ _ Ht). apply nth_error_Some. congruence. }
  split; [apply Hch; apply (sim_cur _ _ _ Ht)|]. split; auto. split.
  - intros i e He. destruct (nth_error (known s) i) as [c|] eqn:Ec.
    + destruct (sim_entry _ _ _ Ht _ _ Ec) as (e' & H1 & H2 & H3 & _).
      assert (e' = e) by congruence. subst e'. rewrite H3. reflexivity.
    + apply nth_error_None in Ec. rewrite (sim_len _ _ _ Ht) in Ec. apply nth_error_None in Ec. congruence.
  - intros op t'. eapply sim_stops; eauto.
Qed.
