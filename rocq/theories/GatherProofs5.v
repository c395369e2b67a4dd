(** Every operation of a rank preserves the local invariant. *)
From Verif Require Import Common LayoutModel LayoutSpec LayoutProofs1 LayoutProofs2 LayoutProofs4
  LayoutProofs5 LayoutProofs6 LayoutProofs7 LayoutProofs8 GatherModel GatherSpec GatherProofs1 GatherProofs2
  GatherProofs3 GatherProofs4.

Section Exec.
  Variable V : Type.
  Variable lat : lattice.
  Hypothesis Hv : valid_lattice lat.
  Hypothesis Hev : even_where_split lat.
  Variable prog : list (mop V).
  Variable F0 : Z -> list Z -> V.
  Hypothesis Hprog : prog_ok (op_ok lat) (ainit F0) prog.

  Local Notation dir := (is_direction (l_size lat)).
  Local Notation from r d := (cn_rank (from_node lat r d)).
  Local Notation to r d := (cn_rank (to_node lat r d)).
  Local Notation local_ok := (local_ok V lat prog F0).
  Local Notation A := (A V prog F0).
  Local Notation msg := (msg V prog F0).
  Local Notation tagof := (tagof V prog F0).
  Local Notation cnt := (cnt V lat prog F0).
  Local Notation env := (env V lat prog F0).
  Local Notation aset := (aset V).

  Definition weaker (s' s : rank_state V) : Prop :=
    rs_pc V s' = rs_pc V s /\
    (forall k, rs_rreq V s' k = rs_rreq V s k \/ rs_rreq V s' k = NoReq) /\
    (forall k, rs_sreq V s' k = rs_sreq V s k \/ rs_sreq V s' k = NoReq).
  Definition blocked_on (r : Z) (s : rank_state V) : Prop :=
    exists f d q, dir d /\ ((from r d <> r /\ is_pending (rs_rreq V s (f, d, q))) \/
                            (to r d <> r /\ is_pending (rs_sreq V s (f, d, q)))).

  Definition okres (net : network V) (r : Z) (k : nat) (a' : @astate V) (s : rank_state V) (P : Prop)
    (o : outcome (rank_state V)) : Prop :=
    match o with
    | Next s' => local_ok net r k a' s' /\ weaker s' s
    | Blocked => blocked_on r s
    | Exited => P
    | Undefined => False
    end.

  Lemma weaker_refl : forall s, weaker s s.
  Proof. intros s. split; auto. Qed.
  Lemma weaker_trans : forall a b c, weaker a b -> weaker b c -> weaker a c.
  Proof.
    intros a b c (H1 & H2 & H3) (K1 & K2 & K3). split; [congruence|]. split; intros k.
    - destruct (H2 k) as [->| ->]; auto.
    - destruct (H3 k) as [->| ->]; auto.
  Qed.
  Lemma blocked_weaker : forall r s' s, weaker s' s -> blocked_on r s' -> blocked_on r s.
  Proof.
    intros r s' s (H1 & H2 & H3) (f & d & q & Hd & H). exists f, d, q. split; auto.
    destruct H as [[Hn (p & t & n & E)]|[Hn (p & t & n & E)]].
    - left. split; auto. destruct (H2 (f, d, q)) as [E2|E2]; [|congruence]. exists p, t, n. congruence.
    - right. split; auto. destruct (H3 (f, d, q)) as [E2|E2]; [|congruence]. exists p, t, n. congruence.
  Qed.

  Lemma okres_bind : forall net r k a1 a2 s P o fn, okres net r k a1 s P o ->
    (forall s1, local_ok net r k a1 s1 -> okres net r k a2 s1 P (fn s1)) ->
    okres net r k a2 s P (obind o fn).
  Proof.
    intros net r k a1 a2 s P o fn H1 H2. destruct o; cbn in *; auto. destruct H1 as [H1 Hw].
    specialize (H2 a H1). destruct (fn a); cbn in *; auto.
    - destruct H2. split; auto. eapply weaker_trans; eauto.
    - eapply blocked_weaker; eauto.
  Qed.
  Lemma okres_ext : forall net r k a a' s P o, okres net r k a s P o ->
    aF a' = aF a -> aG a' = aG a -> aT a' = aT a -> aL a' = aL a ->
    (forall f d, dir d -> aS a' f d = aS a f d) -> okres net r k a' s P o.
  Proof.
    intros net r k a a' s P o H. destruct o; cbn in *; auto. destruct H as [H Hw]. intros. split; auto.
    eapply local_ext; eauto.
  Qed.

  Lemma wait_one_weaker : forall r f d q s s', wait_one V lat r f d q s = Next s' -> weaker s' s.
  Proof.
    intros r f d q s s'. unfold wait_one. intros H.
    assert (W1 : forall s0, weaker (set_rreq V s0 (kupd (rs_rreq V s0) (f, d, q) NoReq)) s0).
    { intros s0. split; auto. split; auto. intros [[f' d'] q']. cbn.
      destruct (key_dec (f', d', q') (f, d, q)) as [E|E]; [inversion E; subst; right; apply kupd_eq|left; apply kupd_neq; auto]. }
    assert (W2 : forall s0, weaker (set_sreq V s0 (kupd (rs_sreq V s0) (f, d, q) NoReq)) s0).
    { intros s0. split; auto. split; auto. intros [[f' d'] q']. cbn.
      destruct (key_dec (f', d', q') (f, d, q)) as [E|E]; [inversion E; subst; right; apply kupd_eq|left; apply kupd_neq; auto]. }
    destruct (from r d =? r); cbn [obind] in H.
    - destruct (to r d =? r); cbn [obind] in H.
      + inversion H; subst. split; auto.
      + destruct (mpi_wait (rs_sreq V s (f, d, q))); cbn [obind] in H; try discriminate.
        inversion H; subst. apply (W2 s).
    - destruct (mpi_wait (rs_rreq V s (f, d, q))); cbn [obind] in H; try discriminate.
      set (s1 := set_rreq V s (kupd (rs_rreq V s) (f, d, q) NoReq)) in H.
      apply (weaker_trans _ s1); [|apply W1].
      destruct (to r d =? r); cbn [obind] in H.
      + inversion H; subst. split; auto.
      + destruct (mpi_wait (rs_sreq V s1 (f, d, q))); cbn [obind] in H; try discriminate.
        inversion H; subst. apply (W2 s1).
  Qed.

  Lemma wait_one_res : forall net r k a s f d q P, local_ok net r k a s -> dir d -> noncomm lat r d = false ->
    aS a f d q = STARTED ->
    okres net r k (aset a f d (set_stat (aS a f d) q DONE)) s P (wait_one V lat r f d q s).
  Proof.
    intros net r k a s f d q P H Hd Hc HS.
    assert (W := wait_one_ok V lat prog F0 net r k a s f d q H Hd Hc HS).
    assert (X := wait_one_weaker r f d q s). destruct (wait_one V lat r f d q s); cbn in *; try tauto.
    - destruct W. split; auto.
    - exists f, d, q. split; auto.
  Qed.

  Lemma wait_all_res : forall net r k f d P, dir d -> noncomm lat r d = false -> forall qs a s,
    local_ok net r k a s -> NoDup qs -> (forall q, In q qs -> aS a f d q = STARTED) ->
    okres net r k (aset a f d (fold_left (fun st q => set_stat st q DONE) qs (aS a f d))) s P
      (wait_all V lat r f d qs s).
  Proof.
    intros net r k f d P Hd Hc. induction qs as [|q qs IH]; intros a s H Hn HS.
    - cbn. split; [|apply weaker_refl]. apply (local_ext _ _ _ _ _ _ _ a); auto.
      intros f' d' _. cbn. destruct (zupd2_cases _ (aS a) f d (aS a f d) f' d') as [(-> & -> & ->)|[_ ->]]; auto.
    - inversion Hn; subst. cbn [wait_all fold_left].
      eapply okres_bind; [apply (wait_one_res net r k a s f d q P H Hd Hc); apply HS; left; auto|].
      intros s1 H1. eapply okres_ext; [apply (IH _ s1 H1 H3)| | | | |]; try reflexivity.
      + intros q' Hi. cbn. rewrite zupd2_eq. rewrite set_stat_neq; [apply HS; right; auto|].
        intros ->. contradiction.
      + intros f' d' _. cbn. rewrite zupd2_eq. unfold zupd2. destruct ((f' =? f) && (d' =? d)); auto.
  Qed.

  Lemma local_noncomm : forall net r k a s f d st, local_ok net r k a s -> noncomm lat r d = true ->
    local_ok net r k (aset a f d st) s.
  Proof.
    intros net r k a s f d st H Hn. assert (Hn' := proj1 (noncomm_true lat r d) Hn). destruct Hn' as [E1 E2].
    destruct H as [Hmem Hstat Hnon Htag Hns Hnr Hrecv Hsend Hn2 Hn3 Hn4s Hn4r Hlog]. constructor; auto.
    - intros f' d' Hd Hc. cbn. destruct (zupd2_cases _ (aS a) f d st f' d') as [(-> & -> & _)|[_ ->]]; [congruence|auto].
    - intros f' d' q Hd. destruct (Hrecv f' d' q Hd) as [R1 R2]. split; auto. intros Hf.
      cbn. destruct (zupd2_cases _ (aS a) f d st f' d') as [(-> & -> & _)|[_ ->]]; [congruence|exact (R2 Hf)].
    - intros f' d' q Hd. destruct (Hsend f' d' q Hd) as [R1 R2]. split; auto. intros Hf.
      cbn. destruct (zupd2_cases _ (aS a) f d st f' d') as [(-> & -> & _)|[_ ->]]; [congruence|exact (R2 Hf)].
  Qed.

  Lemma aset_id : forall net r k a s f d, local_ok net r k a s -> local_ok net r k (aset a f d (aS a f d)) s.
  Proof.
    intros. apply (local_ext _ _ _ _ _ _ _ a); auto. intros f' d' _. cbn.
    destruct (zupd2_cases _ (aS a) f d (aS a f d) f' d') as [(-> & -> & ->)|[_ ->]]; auto.
  Qed.

  Lemma wait_gather_res : forall net r k a s f d p, local_ok net r k a s -> dir d ->
    okres net r k (aset a f d (wait_st (aS a f d) p)) s
      (noncomm lat r d = false /\ is_gathered (aS a f d) p = false /\ resolve_started_parity (aS a f d) p = None)
      (wait_gather V lat r f d p s).
  Proof.
    intros net r k a s f d p H Hd. unfold wait_gather.
    destruct (noncomm lat r d) eqn:Hc.
    - destruct (is_gathered (rs_stat V s f d) p); cbn; split; auto using weaker_refl, local_noncomm.
    - rewrite (ro_stat _ _ _ _ _ _ _ _ _ H f d Hd Hc). unfold wait_st.
      destruct (is_gathered (aS a f d) p) eqn:G; [cbn; split; auto using weaker_refl, aset_id|].
      destruct (resolve_started_parity (aS a f d) p) as [qs|] eqn:R; [|cbn; auto].
      destruct (resolve_started _ _ _ R) as [N S].
      assert (W := wait_all_res net r k f d (false = false /\ false = false /\ Some qs = None) Hd Hc qs a s H N S).
      auto.
  Qed.

  Lemma wif_res : forall net r k a s f d p P, local_ok net r k a s -> dir d -> excl (aS a f d) ->
    okres net r k (aset a f d (wif_st (aS a f d) p)) s P (wait_if_started V lat r f d p s).
  Proof.
    intros net r k a s f d p P H Hd He. unfold wait_if_started, wif_st.
    destruct (noncomm lat r d) eqn:Hc.
    - assert (Hn := ro_non _ _ _ _ _ _ _ _ _ H f d Hd Hc p). unfold is_gather_started.
      destruct (rs_stat V s f d p); cbn [gstat_eqb]; try congruence; cbn; split; auto using weaker_refl, local_noncomm.
    - rewrite (ro_stat _ _ _ _ _ _ _ _ _ H f d Hd Hc).
      destruct (is_gather_started (aS a f d) p) eqn:E; [|cbn; split; auto using weaker_refl, aset_id].
      assert (W := wait_gather_res net r k a s f d p H Hd). destruct (wait_gather V lat r f d p s); cbn in *; auto.
      destruct W as (_ & _ & W). exfalso. unfold is_gather_started in E.
      assert (S : aS a f d p = STARTED) by (destruct (aS a f d p); cbn in E; congruence).
      rewrite resolve_self in W by auto. discriminate.
  Qed.

  Lemma drop_res : forall net r k a s f d p P, local_ok net r k a s -> dir d -> excl (aS a f d) ->
    okres net r k (aset a f d (drop_st (aS a f d) p)) s P (drop_comms V lat r f d p s).
  Proof.
    intros net r k a s f d p P H Hd He. unfold drop_comms, drop_st.
    assert (E1 := excl_wif _ ALL He). assert (E2 := excl_wif _ EVEN E1).
    eapply okres_bind; [apply (wif_res net r k a s f d ALL P H Hd He)|]. intros s1 H1.
    assert (W1 : forall p', okres net r k (aset a f d (wif_st (wif_st (aS a f d) ALL) p')) s1 P (wait_if_started V lat r f d p' s1)).
    { intros p'. eapply okres_ext; [apply (wif_res net r k _ s1 f d p' P H1 Hd); cbn; rewrite zupd2_eq; auto| | | | |]; try reflexivity.
      intros f' d' _. cbn. rewrite zupd2_eq. unfold zupd2. destruct ((f' =? f) && (d' =? d)); auto. }
    destruct p; auto.
    eapply okres_bind; [apply W1|]. intros s2 H2.
    eapply okres_ext; [apply (wif_res net r k _ s2 f d ODD P H2 Hd); cbn; rewrite zupd2_eq; auto| | | | |]; try reflexivity.
    intros f' d' _. cbn. rewrite zupd2_eq. unfold zupd2. destruct ((f' =? f) && (d' =? d)); auto.
  Qed.

  (** *** Advancing the program counter past an operation that posts nothing *)
  Definition no_post (k : nat) : Prop := forall f d p, nth_error prog k <> Some (MStart f d p).
  Lemma no_post_env : forall k s r t, no_post k -> env s r t k = false.
  Proof.
    intros k s r t H. unfold env. destruct (nth_error prog k) as [o|] eqn:E; auto.
    destruct o; auto. exfalso. apply (H f d p); auto.
  Qed.

  Lemma msg_lt_S : forall k j f d q, no_post k -> msg j f d q -> (j < S k)%nat -> (j < k)%nat.
  Proof.
    intros k j f d q Hn (p & E & _) Hj. destruct (Nat.eq_dec j k) as [->|]; [|lia]. exfalso. apply (Hn f d p); auto.
  Qed.

  Lemma local_advance : forall net r k a s, no_post k -> local_ok net r k a s -> local_ok net r (S k) a s.
  Proof.
    intros net r k a s Hn H.
    assert (HC : forall s' r' t, cnt s' r' t (S k) = cnt s' r' t k).
    { intros. rewrite cnt_S, no_post_env by auto. lia. }
    assert (N2 := ro_n2 _ _ _ _ _ _ _ _ _ H). assert (N3 := ro_n3 _ _ _ _ _ _ _ _ _ H).
    destruct H as [Hmem Hstat Hnon Htag Hns Hnr Hrecv Hsend Hn2 Hn3 Hn4s Hn4r Hlog]. constructor; auto.
    - intros. rewrite HC. auto.
    - intros. rewrite HC. auto.
    - intros f d q Hd. destruct (Hrecv f d q Hd) as [R1 R2]. split; auto. intros Hf. specialize (R2 Hf).
      destruct (aS a f d q); auto. destruct R2 as (j & Hj & R2). exists j. split; [lia|auto].
    - intros f d q Hd. destruct (Hsend f d q Hd) as [R1 R2]. split; auto. intros Hf. specialize (R2 Hf).
      destruct (aS a f d q); auto. destruct R2 as (j & Hj & R2). exists j. split; [lia|auto].
    - intros j f d q Hj Hm. apply N2; auto. eapply msg_lt_S; eauto.
    - intros j f d q Hj Hm. apply N3; auto. eapply msg_lt_S; eauto.
    - intros. rewrite HC. eauto.
    - intros. rewrite HC. eauto.
  Qed.

  Lemma local_set_pc : forall net r k a s n, local_ok net r k a s -> local_ok net r k a (set_pc V s n).
  Proof. intros net r k a s n H. destruct H as [Hmem Hstat Hnon Htag Hns Hnr Hrecv Hsend Hn2 Hn3 Hn4s Hn4r Hlog]. constructor; auto. Qed.

  (** *** Writing *)
  Lemma write_ok : forall net r k a s f p w, is_rank lat r -> local_ok net r k a s ->
    local_ok net r k (astep a (MWrite f p w))
      (set_mem V s (zupd (rs_mem V s) f (write_sites V lat r p w (rs_mem V s f)))).
  Proof.
    intros net r k a s f p w Hr H. destruct H as [Hmem Hstat Hnon Htag Hns Hnr Hrecv Hsend Hn2 Hn3 Hn4s Hn4r Hlog].
    assert (HH : forall f' d q G, dir d -> halo lat (rs_mem V s f') r d q G ->
       halo lat (zupd (rs_mem V s) f (write_sites V lat r p w (rs_mem V s f)) f') r d q G).
    { intros f' d q G Hd Hh c Hc. unfold zupd. destruct (Z.eqb_spec f' f); [subst|auto].
      rewrite write_sites_halo; auto.
      destruct (halo_bounds lat Hv r d q Hr Hd) as (B1 & _ & B2).
      assert (B3 := halo_address lat Hv r d q c Hr Hd Hc). cbn in B3. lia. }
    constructor; auto.
    - intros f' c Hc. cbn. unfold zupd, assign. destruct (Z.eqb_spec f' f); cbn; auto.
      subst. rewrite write_sites_spec by auto. rewrite Hmem by auto. auto.
    - intros f' d q Hd. destruct (Hrecv f' d q Hd) as [R1 R2]. split; auto. intros Hf. specialize (R2 Hf). cbn.
      destruct (aS a f' d q); auto.
      + destruct R2 as (j & Hj & Hm & Ha & R2). exists j. split; auto. split; auto. split; auto.
        destruct R2 as [R2|[R2 R3]]; auto.
      + destruct R2; auto.
  Qed.

  (** *** mark_changed for one direction *)
  Lemma changed_keeps : forall st p q, changed_stat st p q <> NOT_DONE -> q = p /\ p <> ALL /\ changed_stat st p q = st q.
  Proof.
    intros st p q. unfold changed_stat, set_stat. destruct p, q; cbn; intros; try congruence; split; auto; split; congruence.
  Qed.

  Lemma changed_ok : forall net r k a s f d p, is_rank lat r -> local_ok net r k (aset a f d (drop_st (aS a f d) (opp_parity p))) s ->
    aexcl a -> op_ok lat a (MChanged f d p) ->
    local_ok net r k (astep a (MChanged f d p)) (put_stat V s f d (changed_stat (rs_stat V s f d) p)).
  Proof.
    intros net r k a s f d p Hr H He [Hd HG].
    set (st := drop_st (aS a f d) (opp_parity p)) in *.
    assert (Hs : forall q, st q = STARTED -> changed_stat st p q = NOT_DONE -> False).
    { intros q E1 E2. assert (He' : excl (aS a f d)) by apply He.
      assert (D := drop_not_started (aS a f d) (opp_parity p) q He'). fold st in D. apply D; auto.
      unfold changed_stat, set_stat in E2. destruct p, q; cbn in *; auto; congruence. }
    destruct H as [Hmem Hstat Hnon Htag Hns Hnr Hrecv Hsend Hn2 Hn3 Hn4s Hn4r Hlog]. constructor; auto.
    - intros f' d' Hd' Hc'. cbn. specialize (Hstat f' d' Hd' Hc'). cbn in Hstat.
      unfold zupd2 in *. destruct (Z.eqb_spec f' f), (Z.eqb_spec d' d); cbn in *; auto. subst f' d'. rewrite Hstat. reflexivity.
    - intros f' d' Hd' Hc' q. cbn [rs_stat put_stat set_rstat]. specialize (Hnon f' d' Hd' Hc').
      unfold zupd2 in *. destruct (Z.eqb_spec f' f), (Z.eqb_spec d' d); cbn [andb]; auto. subst.
      intros E. destruct (changed_keeps (rs_stat V s f d) p q) as (_ & _ & E'); [congruence|].
      apply (Hnon q). congruence.
    - intros f' d' q Hd'. destruct (Hrecv f' d' q Hd') as [R1 R2]. cbn in R2. split; auto. intros Hf. specialize (R2 Hf).
      cbn. destruct (zupd2_cases _ (aS a) f d (changed_stat st p) f' d') as [(-> & -> & E)|[Hn E]].
      + fold st. rewrite E. rewrite zupd2_eq. rewrite zupd2_eq in R2.
        destruct (changed_stat st p q) eqn:EC.
        * destruct (st q) eqn:Eq; [auto|exfalso; eapply Hs; eauto|tauto].
        * destruct (changed_keeps st p q) as (-> & Hp & E'); [congruence|]. rewrite EC in E'. rewrite <- E' in R2.
          destruct R2 as (j & Hj & Hm & Ha & R2). exists j. split; auto. split; auto.
          assert (FG : forall c, In c (face lat r d p) -> aF a f (neighbour lat c d) = aG a f d (neighbour lat c d)).
          { intros c Hc. apply HG. eapply face_flip; eauto. }
          split; [intros c Hc; rewrite ?zupd2_eq, FG by auto; auto|].
          destruct R2 as [R2|[R2 R3]]; auto. right. split; auto.
          intros c Hc. rewrite ?zupd2_eq, FG by auto. auto.
        * destruct (changed_keeps st p q) as (-> & Hp & E'); [congruence|]. rewrite EC in E'. rewrite <- E' in R2.
          destruct R2 as [R2 R3]. split; auto.
          intros c Hc. rewrite ?zupd2_eq. rewrite (HG (neighbour lat c d)) by (eapply face_flip; eauto). auto.
      + fold st. rewrite E.
        assert (E1 : zupd2 (aS a) f d st f' d' = aS a f' d').
        { destruct (zupd2_cases _ (aS a) f d st f' d') as [(-> & -> & _)|[_ ->]]; tauto. }
        assert (E2 : zupd2 (aG a) f d (aF a f) f' d' = aG a f' d').
        { destruct (zupd2_cases _ (aG a) f d (aF a f) f' d') as [(-> & -> & _)|[_ ->]]; tauto. }
        rewrite E1 in R2. rewrite E2. auto.
    - intros f' d' q Hd'. destruct (Hsend f' d' q Hd') as [R1 R2]. cbn in R2. split; auto. intros Hf. specialize (R2 Hf).
      cbn. destruct (zupd2_cases _ (aS a) f d (changed_stat st p) f' d') as [(-> & -> & E)|[Hn E]].
      + fold st. rewrite E. rewrite zupd2_eq in R2.
        destruct (changed_stat st p q) eqn:EC.
        * destruct (st q) eqn:Eq; [auto|exfalso; eapply Hs; eauto|tauto].
        * destruct (changed_keeps st p q) as (-> & Hp & E'); [congruence|]. rewrite EC in E'. rewrite <- E' in R2. auto.
        * destruct (changed_keeps st p q) as (-> & Hp & E'); [congruence|]. rewrite EC in E'. rewrite <- E' in R2. auto.
      + fold st. rewrite E.
        assert (E1 : zupd2 (aS a) f d st f' d' = aS a f' d').
        { destruct (zupd2_cases _ (aS a) f d st f' d') as [(-> & -> & _)|[_ ->]]; tauto. }
        rewrite E1 in R2. auto.
  Qed.

  (** *** Reading *)
  Lemma gathered_halo : forall net r k a s f d p, is_rank lat r -> local_ok net r k a s ->
    dir d -> (forall c, aF a f c = aG a f d c) -> is_gathered (aS a f d) p = true ->
    halo lat (rs_mem V s f) r d p (aF a f).
  Proof.
    intros net r k a s f d p Hr H Hd HFG Hg.
    intros c Hc. rewrite HFG. assert (Hc' := Hc). apply face_In in Hc'; auto. destruct Hc' as (Hh & Ho & Hp).
      assert (Hf := off_from lat Hv r d c Hr Hd Hh Ho).
      assert (HD : forall q, In c (face lat r d q) -> aS a f d q = DONE ->
                rs_mem V s f (neighb lat r d (site_index (nodeinfo lat r) c)) = aG a f d (neighbour lat c d)).
      { intros q Hq E. destruct (ro_recv _ _ _ _ _ _ _ _ _ H f d q Hd) as [_ R]. specialize (R Hf). rewrite E in R. apply R; auto. }
      assert (HA : In c (face lat r d ALL)) by (apply face_In; auto; split; [exact Hh|split; [exact Ho|exact I]]).
      unfold is_gathered in Hg. destruct p.
      - apply orb_true_iff in Hg. destruct Hg as [Hg|Hg]; [apply (HD EVEN)|apply (HD ALL)]; auto;
          match goal with |- ?x = _ => destruct x; cbn in Hg; congruence end.
      - apply orb_true_iff in Hg. destruct Hg as [Hg|Hg]; [apply (HD ODD)|apply (HD ALL)]; auto;
          match goal with |- ?x = _ => destruct x; cbn in Hg; congruence end.
      - apply orb_true_iff in Hg. destruct Hg as [Hg|Hg].
        + apply (HD ALL); auto. destruct (aS a f d ALL); cbn in Hg; congruence.
        + apply andb_true_iff in Hg. destruct Hg as [G1 G2].
          destruct (parityb EVEN c) eqn:Ep.
          * apply (HD EVEN); [apply face_In; auto; split; [exact Hh|split; [exact Ho|apply parityb_spec; auto]]|].
            destruct (aS a f d EVEN); cbn in G1; congruence.
          * apply (HD ODD); [apply face_In; auto; split; [exact Hh|split; [exact Ho|apply parityb_spec; cbn in *; rewrite Ep; auto]]|].
            destruct (aS a f d ODD); cbn in G2; congruence.
  Qed.

  Lemma look_ok : forall net r k a s f d p, is_rank lat r -> local_ok net r k a s -> op_ok lat a (MLook f d p) ->
    local_ok net r k (astep a (MLook f d p))
      (add_log V s (map (fun i => rs_mem V s f (neighb lat r d i)) (loop_indices (nodeinfo lat r) p))).
  Proof.
    intros net r k a s f d p Hr H (Hd & HFG & Hg).
    assert (HL := gathered_halo net r k a s f d p Hr H Hd HFG Hg).
    destruct H as [Hmem Hstat Hnon Htag Hns Hnr Hrecv Hsend Hn2 Hn3 Hn4s Hn4r Hlog]. constructor; auto.
    cbn. constructor; auto. cbn.
    apply look_correct; auto.
  Qed.
End Exec.
