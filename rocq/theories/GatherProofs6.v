(** [start_gather] preserves the local invariant; one step of a rank. *)
From Verif Require Import Common LayoutModel LayoutSpec LayoutProofs1 LayoutProofs2 LayoutProofs4
  LayoutProofs5 LayoutProofs6 LayoutProofs7 LayoutProofs8 GatherModel GatherSpec GatherProofs1 GatherProofs2
  GatherProofs3 GatherProofs4 GatherProofs5.

Section Start.
  Variable V : Type.
  Variable lat : lattice.
  Hypothesis Hv : valid_lattice lat.
  Hypothesis Hev : even_where_split lat.
  Variable prog : list (mop V).
  Variable F0 : Z -> list Z -> V.
  Hypothesis Hprog : prog_ok (op_ok lat) (ainit F0) prog.

  Local Notation dir := (is_direction (l_size lat)).
  Local Notation from r d := (cn_rank (from_node lat r d)).
  Local Notation to r d := (cn_rank (to_node lat r d)).
  Local Notation local_ok := (local_ok V lat prog F0).
  Local Notation A := (A V prog F0).
  Local Notation msg := (msg V prog F0).
  Local Notation tagof := (tagof V prog F0).
  Local Notation cnt := (cnt V lat prog F0).
  Local Notation env := (env V lat prog F0).

  (** Advancing past operation [k] when it adds no message of rank [r] and
      changes only the status of keys the rank has no partner for. *)
  Lemma start_silent : forall net r k s f d p st, is_rank lat r -> local_ok net r k (A k) s -> dir d ->
    nth_error prog k = Some (MStart f d p) ->
    (noncomm lat r d = true \/ forall q, check_communication false (aS (A k) f d) p <> CDo q) ->
    (noncomm lat r d = false -> st = aS (A k) f d) ->
    (noncomm lat r d = true -> forall q, st q <> STARTED) ->
    (noncomm lat r d = false -> rs_stat V s f d = st) ->
    local_ok net r (S k) (A (S k)) (put_stat V (set_tag V s (next_tag (rs_tag V s))) f d st).
  Proof.
    intros net r k s f d p st Hr H Hd Ek Hc Hst1 Hst2 Hst3.
    rewrite (A_S V prog F0 k _ Ek). cbn [astep].
    assert (Ens : noncomm lat r d = false -> start_st (aS (A k) f d) p = aS (A k) f d).
    { intros E. destruct Hc as [Hc|Hc]; [congruence|]. unfold start_st.
      destruct (check_communication false (aS (A k) f d) p) eqn:C; auto. destruct (Hc q); auto. }
    assert (Ev1 : forall r' t, r' <> r -> env r r' t k = false).
    { intros r' t Hn. unfold GatherProofs4.env. rewrite Ek. destruct (check_communication false _ p) as [| | |q] eqn:C; auto.
      destruct Hc as [Hc|Hc]; [|destruct (Hc q); auto]. apply noncomm_true in Hc. destruct Hc as [_ Hc].
      rewrite Hc. destruct (Z.eqb_spec r r'); [congruence|auto]. }
    assert (Ev2 : forall s' t, is_rank lat s' -> s' <> r -> env s' r t k = false).
    { intros s' t Hs' Hn. unfold GatherProofs4.env. rewrite Ek. destruct (check_communication false _ p) as [| | |q] eqn:C; auto.
      destruct Hc as [Hc|Hc]; [|destruct (Hc q); auto]. apply noncomm_true in Hc. destruct Hc as [Hc _].
      destruct (Z.eqb_spec (to s' d) r) as [E|E]; auto.
      apply (peers_match lat Hv s' r d Hs' Hr Hn Hd) in E. congruence. }
    assert (NM : forall f' d' q, msg k f' d' q -> noncomm lat r d' = true).
    { intros f' d' q (p' & E & C). rewrite E in Ek. inversion Ek; subst. destruct Hc as [Hc|Hc]; auto.
      destruct (Hc q); auto. }
    destruct H as [Hmem Hstat Hnon Htag Hns Hnr Hrecv Hsend Hn2 Hn3 Hn4s Hn4r Hlog]. constructor; auto.
    - intros f' d' Hd' Hc'. cbn.
      destruct (zupd2_cases _ (rs_stat V s) f d st f' d') as [(-> & -> & ->)|[Hn ->]].
      + rewrite zupd2_eq. rewrite Ens, Hst1; auto.
      + rewrite Hstat by auto. destruct (zupd2_cases _ (aS (A k)) f d (start_st (aS (A k) f d) p) f' d') as [(-> & -> & _)|[_ ->]]; tauto.
    - intros f' d' Hd' Hc' q. cbn.
      destruct (zupd2_cases _ (rs_stat V s) f d st f' d') as [(-> & -> & ->)|[Hn ->]]; auto.
    - cbn. rewrite Htag. auto.
    - intros r' t Hr' Hn. cbn [rs_nsend rs_nrecv put_stat set_rstat set_tag]. rewrite cnt_S, Ev1, Nat.add_0_r by auto. auto.
    - intros s' t Hr' Hn. cbn [rs_nsend rs_nrecv put_stat set_rstat set_tag]. rewrite cnt_S, Ev2, Nat.add_0_r by auto. auto.
    - intros f' d' q Hd'. destruct (Hrecv f' d' q Hd') as [R1 R2]. split; auto. intros Hf. specialize (R2 Hf). cbn.
      assert (E : zupd2 (aS (A k)) f d (start_st (aS (A k) f d) p) f' d' = aS (A k) f' d').
      { destruct (zupd2_cases _ (aS (A k)) f d (start_st (aS (A k) f d) p) f' d') as [(-> & -> & ->)|[_ ->]]; auto.
        apply Ens. apply noncomm_false. auto. }
      rewrite E. destruct (aS (A k) f' d' q); auto. destruct R2 as (j & Hj & R2). exists j. split; [lia|auto].
    - intros f' d' q Hd'. destruct (Hsend f' d' q Hd') as [R1 R2]. split; auto. intros Hf. specialize (R2 Hf). cbn.
      assert (E : zupd2 (aS (A k)) f d (start_st (aS (A k) f d) p) f' d' = aS (A k) f' d').
      { destruct (zupd2_cases _ (aS (A k)) f d (start_st (aS (A k) f d) p) f' d') as [(-> & -> & ->)|[_ ->]]; auto.
        apply Ens. apply noncomm_false. auto. }
      rewrite E. destruct (aS (A k) f' d' q); auto. destruct R2 as (j & Hj & R2). exists j. split; [lia|auto].
    - intros j f' d' q Hj Hm Hf Ha. destruct (Nat.eq_dec j k) as [->|Hjk].
      + apply NM in Hm. apply noncomm_true in Hm. tauto.
      + apply Hn2; auto. lia.
    - intros j f' d' q Hj Hm Hf. destruct (Nat.eq_dec j k) as [->|Hjk].
      + apply NM in Hm. apply noncomm_true in Hm. tauto.
      + apply Hn3; auto. lia.
    - intros r' t n Hn. apply Hn4s in Hn. rewrite cnt_S. lia.
    - intros s' t n Hn. apply Hn4r in Hn. rewrite cnt_S. lia.
  Qed.

  Lemma put_stat_same : forall s f d, put_stat V s f d (rs_stat V s f d) =
     set_rstat V s (zupd2 (rs_stat V s) f d (rs_stat V s f d)).
  Proof. reflexivity. Qed.

  (** The rank state depends on the status function only pointwise. *)
  Lemma local_stat_ext : forall net r k a s s', local_ok net r k a s ->
    rs_mem V s' = rs_mem V s -> (forall f d, rs_stat V s' f d = rs_stat V s f d) ->
    rs_rreq V s' = rs_rreq V s -> rs_sreq V s' = rs_sreq V s -> rs_sbuf V s' = rs_sbuf V s ->
    rs_tag V s' = rs_tag V s -> rs_nsend V s' = rs_nsend V s -> rs_nrecv V s' = rs_nrecv V s ->
    rs_log V s' = rs_log V s -> local_ok net r k a s'.
  Proof.
    intros net r k a s s' H E1 E2 E3 E4 E5 E6 E7 E8 E9.
    destruct H as [Hmem Hstat Hnon Htag Hns Hnr Hrecv Hsend Hn2 Hn3 Hn4s Hn4r Hlog].
    constructor; rewrite ?E1, ?E3, ?E4, ?E6, ?E7, ?E8, ?E9; auto.
    - intros. rewrite E2; auto.
    - intros. rewrite E2; auto.
    - intros f d q Hd. specialize (Hrecv f d q Hd). unfold recv_ok in *. rewrite E1, E3. auto.
    - intros f d q Hd. specialize (Hsend f d q Hd). unfold send_ok in *. rewrite E4, E5. auto.
  Qed.

  Lemma read_store_same : forall (mem : Z -> V) a l n, Z.of_nat (length l) = n ->
    read_list V (store_list mem a l) a n = l.
  Proof.
    intros mem a l n E. unfold read_list. rewrite <- E, Nat2Z.id. apply store_list_at.
  Qed.
  Lemma read_store_other : forall (mem : Z -> V) a l b n,
    (forall i, b <= i < b + n -> ~ (a <= i < a + Z.of_nat (length l))) ->
    read_list V (store_list mem a l) b n = read_list V mem b n.
  Proof.
    intros mem a l b n H. unfold read_list. apply map_ext_in. intros i Hi. apply zrange_In in Hi.
    apply store_list_other. apply H. lia.
  Qed.

  Lemma start_ok : forall net r k s f d p, is_rank lat r -> local_ok net r k (A k) s ->
    nth_error prog k = Some (MStart f d p) ->
    local_ok net r (S k) (A (S k)) (start_gather V lat r f d p s).
  Proof.
    intros net r k s f d p Hr H Ek.
    destruct (A_ok V lat prog F0 Hprog k _ Ek) as [Hd HG].
    unfold start_gather. cbn [rs_stat set_tag].
    assert (Hsil : forall st,
       (noncomm lat r d = true \/ forall q, check_communication false (aS (A k) f d) p <> CDo q) ->
       (noncomm lat r d = false -> st = aS (A k) f d) ->
       (noncomm lat r d = true -> forall q, st q <> STARTED) ->
       (noncomm lat r d = false -> rs_stat V s f d = st) ->
       local_ok net r (S k) (A (S k)) (put_stat V (set_tag V s (next_tag (rs_tag V s))) f d st)).
    { intros. eapply start_silent; eauto. }
    assert (Hid : (noncomm lat r d = true \/ forall q, check_communication false (aS (A k) f d) p <> CDo q) ->
       local_ok net r (S k) (A (S k)) (set_tag V s (next_tag (rs_tag V s)))).
    { intros Hc. eapply local_stat_ext; [apply (Hsil (rs_stat V s f d) Hc)|..]; try reflexivity.
      - intros E. apply (ro_stat _ _ _ _ _ _ _ _ _ H); auto.
      - intros E. apply (ro_non _ _ _ _ _ _ _ _ _ H); auto.
      - intros f' d'. cbn. destruct (zupd2_cases _ (rs_stat V s) f d (rs_stat V s f d) f' d') as [(-> & -> & ->)|[_ ->]]; auto. }
    destruct (noncomm lat r d) eqn:Hc.
    { destruct (check_communication true (rs_stat V s f d) p) as [| | |q] eqn:C.
      - apply Hid; auto.
      - apply Hsil; auto; try discriminate. intros _ q. assert (N := ro_non _ _ _ _ _ _ _ _ _ H f d Hd Hc q).
        unfold set_stat. destruct (parity_eqb q p); [discriminate|auto].
      - apply Hid; auto.
      - exfalso. unfold check_communication in C. destruct (is_gathered _ _); discriminate. }
    assert (ES : rs_stat V s f d = aS (A k) f d) by (apply (ro_stat _ _ _ _ _ _ _ _ _ H); auto).
    rewrite ES. destruct (check_communication false (aS (A k) f d) p) as [| | |q] eqn:C.
    { apply Hid. right. congruence. }
    { exfalso. unfold check_communication in C. destruct (is_gathered _ _); [discriminate|].
      destruct (_ || _); [discriminate|]. destruct p; try discriminate.
      destruct (_ && _); [discriminate|]. destruct (negb _); [discriminate|]. destruct (negb _); discriminate. }
    { apply Hid. right. congruence. }
    (* a real start *)
    clear Hsil Hid.
    assert (Hm : msg k f d q) by (exists p; auto).
    destruct (check_do _ _ _ C) as (Cq & CA & Call).
    assert (Htag := ro_tag _ _ _ _ _ _ _ _ _ H).
    assert (Et : next_tag (rs_tag V s) = tagof k) by (unfold GatherProofs4.tagof; rewrite Htag; auto).
    rewrite Et.
    set (s0 := put_stat V (set_tag V s (tagof k)) f d (set_stat (aS (A k) f d) q STARTED)).
    assert (EnvS : forall r' t, env r r' t k = (to r d =? r') && (tagof k =? t)).
    { intros. unfold GatherProofs4.env. rewrite Ek, C. auto. }
    assert (EnvR : forall s' t, is_rank lat s' -> s' <> r -> env s' r t k = (from r d =? s') && (tagof k =? t)).
    { intros s' t Hs' Hn. unfold GatherProofs4.env. rewrite Ek, C. f_equal.
      destruct (Z.eqb_spec (to s' d) r) as [E|E], (Z.eqb_spec (from r d) s') as [E'|E']; auto.
      - apply (peers_match lat Hv s' r d Hs' Hr Hn Hd) in E. contradiction.
      - apply (peers_match lat Hv s' r d Hs' Hr Hn Hd) in E'. contradiction. }
    assert (Tr := to_is_rank lat Hv r d Hr Hd). assert (Fr := from_is_rank lat Hv r d Hr Hd).
    set (s1 := post_receive V lat r f d q (tagof k) s0).
    set (s2 := post_send V lat r f d q (tagof k) s1).
    (* effects of the two posts *)
    assert (P1 : rs_mem V s2 = rs_mem V s /\ rs_stat V s2 = rs_stat V s0 /\ rs_tag V s2 = tagof k /\ rs_log V s2 = rs_log V s).
    { unfold s2, s1, post_send, post_receive. destruct (from r d =? r), (to r d =? r); repeat split. }
    destruct P1 as (Pm & Pst & Pt & Pl).
    assert (PR : rs_rreq V s2 = (if from r d =? r then rs_rreq V s else
                   kupd (rs_rreq V s) (f, d, q) (Pending (from r d) (tagof k) (rs_nrecv V s (from r d) (tagof k)))) /\
                 rs_nrecv V s2 = (if from r d =? r then rs_nrecv V s else
                   zupd2 (rs_nrecv V s) (from r d) (tagof k) (S (rs_nrecv V s (from r d) (tagof k))))).
    { unfold s2, s1, post_send, post_receive. destruct (from r d =? r), (to r d =? r); repeat split. }
    destruct PR as [PR1 PR2].
    assert (PS : rs_sreq V s2 = (if to r d =? r then rs_sreq V s else
                   kupd (rs_sreq V s) (f, d, q) (Pending (to r d) (tagof k) (rs_nsend V s (to r d) (tagof k)))) /\
                 rs_nsend V s2 = (if to r d =? r then rs_nsend V s else
                   zupd2 (rs_nsend V s) (to r d) (tagof k) (S (rs_nsend V s (to r d) (tagof k)))) /\
                 rs_sbuf V s2 = (if to r d =? r then rs_sbuf V s else
                   zupd2 (rs_sbuf V s) f d (store_list (rs_sbuf V s f d) (cn_offset (to_node lat r d) q)
                      (pack lat r d q (rs_mem V s f))))).
    { unfold s2, s1, post_send, post_receive. destruct (from r d =? r), (to r d =? r); repeat split. }
    destruct PS as (PS1 & PS2 & PS3).
    assert (Es0 : rs_stat V s0 = zupd2 (rs_stat V s) f d (set_stat (aS (A k) f d) q STARTED)) by reflexivity.
    clearbody s2. clear s1. clearbody s0.
    rewrite (A_S V prog F0 k _ Ek). cbn [astep]. unfold start_st. rewrite C.
    destruct H as [Hmem Hstat Hnon _ Hns Hnr Hrecv Hsend Hn2 Hn3 Hn4s Hn4r Hlog].
    (* requests of the key were empty *)
    assert (NR : rs_rreq V s (f, d, q) = NoReq).
    { destruct (Hrecv f d q Hd) as [R1 R2]. destruct (Z.eq_dec (from r d) r); auto. specialize (R2 n). rewrite Cq in R2. auto. }
    assert (NS : rs_sreq V s (f, d, q) = NoReq).
    { destruct (Hsend f d q Hd) as [R1 R2]. destruct (Z.eq_dec (to r d) r); auto. specialize (R2 n). rewrite Cq in R2. auto. }
    assert (KR : forall f' d' q', (f', d', q') <> (f, d, q) -> rs_rreq V s2 (f', d', q') = rs_rreq V s (f', d', q')).
    { intros. rewrite PR1. destruct (from r d =? r); auto. apply kupd_neq; auto. }
    assert (KS : forall f' d' q', (f', d', q') <> (f, d, q) -> rs_sreq V s2 (f', d', q') = rs_sreq V s (f', d', q')).
    { intros. rewrite PS1. destruct (to r d =? r); auto. apply kupd_neq; auto. }
    assert (KR1 : from r d <> r -> rs_rreq V s2 (f, d, q) = Pending (from r d) (tagof k) (cnt (from r d) r (tagof k) k)).
    { intros Hn. rewrite PR1. destruct (Z.eqb_spec (from r d) r); [contradiction|]. rewrite kupd_eq, Hnr; auto. }
    assert (KS1 : to r d <> r -> rs_sreq V s2 (f, d, q) = Pending (to r d) (tagof k) (cnt r (to r d) (tagof k) k)).
    { intros Hn. rewrite PS1. destruct (Z.eqb_spec (to r d) r); [contradiction|]. rewrite kupd_eq, Hns; auto. }
    constructor; cbn [aF aG aS aT aL]; rewrite ?Pm, ?Pst, ?Pt, ?Pl, ?Es0; auto.
    - intros f' d' Hd' Hc'.
      destruct (zupd2_cases _ (rs_stat V s) f d (set_stat (aS (A k) f d) q STARTED) f' d') as [(-> & -> & ->)|[Hn ->]].
      + rewrite zupd2_eq. auto.
      + destruct (zupd2_cases _ (aS (A k)) f d (set_stat (aS (A k) f d) q STARTED) f' d') as [(-> & -> & _)|[_ ->]]; [tauto|auto].
    - intros f' d' Hd' Hc' q'.
      destruct (zupd2_cases _ (rs_stat V s) f d (set_stat (aS (A k) f d) q STARTED) f' d') as [(-> & -> & ->)|[Hn ->]]; auto.
      congruence.
    - intros r' t Hr' Hn. rewrite cnt_S, EnvS, PS2. destruct (Z.eqb_spec (to r d) r) as [E|E].
      + destruct (Z.eqb_spec (to r d) r'); [congruence|]. cbn. rewrite Nat.add_0_r. auto.
      + unfold zupd2. rewrite (Z.eqb_sym r'), (Z.eqb_sym t). destruct (Z.eqb_spec (to r d) r'), (Z.eqb_spec (tagof k) t); cbn;
          rewrite ?Nat.add_0_r; auto. subst r' t. rewrite Hns by auto. lia.
    - intros s' t Hr' Hn. rewrite cnt_S, EnvR, PR2 by auto. destruct (Z.eqb_spec (from r d) r) as [E|E].
      + destruct (Z.eqb_spec (from r d) s'); [congruence|]. cbn. rewrite Nat.add_0_r. auto.
      + unfold zupd2. rewrite (Z.eqb_sym s'), (Z.eqb_sym t). destruct (Z.eqb_spec (from r d) s'), (Z.eqb_spec (tagof k) t); cbn;
          rewrite ?Nat.add_0_r; auto. subst s' t. rewrite Hnr by auto. lia.
    - intros f' d' q' Hd'. destruct (Hrecv f' d' q' Hd') as [R1 R2].
      destruct (key_dec (f', d', q') (f, d, q)) as [E|Hn].
      + inversion E; subst f' d' q'. split.
        * intros Hf. rewrite PR1, Hf, Z.eqb_refl. auto.
        * intros Hf. cbn [aS]. rewrite zupd2_eq, set_stat_eq. exists k. split; [lia|]. split; auto. split.
          { intros c Hc'. cbn [aG]. apply HG. }
          left. split; auto. intros X. apply Hn4r in X. lia.
      + split; [intros; rewrite KR; auto|]. intros Hf. specialize (R2 Hf). cbn [aS aG]. rewrite KR, Pm by auto.
        assert (E : zupd2 (aS (A k)) f d (set_stat (aS (A k) f d) q STARTED) f' d' q' = aS (A k) f' d' q').
        { destruct (zupd2_cases _ (aS (A k)) f d (set_stat (aS (A k) f d) q STARTED) f' d') as [(-> & -> & ->)|[_ ->]]; auto.
          apply set_stat_neq. intros ->. auto. }
        rewrite E. destruct (aS (A k) f' d' q'); auto. destruct R2 as (j & Hj & R2). exists j. split; [lia|auto].
    - intros f' d' q' Hd'. destruct (Hsend f' d' q' Hd') as [R1 R2].
      destruct (key_dec (f', d', q') (f, d, q)) as [E|Hn].
      + inversion E; subst f' d' q'. split.
        * intros Hf. rewrite PS1, Hf, Z.eqb_refl. auto.
        * intros Hf. cbn [aS]. rewrite zupd2_eq, set_stat_eq. exists k. split; [lia|]. split; auto.
          left. split; auto. split.
          { rewrite PS3. destruct (Z.eqb_spec (to r d) r); [contradiction|]. rewrite zupd2_eq.
            rewrite read_store_same by (apply pack_length; auto).
            assert (Efr : from (to r d) d = r) by (apply (peers_match lat Hv r (to r d) d Hr Tr (not_eq_sym Hf) Hd); auto).
            assert (PL := pack_local lat Hv V (to r d) d q (rs_mem V s f) (aF (A k) f) Tr Hd).
            cbn zeta in PL. rewrite Efr in PL. apply PL; auto. }
          { destruct (net r (to r d) (tagof k) (cnt r (to r d) (tagof k) k)) eqn:En; auto;
              assert (X : net r (to r d) (tagof k) (cnt r (to r d) (tagof k) k) <> Absent V) by congruence;
              apply Hn4s in X; lia. }
      + split; [intros; rewrite KS; auto|]. intros Hf. specialize (R2 Hf). cbn [aS aG]. rewrite KS by auto.
        assert (E : zupd2 (aS (A k)) f d (set_stat (aS (A k) f d) q STARTED) f' d' q' = aS (A k) f' d' q').
        { destruct (zupd2_cases _ (aS (A k)) f d (set_stat (aS (A k) f d) q STARTED) f' d') as [(-> & -> & ->)|[_ ->]]; auto.
          apply set_stat_neq. intros ->. auto. }
        rewrite E. destruct (aS (A k) f' d' q') eqn:Eq'; auto. destruct R2 as (j & Hj & Hmj & R2). exists j. split; [lia|].
        split; auto. destruct R2 as [(Ra & Rb & Rc)|R2]; auto. left. split; auto. split; auto.
        rewrite PS3. destruct (Z.eqb_spec (to r d) r) as [Et2|Et2]; auto.
        destruct (zupd2_cases _ (rs_sbuf V s) f d (store_list (rs_sbuf V s f d) (cn_offset (to_node lat r d) q)
                      (pack lat r d q (rs_mem V s f))) f' d') as [(-> & -> & ->)|[_ ->]]; auto.
        rewrite read_store_other; auto. intros i Hi.
        rewrite pack_length by auto. intros Hi2. revert Hi. apply (send_disjoint lat Hv r d q q' i); auto.
        unfold compatible. destruct q, q'; auto; try congruence; destruct Call; auto; congruence.
    - intros j f' d' q' Hj Hm' Hf Ha. destruct (Nat.eq_dec j k) as [->|Hjk].
      + destruct (msg_fun V prog F0 _ _ _ _ _ _ _ Hm Hm') as (<- & <- & <-). auto.
      + assert (X := Hn2 j f' d' q' ltac:(lia) Hm' Hf Ha).
        destruct (key_dec (f', d', q') (f, d, q)) as [E|Hn]; [inversion E; subst; congruence|].
        rewrite KS by auto. auto.
    - intros j f' d' q' Hj Hm' Hf. destruct (Nat.eq_dec j k) as [->|Hjk].
      + destruct (msg_fun V prog F0 _ _ _ _ _ _ _ Hm Hm') as (<- & <- & <-). auto.
      + destruct (Hn3 j f' d' q' ltac:(lia) Hm' Hf) as [X|X]; auto.
        destruct (key_dec (f', d', q') (f, d, q)) as [E|Hn]; [inversion E; subst; congruence|].
        rewrite KR by auto. auto.
    - intros r' t n Hn. apply Hn4s in Hn. rewrite cnt_S. lia.
    - intros s' t n Hn. apply Hn4r in Hn. rewrite cnt_S. lia.
  Qed.

  (** *** One operation of one rank *)
  Lemma exec_ok : forall net r k s o, is_rank lat r -> local_ok net r k (A k) s ->
    nth_error prog k = Some o ->
    match exec_mop V lat r o s with
    | Next s' => local_ok net r (S k) (A (S k)) s' /\ rs_pc V s' = rs_pc V s /\
                 (forall f d q, ~ dir d -> (rs_rreq V s' (f, d, q) = rs_rreq V s (f, d, q) \/ rs_rreq V s' (f, d, q) = NoReq) /\
                                           (rs_sreq V s' (f, d, q) = rs_sreq V s (f, d, q) \/ rs_sreq V s' (f, d, q) = NoReq))
    | Blocked => blocked_on V lat r s
    | Exited => ~ wait_ok (A k) o
    | Undefined => False
    end.
  Proof.
    intros net r k s o Hr H Ek.
    assert (Hok := A_ok V lat prog F0 Hprog k _ Ek). assert (He := A_excl V prog F0 k).
    destruct o as [f p w|f d p|f d p|f d p|f d p|f d p].
    - assert (Hn : no_post V prog k) by (intros ? ? ?; congruence).
      cbn [exec_mop]. rewrite (A_S V prog F0 k _ Ek). split; [|auto].
      apply local_advance; auto. apply write_ok; auto.
    - assert (Hn : no_post V prog k) by (intros ? ? ?; congruence).
      cbn [exec_mop]. rewrite (A_S V prog F0 k _ Ek). destruct Hok as [Hd HG].
      assert (D := drop_res V lat prog F0 net r k (A k) s f d (opp_parity p) False H Hd (He f d)).
      destruct (drop_comms V lat r f d (opp_parity p) s) as [s1| | |]; cbn [obind okres] in *; try tauto.
      destruct D as [D (W1 & W2 & W3)]. split; [|split; [exact W1|intros; split; [apply W2|apply W3]]].
      apply local_advance; auto. apply changed_ok; auto. split; auto.
    - cbn [exec_mop]. split; [eapply start_ok; eauto|]. destruct Hok as [Hd HG].
      unfold start_gather. destruct (check_communication _ _ _); cbn; auto.
      unfold post_send, post_receive. destruct (from r d =? r), (to r d =? r); cbn; split; auto; intros f' d' q' Hd';
        rewrite ?kupd_neq by (intros E; inversion E; subst; contradiction); auto.
    - assert (Hn : no_post V prog k) by (intros ? ? ?; congruence).
      cbn [exec_mop]. rewrite (A_S V prog F0 k _ Ek). cbn [op_ok] in Hok.
      assert (D := wait_gather_res V lat prog F0 net r k (A k) s f d p H Hok).
      destruct (wait_gather V lat r f d p s) as [s1| | |]; cbn [okres] in *; try tauto.
      + destruct D as [D (W1 & W2 & W3)]. split; [|split; [exact W1|intros; split; [apply W2|apply W3]]]. apply local_advance; auto.
      + destruct D as (D1 & D2 & D3). intros Hw. cbn in Hw. destruct (resolve_cover _ _ (He f d) Hw D2). congruence.
    - assert (Hn : no_post V prog k) by (intros ? ? ?; congruence).
      cbn [exec_mop]. rewrite (A_S V prog F0 k _ Ek). cbn [op_ok] in Hok.
      assert (D := drop_res V lat prog F0 net r k (A k) s f d p False H Hok (He f d)).
      destruct (drop_comms V lat r f d p s) as [s1| | |]; cbn [okres] in *; try tauto.
      destruct D as [D (W1 & W2 & W3)]. split; [|split; [exact W1|intros; split; [apply W2|apply W3]]]. apply local_advance; auto.
    - assert (Hn : no_post V prog k) by (intros ? ? ?; congruence).
      cbn [exec_mop]. rewrite (A_S V prog F0 k _ Ek). split; [|auto].
      apply local_advance; auto. apply look_ok; auto.
  Qed.
End Start.
