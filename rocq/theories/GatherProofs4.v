(** The invariant of the asynchronous gather machine, and its preservation by
    every operation a rank executes. *)
From Verif Require Import Common LayoutModel LayoutSpec LayoutProofs1 LayoutProofs2 LayoutProofs4
  LayoutProofs5 LayoutProofs6 LayoutProofs7 LayoutProofs8 GatherModel GatherSpec GatherProofs1 GatherProofs2
  GatherProofs3.

Section Inv.
  Variable V : Type.
  Variable lat : lattice.
  Hypothesis Hv : valid_lattice lat.
  Hypothesis Hev : even_where_split lat.
  Variable prog : list (mop V).
  Variable F0 : Z -> list Z -> V.
  Hypothesis Hprog : prog_ok (op_ok lat) (ainit F0) prog.

  Local Notation dir := (is_direction (l_size lat)).
  Local Notation from r d := (cn_rank (from_node lat r d)).
  Local Notation to r d := (cn_rank (to_node lat r d)).

  Definition A (k : nat) : @astate V := arun (ainit F0) (firstn k prog).

  Lemma firstn_S : forall X (l : list X) k o, nth_error l k = Some o -> firstn (S k) l = firstn k l ++ [o].
  Proof.
    induction l as [|x l IH]; intros k o H; [destruct k; discriminate|].
    destruct k; cbn in *; [inversion H; auto|]. f_equal. apply IH; auto.
  Qed.
  Lemma A_S : forall k o, nth_error prog k = Some o -> A (S k) = astep (A k) o.
  Proof. intros k o H. unfold A. rewrite (firstn_S _ _ _ _ H), arun_app. auto. Qed.
  Lemma A_excl : forall k, aexcl (A k).
  Proof. intros. apply aexcl_run, aexcl_init. Qed.
  Lemma A_ok : forall k o, nth_error prog k = Some o -> op_ok lat (A k) o.
  Proof. intros. apply (prog_ok_nth _ _ _ _ _ Hprog); auto. Qed.

  (** ** Messages of the program *)
  Definition msg (j : nat) (f d : Z) (q : parity) : Prop :=
    exists p, nth_error prog j = Some (MStart f d p) /\ check_communication false (aS (A j) f d) p = CDo q.
  Definition tagof (j : nat) : Z := next_tag (aT (A j)).
  Definition env (s r t : Z) (j : nat) : bool :=
    match nth_error prog j with
    | Some (MStart f d p) =>
        match check_communication false (aS (A j) f d) p with
        | CDo _ => (to s d =? r) && (tagof j =? t)
        | _ => false
        end
    | _ => false
    end.
  Definition cnt (s r t : Z) (k : nat) : nat := length (filter (env s r t) (seq 0 k)).

  Lemma cnt_S : forall s r t k, cnt s r t (S k) = (cnt s r t k + if env s r t k then 1 else 0)%nat.
  Proof.
    intros. unfold cnt. rewrite seq_S, filter_app, app_length. cbn. destruct (env s r t k); auto.
  Qed.
  Lemma cnt_mono : forall s r t j k, (j <= k)%nat -> (cnt s r t j <= cnt s r t k)%nat.
  Proof. induction 1; auto. rewrite cnt_S. lia. Qed.
  Lemma cnt_lt : forall s r t j k, (j < k)%nat -> env s r t j = true -> (cnt s r t j < cnt s r t k)%nat.
  Proof.
    intros s r t j k H He. assert (Hm := cnt_mono s r t (S j) k H). rewrite cnt_S, He in Hm. lia.
  Qed.
  Lemma cnt_inj : forall s r t j k, env s r t j = true -> env s r t k = true -> cnt s r t j = cnt s r t k -> j = k.
  Proof.
    intros s r t j k Hj Hk E. destruct (Nat.lt_trichotomy j k) as [H|[H|H]]; auto.
    - assert (X := cnt_lt s r t j k H Hj). lia.
    - assert (X := cnt_lt s r t k j H Hk). lia.
  Qed.
  Lemma msg_env : forall j f d q s, msg j f d q -> env s (to s d) (tagof j) j = true.
  Proof. intros j f d q s (p & E & C). unfold env. rewrite E, C, !Z.eqb_refl. auto. Qed.
  Lemma msg_fun : forall j f d q f' d' q', msg j f d q -> msg j f' d' q' -> f = f' /\ d = d' /\ q = q'.
  Proof.
    intros j f d q f' d' q' (p & E & C) (p' & E' & C'). rewrite E in E'. inversion E'; subst.
    rewrite C in C'. inversion C'; auto.
  Qed.
  Lemma msg_dir : forall j f d q, msg j f d q -> dir d.
  Proof. intros j f d q (p & E & _). apply (A_ok _ _ E). Qed.

  (** ** The local invariant of rank [r] having executed [k] operations *)
  Definition agree (j : nat) (r f d : Z) (q : parity) (G : list Z -> V) : Prop :=
    forall c, In c (face lat r d q) -> aF (A j) f (neighbour lat c d) = G (neighbour lat c d).

  Definition network : Type := Z -> Z -> Z -> nat -> message V.

  Definition recv_ok (net : network) (r : Z) (k : nat) (a : @astate V) (s : rank_state V) (f d : Z) (q : parity) : Prop :=
    (from r d = r -> rs_rreq V s (f, d, q) = NoReq) /\
    (from r d <> r ->
     match aS a f d q with
     | NOT_DONE => rs_rreq V s (f, d, q) = NoReq
     | DONE => rs_rreq V s (f, d, q) = NoReq /\ halo lat (rs_mem V s f) r d q (aG a f d)
     | STARTED => exists j, (j < k)%nat /\ msg j f d q /\ agree j r f d q (aG a f d) /\
         ((rs_rreq V s (f, d, q) = Pending (from r d) (tagof j) (cnt (from r d) r (tagof j) j) /\
           net (from r d) r (tagof j) (cnt (from r d) r (tagof j) j) <> Received V) \/
          (rs_rreq V s (f, d, q) = Complete /\ halo lat (rs_mem V s f) r d q (aG a f d)))
     end).

  Definition send_ok (net : network) (r : Z) (k : nat) (a : @astate V) (s : rank_state V) (f d : Z) (q : parity) : Prop :=
    (to r d = r -> rs_sreq V s (f, d, q) = NoReq) /\
    (to r d <> r ->
     match aS a f d q with
     | STARTED => exists j, (j < k)%nat /\ msg j f d q /\
         ((rs_sreq V s (f, d, q) = Pending (to r d) (tagof j) (cnt r (to r d) (tagof j) j) /\
           read_list V (rs_sbuf V s f d) (cn_offset (to_node lat r d) q) (n_sites (to_node lat r d) q) =
             map (fun c => aF (A j) f (neighbour lat c d)) (face lat (to r d) d q) /\
           net r (to r d) (tagof j) (cnt r (to r d) (tagof j) j) = Absent V) \/
          rs_sreq V s (f, d, q) = Complete)
     | _ => rs_sreq V s (f, d, q) = NoReq
     end).

  Definition reads_exact (r : Z) (vals : list V) (e : read_event (V := V)) : Prop :=
    let '(F, d, p) := e in
    vals = map (fun i => F (neighbour lat (coordinates (nodeinfo lat r) i) d)) (loop_indices (nodeinfo lat r) p).

  Record local_ok (net : network) (r : Z) (k : nat) (a : @astate V) (s : rank_state V) : Prop := {
    ro_mem : forall f c, holds lat r c -> rs_mem V s f (site_index (nodeinfo lat r) c) = aF a f c;
    ro_stat : forall f d, dir d -> noncomm lat r d = false -> rs_stat V s f d = aS a f d;
    ro_non : forall f d, dir d -> noncomm lat r d = true -> forall q, rs_stat V s f d q <> STARTED;
    ro_tag : rs_tag V s = aT a;
    ro_nsend : forall r' t, is_rank lat r' -> r' <> r -> rs_nsend V s r' t = cnt r r' t k;
    ro_nrecv : forall s' t, is_rank lat s' -> s' <> r -> rs_nrecv V s s' t = cnt s' r t k;
    ro_recv : forall f d q, dir d -> recv_ok net r k a s f d q;
    ro_send : forall f d q, dir d -> send_ok net r k a s f d q;
    ro_n2 : forall j f d q, (j < k)%nat -> msg j f d q -> to r d <> r ->
       net r (to r d) (tagof j) (cnt r (to r d) (tagof j) j) = Absent V ->
       rs_sreq V s (f, d, q) = Pending (to r d) (tagof j) (cnt r (to r d) (tagof j) j);
    ro_n3 : forall j f d q, (j < k)%nat -> msg j f d q -> from r d <> r ->
       net (from r d) r (tagof j) (cnt (from r d) r (tagof j) j) = Received V \/
       rs_rreq V s (f, d, q) = Pending (from r d) (tagof j) (cnt (from r d) r (tagof j) j);
    ro_n4s : forall r' t n, net r r' t n <> Absent V -> (n < cnt r r' t k)%nat;
    ro_n4r : forall s' t n, net s' r t n = Received V -> (n < cnt s' r t k)%nat;
    ro_log : Forall2 (reads_exact r) (rs_log V s) (aL a)
  }.

  Definition aset (a : @astate V) (f d : Z) (st : parity -> gstat) : @astate V :=
    mkA (aF a) (aG a) (zupd2 (aS a) f d st) (aT a) (aL a).

  Lemma local_ext : forall net r k a a' s, local_ok net r k a s ->
    aF a' = aF a -> aG a' = aG a -> aT a' = aT a -> aL a' = aL a ->
    (forall f d, dir d -> aS a' f d = aS a f d) -> local_ok net r k a' s.
  Proof.
    intros net r k a a' s H E1 E2 E3 E4 E5. destruct H. constructor; rewrite ?E1, ?E3, ?E4; auto.
    - intros. rewrite E5; auto.
    - intros f d q Hd. unfold recv_ok. rewrite E5, E2 by auto. apply ro_recv0; auto.
    - intros f d q Hd. unfold send_ok. rewrite E5 by auto. apply ro_send0; auto.
  Qed.

  Lemma kupd_eq : forall X (m : fdp -> X) f d q v, kupd m (f, d, q) v (f, d, q) = v.
  Proof. intros. unfold kupd, fdp_eqb. rewrite !Z.eqb_refl. destruct q; auto. Qed.
  Lemma kupd_neq : forall X (m : fdp -> X) f d q v f' d' q', (f', d', q') <> (f, d, q) ->
    kupd m (f, d, q) v (f', d', q') = m (f', d', q').
  Proof.
    intros. unfold kupd, fdp_eqb. destruct (Z.eqb_spec f' f), (Z.eqb_spec d' d); cbn; auto.
    subst. destruct q, q'; cbn; auto; congruence.
  Qed.
  Lemma key_dec : forall (a b : fdp), {a = b} + {a <> b}.
  Proof. repeat decide equality. Qed.

  Lemma noncomm_false : forall r d, noncomm lat r d = false <-> (from r d <> r \/ to r d <> r).
  Proof.
    intros. unfold noncomm. rewrite andb_false_iff, !Z.eqb_neq. tauto.
  Qed.
  Lemma noncomm_true : forall r d, noncomm lat r d = true <-> (from r d = r /\ to r d = r).
  Proof.
    intros. unfold noncomm. rewrite andb_true_iff, !Z.eqb_eq. tauto.
  Qed.

  (** *** Changing one status from started to done (one pass of the wait loop) *)
  Lemma set_stat_eq : forall st q v, set_stat st q v q = v.
  Proof. intros. unfold set_stat. destruct q; auto. Qed.
  Lemma set_stat_neq : forall st q v q', q' <> q -> set_stat st q v q' = st q'.
  Proof. intros. unfold set_stat. destruct q, q'; cbn; auto; congruence. Qed.

  Definition is_pending (rq : request) : Prop := exists p t n, rq = Pending p t n.

  Lemma wait_one_ok : forall net r k a s f d q, local_ok net r k a s -> dir d -> noncomm lat r d = false ->
    aS a f d q = STARTED ->
    match wait_one V lat r f d q s with
    | Next s' => local_ok net r k (aset a f d (set_stat (aS a f d) q DONE)) s' /\ rs_pc V s' = rs_pc V s
    | Blocked => (from r d <> r /\ is_pending (rs_rreq V s (f, d, q))) \/ (to r d <> r /\ is_pending (rs_sreq V s (f, d, q)))
    | _ => False
    end.
  Proof.
    intros net r k a s f d q H Hd Hc HS.
    destruct (ro_recv _ _ _ _ _ H f d q Hd) as [R1 R2]. destruct (ro_send _ _ _ _ _ H f d q Hd) as [S1 S2].
    rewrite HS in R2, S2. unfold wait_one.
    (* the receive part *)
    assert (HR : (from r d <> r /\ is_pending (rs_rreq V s (f, d, q)) /\ mpi_wait (rs_rreq V s (f, d, q)) = Blocked) \/
                 (from r d <> r /\ rs_rreq V s (f, d, q) = Complete /\ halo lat (rs_mem V s f) r d q (aG a f d)) \/
                 (from r d = r /\ rs_rreq V s (f, d, q) = NoReq)).
    { destruct (Z.eq_dec (from r d) r) as [E|E]; [right; right; auto|].
      destruct (R2 E) as (j & _ & _ & _ & [[E2 _]|[E2 Hh]]).
      - left. split; auto. rewrite E2. split; [unfold is_pending; eauto|reflexivity].
      - right; left. auto. }
    assert (HT : (to r d <> r /\ is_pending (rs_sreq V s (f, d, q)) /\ mpi_wait (rs_sreq V s (f, d, q)) = Blocked) \/
                 (to r d <> r /\ rs_sreq V s (f, d, q) = Complete) \/
                 (to r d = r /\ rs_sreq V s (f, d, q) = NoReq)).
    { destruct (Z.eq_dec (to r d) r) as [E|E]; [right; right; auto|].
      destruct (S2 E) as (j & _ & _ & [[E2 _]|E2]).
      - left. split; auto. rewrite E2. split; [unfold is_pending; eauto|reflexivity].
      - right; left. auto. }
    clear R1 R2 S1 S2.
    destruct HR as [(E & Hp & Hw)|HR].
    { destruct (Z.eqb_spec (from r d) r); [contradiction|]. rewrite Hw. cbn. left; auto. }
    set (s1 := set_rreq V s (kupd (rs_rreq V s) (f, d, q) NoReq)).
    (* state after the receive part *)
    assert (G1 : (if from r d =? r then Next s else obind (mpi_wait (rs_rreq V s (f, d, q))) (fun _ => Next s1)) =
                 Next (if from r d =? r then s else s1)).
    { destruct HR as [(E & Hp & Hh)|(E & Hp)]; destruct (Z.eqb_spec (from r d) r); try congruence. rewrite Hp. auto. }
    rewrite G1. cbn [obind]. clear G1.
    set (s2 := if from r d =? r then s else s1).
    assert (Es2 : rs_sreq V s2 = rs_sreq V s) by (unfold s2; destruct (from r d =? r); auto).
    rewrite Es2.
    destruct HT as [(E & Hp & Hw)|HT].
    { destruct (Z.eqb_spec (to r d) r); [contradiction|]. rewrite Hw. cbn. right; auto. }
    assert (G2 : (if to r d =? r then Next s2 else obind (mpi_wait (rs_sreq V s (f, d, q)))
                   (fun _ => Next (set_sreq V s2 (kupd (rs_sreq V s) (f, d, q) NoReq)))) =
                 Next (if to r d =? r then s2 else set_sreq V s2 (kupd (rs_sreq V s) (f, d, q) NoReq))).
    { destruct HT as [(E & Hp)|(E & Hp)]; destruct (Z.eqb_spec (to r d) r); try congruence. rewrite Hp. auto. }
    rewrite G2. cbn [obind]. clear G2.
    set (s3 := if to r d =? r then s2 else set_sreq V s2 (kupd (rs_sreq V s) (f, d, q) NoReq)).
    assert (X : rs_pc V s3 = rs_pc V s /\ rs_mem V s3 = rs_mem V s /\ rs_stat V s3 = rs_stat V s /\
                rs_tag V s3 = rs_tag V s /\ rs_nsend V s3 = rs_nsend V s /\ rs_nrecv V s3 = rs_nrecv V s /\
                rs_log V s3 = rs_log V s /\ rs_sbuf V s3 = rs_sbuf V s).
    { unfold s3, s2. destruct (from r d =? r), (to r d =? r); repeat split. }
    destruct X as (X1 & X2 & X3 & X4 & X5 & X6 & X7 & X8).
    assert (Y1 : rs_rreq V s3 (f, d, q) = NoReq).
    { unfold s3, s2, s1. destruct (Z.eqb_spec (from r d) r) as [E|E].
      - destruct HR as [(E' & _)|(_ & E')]; [congruence|]. destruct (to r d =? r); cbn; auto.
      - destruct (to r d =? r); cbn; apply kupd_eq. }
    assert (Y2 : rs_sreq V s3 (f, d, q) = NoReq).
    { unfold s3. destruct (Z.eqb_spec (to r d) r) as [E|E].
      - rewrite Es2. destruct HT as [(E' & _)|(_ & E')]; [congruence|auto].
      - cbn. apply kupd_eq. }
    assert (Y3 : forall f' d' q', (f', d', q') <> (f, d, q) -> rs_rreq V s3 (f', d', q') = rs_rreq V s (f', d', q')).
    { intros f' d' q' Hn. unfold s3, s2, s1. destruct (from r d =? r), (to r d =? r); cbn; auto; apply kupd_neq; auto. }
    assert (Y4 : forall f' d' q', (f', d', q') <> (f, d, q) -> rs_sreq V s3 (f', d', q') = rs_sreq V s (f', d', q')).
    { intros f' d' q' Hn. unfold s3. destruct (to r d =? r); rewrite ?Es2; auto. cbn. apply kupd_neq; auto. }
    clearbody s3. clear s1 s2 Es2.
    split; [|exact X1].
    assert (ST : rs_stat V s f d = aS a f d) by (apply (ro_stat _ _ _ _ _ H); auto).
    assert (N2 := ro_n2 _ _ _ _ _ H). assert (N3 := ro_n3 _ _ _ _ _ H).
    destruct H. constructor; cbn [put_stat set_rstat rs_mem rs_stat rs_rreq rs_sreq rs_sbuf rs_tag rs_nsend rs_nrecv rs_log aF aG aS aT aL aset];
      rewrite ?X2, ?X3, ?X4, ?X5, ?X6, ?X7; auto.
    - intros f' d' Hd' Hc'.
      destruct (zupd2_cases _ (rs_stat V s) f d (set_stat (rs_stat V s f d) q DONE) f' d') as [(-> & -> & ->)|[Hn ->]].
      + rewrite zupd2_eq, ST. auto.
      + destruct (zupd2_cases _ (aS a) f d (set_stat (aS a f d) q DONE) f' d') as [(-> & -> & _)|[_ ->]]; [tauto|].
        auto.
    - intros f' d' Hd' Hc' q'.
      destruct (zupd2_cases _ (rs_stat V s) f d (set_stat (rs_stat V s f d) q DONE) f' d') as [(-> & -> & ->)|[Hn ->]]; auto.
      congruence.
    - intros f' d' q' Hd'. unfold recv_ok. cbn [put_stat set_rstat rs_mem rs_rreq aF aG aS aset]. rewrite X2.
      destruct (key_dec (f', d', q') (f, d, q)) as [E|Hn].
      + inversion E; subst. rewrite zupd2_eq, set_stat_eq. split; auto. intros Hf. split; auto.
        destruct HR as [(_ & _ & Hh)|(E' & _)]; [auto|contradiction].
      + rewrite Y3 by auto.
        replace (zupd2 (aS a) f d (set_stat (aS a f d) q DONE) f' d' q') with (aS a f' d' q').
        * apply ro_recv0; auto.
        * destruct (zupd2_cases _ (aS a) f d (set_stat (aS a f d) q DONE) f' d') as [(-> & -> & ->)|[_ ->]]; auto.
          rewrite set_stat_neq; auto. congruence.
    - intros f' d' q' Hd'. unfold send_ok. cbn [put_stat set_rstat rs_mem rs_sreq rs_sbuf aF aG aS aset]. rewrite X8.
      destruct (key_dec (f', d', q') (f, d, q)) as [E|Hn].
      + inversion E; subst. rewrite zupd2_eq, set_stat_eq. split; auto.
      + rewrite Y4 by auto.
        replace (zupd2 (aS a) f d (set_stat (aS a f d) q DONE) f' d' q') with (aS a f' d' q').
        * apply ro_send0; auto.
        * destruct (zupd2_cases _ (aS a) f d (set_stat (aS a f d) q DONE) f' d') as [(-> & -> & ->)|[_ ->]]; auto.
          rewrite set_stat_neq; auto. congruence.
    - intros j f' d' q' Hj Hm Ht Hnet. specialize (N2 j f' d' q' Hj Hm Ht Hnet).
      destruct (key_dec (f', d', q') (f, d, q)) as [E|Hn]; [|rewrite Y4; auto].
      inversion E; subst. destruct HT as [(_ & E')|(E' & _)]; congruence.
    - intros j f' d' q' Hj Hm Ht. destruct (N3 j f' d' q' Hj Hm Ht) as [|Hp]; auto.
      destruct (key_dec (f', d', q') (f, d, q)) as [E|Hn]; [|right; rewrite Y3; auto].
      inversion E; subst. destruct HR as [(_ & E' & _)|(E' & _)]; congruence.
  Qed.
End Inv.
