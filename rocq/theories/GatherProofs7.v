(** The invariant of the whole system, over every interleaving. *)
From Verif Require Import Common LayoutModel LayoutSpec LayoutProofs1 LayoutProofs2 LayoutProofs4
  LayoutProofs5 LayoutProofs6 LayoutProofs7 LayoutProofs8 GatherModel GatherSpec GatherProofs1 GatherProofs2
  GatherProofs3 GatherProofs4 GatherProofs5 GatherProofs6.

Section Sys.
  Variable V : Type.
  Variable lat : lattice.
  Hypothesis Hv : valid_lattice lat.
  Hypothesis Hev : even_where_split lat.
  Variable prog : list (mop V).
  Variable F0 : Z -> list Z -> V.
  Hypothesis Hprog : prog_ok (op_ok lat) (ainit F0) prog.

  Local Notation dir := (is_direction (l_size lat)).
  Local Notation from r d := (cn_rank (from_node lat r d)).
  Local Notation to r d := (cn_rank (to_node lat r d)).
  Local Notation local_ok := (local_ok V lat prog F0).
  Local Notation A := (A V prog F0).
  Local Notation msg := (msg V prog F0).
  Local Notation tagof := (tagof V prog F0).
  Local Notation cnt := (cnt V lat prog F0).
  Local Notation env := (env V lat prog F0).

  Definition flight_ok (g : system V) : Prop :=
    forall s r t n pl, is_rank lat s -> is_rank lat r -> sys_net V g s r t n = InFlight V pl ->
      exists j f d q, (j < rs_pc V (sys_rank V g s))%nat /\ msg j f d q /\ to s d = r /\ s <> r /\
        t = tagof j /\ n = cnt s r t j /\
        pl = map (fun c => aF (A j) f (neighbour lat c d)) (face lat r d q).

  Record sys_ok (g : system V) : Prop := {
    so_pc : forall r, is_rank lat r -> (rs_pc V (sys_rank V g r) <= length prog)%nat;
    so_rank : forall r, is_rank lat r ->
      local_ok (sys_net V g) r (rs_pc V (sys_rank V g r)) (A (rs_pc V (sys_rank V g r))) (sys_rank V g r);
    so_keys : forall r f d q, is_rank lat r -> ~ dir d ->
      rs_rreq V (sys_rank V g r) (f, d, q) = NoReq /\ rs_sreq V (sys_rank V g r) (f, d, q) = NoReq;
    so_net : flight_ok g
  }.

  (** A rank's invariant sees the network only at its own envelopes. *)
  Lemma local_net : forall net net' r k a s, local_ok net r k a s ->
    (forall r' t n, net' r r' t n = Absent V <-> net r r' t n = Absent V) ->
    (forall s' t n, net' s' r t n = Received V <-> net s' r t n = Received V) ->
    local_ok net' r k a s.
  Proof.
    intros net net' r k a s H Ha Hr. destruct H as [Hmem Hstat Hnon Htag Hns Hnr Hrecv Hsend Hn2 Hn3 Hn4s Hn4r Hlog].
    constructor; auto.
    - intros f d q Hd. destruct (Hrecv f d q Hd) as [R1 R2]. split; auto. intros Hf. specialize (R2 Hf).
      destruct (aS a f d q); auto. destruct R2 as (j & Hj & Hm & Hg & R2). exists j. split; auto. split; auto. split; auto.
      destruct R2 as [[R2 R3]|R2]; auto. left. split; auto. rewrite Hr. auto.
    - intros f d q Hd. destruct (Hsend f d q Hd) as [R1 R2]. split; auto. intros Hf. specialize (R2 Hf).
      destruct (aS a f d q); auto. destruct R2 as (j & Hj & Hm & R2). exists j. split; auto. split; auto.
      destruct R2 as [(R2 & R3 & R4)|R2]; auto. left. split; auto. split; auto. apply Ha. auto.
    - intros j f d q Hj Hm Hf Hab. apply Hn2; auto. apply Ha. auto.
    - intros j f d q Hj Hm Hf. destruct (Hn3 j f d q Hj Hm Hf) as [X|X]; auto. left. apply Hr. auto.
    - intros r' t n Hn. apply Hn4s. intros X. apply Hn. apply Ha. auto.
    - intros s' t n Hn. apply Hn4r. apply Hr. auto.
  Qed.

  Lemma zupd_cases : forall X (m : Z -> X) a v x, (x = a /\ zupd m a v x = v) \/ (x <> a /\ zupd m a v x = m x).
  Proof.
    intros X m a v x. destruct (Z.eq_dec x a) as [->|Hn]; [left; split; auto; apply zupd_same|right; split; auto; apply zupd_other; auto].
  Qed.

  Lemma exec_sys : forall g r s' o, is_rank lat r -> sys_ok g -> nth_error prog (rs_pc V (sys_rank V g r)) = Some o ->
    exec_mop V lat r o (sys_rank V g r) = Next s' ->
    sys_ok (set_rank V g r (set_pc V s' (S (rs_pc V (sys_rank V g r))))).
  Proof.
    intros g r s' o Hr H Eo Ex. destruct H as [Hp Hl Hk Hn].
    assert (E := exec_ok V lat Hv Hev prog F0 Hprog _ r _ _ _ Hr (Hl r Hr) Eo). rewrite Ex in E.
    destruct E as (E1 & E2 & E3).
    constructor; cbn [sys_net set_rank sys_rank].
    - intros r' Hr'. destruct (zupd_cases _ (sys_rank V g) r (set_pc V s' (S (rs_pc V (sys_rank V g r)))) r') as [[-> ->]|[_ ->]]; auto.
      cbn. apply nth_error_Some. congruence.
    - intros r' Hr'. destruct (zupd_cases _ (sys_rank V g) r (set_pc V s' (S (rs_pc V (sys_rank V g r)))) r') as [[-> ->]|[_ ->]]; auto.
      cbn [rs_pc set_pc]. apply local_set_pc. auto.
    - intros r' f d q Hr' Hd. destruct (zupd_cases _ (sys_rank V g) r (set_pc V s' (S (rs_pc V (sys_rank V g r)))) r') as [[-> ->]|[_ ->]]; auto.
      cbn. destruct (E3 f d q Hd) as [X Y]. destruct (Hk r f d q Hr' Hd). split; intuition congruence.
    - intros s r' t n pl Hs Hr' Hnet. destruct (Hn s r' t n pl Hs Hr' Hnet) as (j & f & d & q & Hj & X).
      exists j, f, d, q. split; auto. cbn.
      destruct (zupd_cases _ (sys_rank V g) r (set_pc V s' (S (rs_pc V (sys_rank V g r)))) s) as [[-> ->]|[_ ->]]; auto. cbn. lia.
  Qed.

  Lemma set_net_cases : forall g s r t n m s' r' t' n',
    (s' = s /\ r' = r /\ t' = t /\ n' = n /\ sys_net V (set_net V g s r t n m) s' r' t' n' = m) \/
    ((s' <> s \/ r' <> r \/ t' <> t \/ n' <> n) /\ sys_net V (set_net V g s r t n m) s' r' t' n' = sys_net V g s' r' t' n').
  Proof.
    intros. cbn. destruct (Z.eqb_spec s' s), (Z.eqb_spec r' r), (Z.eqb_spec t' t), (Nat.eqb_spec n' n); cbn; subst; auto 8.
  Qed.

  (** Facts about a pending send. *)
  Lemma pending_send : forall g r f d q peer t n, is_rank lat r -> sys_ok g ->
    rs_sreq V (sys_rank V g r) (f, d, q) = Pending peer t n ->
    exists j, (j < rs_pc V (sys_rank V g r))%nat /\ msg j f d q /\ dir d /\ to r d <> r /\ peer = to r d /\ t = tagof j /\
      n = cnt r peer t j /\ sys_net V g r peer t n = Absent V /\
      aS (A (rs_pc V (sys_rank V g r))) f d q = STARTED /\
      read_list V (rs_sbuf V (sys_rank V g r) f d) (cn_offset (to_node lat r d) q) (n_sites (to_node lat r d) q) =
             map (fun c => aF (A j) f (neighbour lat c d)) (face lat peer d q).
  Proof.
    intros g r f d q peer t n Hr [Hp Hl Hk Hn] E.
    assert (Hd : dir d).
    { unfold is_direction. destruct (Z_le_dec 0 d), (Z_lt_dec d (2 * Z.of_nat (length (l_size lat)))); try lia;
        exfalso; destruct (Hk r f d q Hr) as [_ X]; try congruence; unfold is_direction; lia. }
    destruct (ro_send _ _ _ _ _ _ _ _ _ (Hl r Hr) f d q Hd) as [S1 S2].
    destruct (Z.eq_dec (to r d) r) as [Et|Et]; [rewrite S1 in E by auto; discriminate|].
    specialize (S2 Et). destruct (aS _ f d q) eqn:ES; try congruence.
    destruct S2 as (j & Hj & Hm & [(R1 & R2 & R3)|R]); [|congruence].
    rewrite R1 in E. inversion E; subst. exists j. repeat (split; auto).
  Qed.

  Lemma pending_recv : forall g r f d q peer t n, is_rank lat r -> sys_ok g ->
    rs_rreq V (sys_rank V g r) (f, d, q) = Pending peer t n ->
    exists j, (j < rs_pc V (sys_rank V g r))%nat /\ msg j f d q /\ dir d /\ from r d <> r /\ peer = from r d /\ t = tagof j /\
      n = cnt peer r t j /\ sys_net V g peer r t n <> Received V /\
      aS (A (rs_pc V (sys_rank V g r))) f d q = STARTED /\
      agree V lat prog F0 j r f d q (aG (A (rs_pc V (sys_rank V g r))) f d).
  Proof.
    intros g r f d q peer t n Hr [Hp Hl Hk Hn] E.
    assert (Hd : dir d).
    { unfold is_direction. destruct (Z_le_dec 0 d), (Z_lt_dec d (2 * Z.of_nat (length (l_size lat)))); try lia;
        exfalso; destruct (Hk r f d q Hr) as [X _]; try congruence; unfold is_direction; lia. }
    destruct (ro_recv _ _ _ _ _ _ _ _ _ (Hl r Hr) f d q Hd) as [S1 S2].
    destruct (Z.eq_dec (from r d) r) as [Et|Et]; [rewrite S1 in E by auto; discriminate|].
    specialize (S2 Et). destruct (aS _ f d q) eqn:ES; [congruence| |destruct S2; congruence].
    destruct S2 as (j & Hj & Hm & Hg & [(R1 & R2)|[R _]]); [|congruence].
    rewrite R1 in E. inversion E; subst. exists j. repeat (split; auto).
  Qed.

  Lemma env_of_msg : forall j f d q s r, msg j f d q -> to s d = r -> env s r (tagof j) j = true.
  Proof. intros j f d q s r Hm <-. eapply msg_env; eauto. Qed.

  Lemma transmit_sys : forall g r k g', is_rank lat r -> sys_ok g -> step V lat prog g (Transmit r k) = Some g' -> sys_ok g'.
  Proof.
    intros g r [[f d] q] g' Hr H E. cbn [step] in E.
    destruct (rs_sreq V (sys_rank V g r) (f, d, q)) as [|peer t n|] eqn:Eq; try discriminate.
    destruct (pending_send g r f d q peer t n Hr H Eq) as (j & Hj & Hm & Hd & Hto & -> & -> & -> & Hab & HS & Hpl).
    rewrite Hpl in E. clear Hpl.
    set (s' := set_sreq V (sys_rank V g r) (kupd (rs_sreq V (sys_rank V g r)) (f, d, q) Complete)) in *.
    set (pl := map (fun c => aF (A j) f (neighbour lat c d)) (face lat (to r d) d q)) in *.
    set (n := cnt r (to r d) (tagof j) j) in *.
    inversion E; subst g'. clear E.
    set (g1 := set_rank V g r s').
    assert (EV := env_of_msg j f d q r (to r d) Hm eq_refl).
    destruct H as [Hp Hl Hk Hn].
    assert (Epc : forall r', rs_pc V (zupd (sys_rank V g) r s' r') = rs_pc V (sys_rank V g r')).
    { intros r'. destruct (zupd_cases _ (sys_rank V g) r s' r') as [[-> ->]|[_ ->]]; auto. }
    constructor; cbn [sys_rank set_net set_rank]; try change (sys_rank V g1) with (zupd (sys_rank V g) r s').
    - intros r' Hr'. rewrite Epc. auto.
    - intros r' Hr'. rewrite Epc. destruct (Z.eq_dec r' r) as [->|Hne].
      + rewrite zupd_same. assert (L := Hl r Hr). set (k := rs_pc V (sys_rank V g r)) in *.
        destruct L as [Hmem Hstat Hnon Htag Hns Hnr Hrecv Hsend Hn2 Hn3 Hn4s Hn4r Hlog].
        assert (NR : forall s0 t0 n0, sys_net V (set_net V g1 r (to r d) (tagof j) n (InFlight V pl)) s0 r t0 n0 = sys_net V g s0 r t0 n0).
        { intros. destruct (set_net_cases g1 r (to r d) (tagof j) n (InFlight V pl) s0 r t0 n0) as [(_ & X & _)|[_ ->]]; [congruence|auto]. }
        assert (Ks : forall f' d' q', (f', d', q') <> (f, d, q) -> rs_sreq V s' (f', d', q') = rs_sreq V (sys_rank V g r) (f', d', q')).
        { intros. apply (kupd_neq _ (rs_sreq V (sys_rank V g r))). auto. }
        constructor; auto.
        * intros f' d' q' Hd'. destruct (Hrecv f' d' q' Hd') as [R1 R2]. split; auto. intros Hf. specialize (R2 Hf).
          fold g1. cbn [rs_rreq s' set_sreq rs_mem]. destruct (aS (A k) f' d' q'); auto.
          destruct R2 as (j' & Hj' & Hm' & Hg & R2). exists j'. rewrite NR. auto.
        * intros f' d' q' Hd'. destruct (Hsend f' d' q' Hd') as [R1 R2]. fold g1.
          destruct (key_dec (f', d', q') (f, d, q)) as [Ek|Ek].
          { inversion Ek; subst f' d' q'. split; [contradiction|]. intros _. rewrite HS. exists j. split; auto. split; auto.
            right. cbn. apply kupd_eq. }
          { split; [intros X; rewrite Ks by auto; auto|]. intros Hf. specialize (R2 Hf).
            change (rs_sbuf V s') with (rs_sbuf V (sys_rank V g r)). rewrite Ks by auto. destruct (aS (A k) f' d' q'); auto. destruct R2 as (j' & Hj' & Hm' & R2).
            exists j'. split; auto. split; auto. destruct R2 as [(R3 & R4 & R5)|R3]; auto. left. split; auto. split; auto.
            destruct (set_net_cases g1 r (to r d) (tagof j) n (InFlight V pl) r (to r d') (tagof j') (cnt r (to r d') (tagof j') j'))
              as [(_ & X1 & X2 & X3 & _)|[_ ->]]; [|exact R5].
            exfalso. apply Ek. assert (EV' := env_of_msg j' f' d' q' r (to r d) Hm' X1). rewrite X1, X2 in X3. unfold n in X3.
            rewrite X2 in EV'. assert (Y := cnt_inj V lat prog F0 _ _ _ _ _ EV' EV X3). subst j'.
            destruct (msg_fun V prog F0 _ _ _ _ _ _ _ Hm Hm') as (<- & <- & <-). auto. }
        * intros j' f' d' q' Hj' Hm' Hf Ha. fold g1 in Ha.
          destruct (set_net_cases g1 r (to r d) (tagof j) n (InFlight V pl) r (to r d') (tagof j') (cnt r (to r d') (tagof j') j'))
              as [(_ & X1 & X2 & X3 & X4)|[Xn X4]]; rewrite X4 in Ha; [discriminate|].
          assert (X := Hn2 j' f' d' q' Hj' Hm' Hf Ha).
          destruct (key_dec (f', d', q') (f, d, q)) as [Ek|Ek].
          { inversion Ek; subst f' d' q'. rewrite X in Eq. inversion Eq. unfold n in Xn. intuition congruence. }
          { rewrite Ks by auto. auto. }
        * intros j' f' d' q' Hj' Hm' Hf. fold g1. rewrite NR. apply Hn3; auto.
        * intros r0 t0 n0 Hn0. fold g1 in Hn0.
          destruct (set_net_cases g1 r (to r d) (tagof j) n (InFlight V pl) r r0 t0 n0)
              as [(_ & -> & -> & -> & _)|[Xn X4]]; [|rewrite X4 in Hn0; apply Hn4s; auto].
          apply cnt_lt; auto.
        * intros s0 t0 n0. fold g1. rewrite NR. apply Hn4r.
      + rewrite zupd_other by auto. fold g1. apply (local_net (sys_net V g)); auto.
        * intros r0 t0 n0. destruct (set_net_cases g1 r (to r d) (tagof j) n (InFlight V pl) r' r0 t0 n0) as [(X & _)|[_ ->]]; [congruence|]. tauto.
        * intros s0 t0 n0. destruct (set_net_cases g1 r (to r d) (tagof j) n (InFlight V pl) s0 r' t0 n0) as [(-> & -> & -> & -> & ->)|[_ ->]]; [|tauto].
          rewrite Hab. split; discriminate.
    - intros r' f' d' q' Hr' Hd'. destruct (Hk r' f' d' q' Hr' Hd') as [X Y].
      destruct (zupd_cases _ (sys_rank V g) r s' r') as [[-> ->]|[_ ->]]; auto. split; auto. cbn.
      rewrite kupd_neq; auto. intros Ek; inversion Ek; subst; contradiction.
    - intros s0 r0 t0 n0 pl0 Hs0 Hr0. cbn [sys_rank set_net]. change (sys_rank V g1) with (zupd (sys_rank V g) r s'). rewrite Epc.
      destruct (set_net_cases g1 r (to r d) (tagof j) n (InFlight V pl) s0 r0 t0 n0) as [(-> & -> & -> & -> & ->)|[_ ->]].
      + intros X. inversion X; subst pl0. exists j, f, d, q. repeat (split; auto).
      + intros X. apply (Hn s0 r0 t0 n0 pl0); auto.
  Qed.

  Lemma deliver_sys : forall g r k g', is_rank lat r -> sys_ok g -> step V lat prog g (Deliver r k) = Some g' -> sys_ok g'.
  Proof.
    intros g r [[f d] q] g' Hr H E. cbn [step] in E.
    destruct (rs_rreq V (sys_rank V g r) (f, d, q)) as [|peer t n|] eqn:Eq; try discriminate.
    destruct (sys_net V g peer r t n) as [|pl|] eqn:En; try discriminate.
    destruct (pending_recv g r f d q peer t n Hr H Eq) as (j & Hj & Hm & Hd & Hfr & -> & -> & -> & _ & HS & Hag).
    remember (from r d) as p eqn:Efrom.
    assert (Hp' : is_rank lat p) by (subst p; apply from_is_rank; auto).
    assert (Hto : to p d = r) by (apply (peers_match lat Hv p r d); auto).
    assert (EV := env_of_msg j f d q p r Hm Hto).
    assert (Hpl : pl = map (fun c => aG (A (rs_pc V (sys_rank V g r))) f d (neighbour lat c d)) (face lat r d q)).
    { destruct (so_net _ H p r _ _ pl Hp' Hr En) as (j' & f' & d' & q' & Hj' & Hm' & Ht' & _ & Etag & Ecnt & Epl).
      assert (EV' := env_of_msg j' f' d' q' p r Hm' Ht'). rewrite <- Etag in EV'.
      assert (Y := cnt_inj V lat prog F0 _ _ _ _ _ EV EV' Ecnt). subst j'.
      destruct (msg_fun V prog F0 _ _ _ _ _ _ _ Hm Hm') as (<- & <- & <-). rewrite Epl.
      apply map_ext_in. intros c Hc. apply Hag; auto. }
    set (s' := set_rreq V (set_mem V (sys_rank V g r) (zupd (rs_mem V (sys_rank V g r)) f
                 (store_list (rs_mem V (sys_rank V g r) f) (cn_offset (from_node lat r d) q) pl)))
                 (kupd (rs_rreq V (sys_rank V g r)) (f, d, q) Complete)) in *.
    set (n := cnt p r (tagof j) j) in *.
    inversion E; subst g'. clear E.
    set (g1 := set_rank V g r s').
    destruct H as [Hp Hl Hk Hn].
    assert (Epc : forall r', rs_pc V (zupd (sys_rank V g) r s' r') = rs_pc V (sys_rank V g r')).
    { intros r'. destruct (zupd_cases _ (sys_rank V g) r s' r') as [[-> ->]|[_ ->]]; auto. }
    constructor; cbn [sys_rank set_net set_rank]; try change (sys_rank V g1) with (zupd (sys_rank V g) r s').
    - intros r' Hr'. rewrite Epc. auto.
    - intros r' Hr'. rewrite Epc. destruct (Z.eq_dec r' r) as [->|Hne].
      + rewrite zupd_same. assert (L := Hl r Hr). set (k := rs_pc V (sys_rank V g r)) in *.
        destruct L as [Hmem Hstat Hnon Htag Hns Hnr Hrecv Hsend Hn2 Hn3 Hn4s Hn4r Hlog].
        assert (NS : forall r0 t0 n0, sys_net V (set_net V g1 p r (tagof j) n (Received V)) r r0 t0 n0 = sys_net V g r r0 t0 n0).
        { intros. destruct (set_net_cases g1 p r (tagof j) n (Received V) r r0 t0 n0) as [(X & _)|[_ ->]]; [congruence|auto]. }
        assert (He := A_excl V prog F0 k f d).
        assert (HH : forall f' d' q', dir d' -> (f', d', q') <> (f, d, q) -> aS (A k) f' d' q' <> NOT_DONE ->
             halo lat (rs_mem V (sys_rank V g r) f') r d' q' (aG (A k) f' d') ->
             halo lat (rs_mem V s' f') r d' q' (aG (A k) f' d')).
        { intros f' d' q' Hd' Hne HS' Hh. change (rs_mem V s') with (zupd (rs_mem V (sys_rank V g r)) f (store_list (rs_mem V (sys_rank V g r) f) (cn_offset (from_node lat r d) q) pl)).
          destruct (zupd_cases _ (rs_mem V (sys_rank V g r)) f (store_list (rs_mem V (sys_rank V g r) f) (cn_offset (from_node lat r d) q) pl) f') as [[-> ->]|[_ ->]]; auto.
          apply halo_store_other; auto.
          - intros <-. assert (q' <> q) by (intros ->; auto). unfold excl in He. unfold compatible.
            destruct q, q'; auto; try congruence; exfalso; destruct He; congruence.
          - rewrite Hpl, map_length. auto. }
        assert (Kr : forall f' d' q', (f', d', q') <> (f, d, q) -> rs_rreq V s' (f', d', q') = rs_rreq V (sys_rank V g r) (f', d', q')).
        { intros. apply (kupd_neq _ (rs_rreq V (sys_rank V g r))). auto. }
        constructor; auto.
        * intros f' c Hc. change (rs_mem V s') with (zupd (rs_mem V (sys_rank V g r)) f (store_list (rs_mem V (sys_rank V g r) f) (cn_offset (from_node lat r d) q) pl)).
          destruct (zupd_cases _ (rs_mem V (sys_rank V g r)) f (store_list (rs_mem V (sys_rank V g r) f) (cn_offset (from_node lat r d) q) pl) f') as [[-> ->]|[_ ->]]; auto.
          rewrite store_list_sites by auto. auto.
        * intros f' d' q' Hd'. destruct (Hrecv f' d' q' Hd') as [R1 R2]. fold g1.
          destruct (key_dec (f', d', q') (f, d, q)) as [Ek|Ek].
          { inversion Ek; subst f' d' q'. split; [congruence|]. intros _. rewrite HS. exists j. split; auto. split; auto. split; auto.
            right. split; [cbn; apply kupd_eq|]. change (rs_mem V s') with (zupd (rs_mem V (sys_rank V g r)) f (store_list (rs_mem V (sys_rank V g r) f) (cn_offset (from_node lat r d) q) pl)). rewrite zupd_same. apply halo_store; auto. }
          { specialize (HH f' d' q' Hd' Ek).
            split; [intros X; rewrite Kr by auto; auto|]. intros Hf. specialize (R2 Hf).
            rewrite Kr by auto. destruct (aS (A k) f' d' q') eqn:ES'; auto.
            - destruct R2 as (j' & Hj' & Hm' & Hg & R2).
              exists j'. split; auto. split; auto. split; auto. destruct R2 as [(R3 & R4)|[R3 R4]]; [left|right; split; auto; apply HH; auto; discriminate].
              split; auto.
              destruct (set_net_cases g1 p r (tagof j) n (Received V) (from r d') r (tagof j') (cnt (from r d') r (tagof j') j'))
                as [(X1 & _ & X2 & X3 & _)|[_ ->]]; [|exact R4].
              exfalso. apply Ek.
              assert (Ht' : to p d' = r).
              { apply (peers_match lat Hv p r d'); auto. }
              assert (EV' := env_of_msg j' f' d' q' p r Hm' Ht'). rewrite X1, X2 in X3. unfold n in X3.
              rewrite X2 in EV'. assert (Y := cnt_inj V lat prog F0 _ _ _ _ _ EV' EV X3). subst j'.
              destruct (msg_fun V prog F0 _ _ _ _ _ _ _ Hm Hm') as (<- & <- & <-). auto.
            - destruct R2 as [R2 R3]. split; auto. apply HH; auto. discriminate. }
        * intros f' d' q' Hd'. destruct (Hsend f' d' q' Hd') as [R1 R2]. split; auto. intros Hf. specialize (R2 Hf).
          fold g1. cbn [rs_sreq s' set_rreq set_mem rs_sbuf]. destruct (aS (A k) f' d' q'); auto.
          destruct R2 as (j' & Hj' & Hm' & R2). exists j'. rewrite NS. auto.
        * intros j' f' d' q' Hj' Hm' Hf. fold g1. rewrite NS. apply Hn2; auto.
        * intros j' f' d' q' Hj' Hm' Hf. fold g1.
          destruct (set_net_cases g1 p r (tagof j) n (Received V) (from r d') r (tagof j') (cnt (from r d') r (tagof j') j'))
              as [(_ & _ & _ & _ & ->)|[Xn ->]]; auto.
          destruct (Hn3 j' f' d' q' Hj' Hm' Hf) as [X|X]; auto.
          destruct (key_dec (f', d', q') (f, d, q)) as [Ek|Ek].
          { inversion Ek; subst f' d' q'. rewrite X in Eq. inversion Eq. unfold n in Xn. intuition congruence. }
          { right. rewrite Kr by auto. auto. }
        * intros r0 t0 n0. fold g1. rewrite NS. apply Hn4s.
        * intros s0 t0 n0 Hn0. fold g1 in Hn0.
          destruct (set_net_cases g1 p r (tagof j) n (Received V) s0 r t0 n0)
              as [(-> & _ & -> & -> & _)|[Xn X4]]; [|rewrite X4 in Hn0; apply Hn4r; auto].
          apply cnt_lt; auto.
      + rewrite zupd_other by auto. fold g1. apply (local_net (sys_net V g)); auto.
        * intros r0 t0 n0. destruct (set_net_cases g1 p r (tagof j) n (Received V) r' r0 t0 n0) as [(-> & -> & -> & -> & ->)|[_ ->]]; [|tauto].
          rewrite En. split; discriminate.
        * intros s0 t0 n0. destruct (set_net_cases g1 p r (tagof j) n (Received V) s0 r' t0 n0) as [(_ & X & _)|[_ ->]]; [congruence|tauto].
    - intros r' f' d' q' Hr' Hd'. destruct (Hk r' f' d' q' Hr' Hd') as [X Y].
      destruct (zupd_cases _ (sys_rank V g) r s' r') as [[-> ->]|[_ ->]]; auto. split; auto. cbn.
      rewrite kupd_neq; auto. intros Ek; inversion Ek; subst; contradiction.
    - intros s0 r0 t0 n0 pl0 Hs0 Hr0. cbn [sys_rank set_net]. change (sys_rank V g1) with (zupd (sys_rank V g) r s'). rewrite Epc.
      destruct (set_net_cases g1 p r (tagof j) n (Received V) s0 r0 t0 n0) as [(-> & -> & -> & -> & ->)|[_ ->]].
      + discriminate.
      + intros X. apply (Hn s0 r0 t0 n0 pl0); auto.
  Qed.

  Definition label_rank (l : label) : Z := match l with Exec r => r | Transmit r _ => r | Deliver r _ => r end.

  Lemma step_sys : forall g l g', is_rank lat (label_rank l) -> sys_ok g -> step V lat prog g l = Some g' -> sys_ok g'.
  Proof.
    intros g l g' Hr H E. destruct l as [r|r k|r k]; cbn in Hr.
    - cbn [step] in E. destruct (nth_error prog _) as [o|] eqn:Eo; [|discriminate].
      destruct (exec_mop V lat r o (sys_rank V g r)) as [s'| | |] eqn:Ex; try discriminate.
      inversion E; subst. eapply exec_sys; eauto.
    - eapply transmit_sys; eauto.
    - eapply deliver_sys; eauto.
  Qed.

  Lemma init_sys : forall mem sb, initial_fields lat mem F0 -> sys_ok (init_system V mem sb).
  Proof.
    intros mem sb Hm. constructor.
    - intros. cbn. lia.
    - intros r Hr. constructor; cbn [sys_rank init_system init_rank rs_pc rs_mem rs_stat rs_tag rs_nsend rs_nrecv rs_log]; auto.
      + intros. discriminate.
      + intros f d q Hd. split; intros; reflexivity.
      + intros f d q Hd. split; intros; reflexivity.
      + intros. lia.
      + intros. lia.
      + intros r' t n Hn. exfalso. apply Hn. reflexivity.
      + intros s' t n Hn. discriminate.
      + constructor.
    - intros. split; auto.
    - intros s r t n pl _ _ X. discriminate.
  Qed.

  Lemma reachable_sys : forall mem sb g, initial_fields lat mem F0 ->
    reachable V lat prog (init_system V mem sb) g -> sys_ok g.
  Proof.
    intros mem sb g Hm H. induction H.
    - apply init_sys; auto.
    - eapply step_sys; eauto.
  Qed.
End Sys.
