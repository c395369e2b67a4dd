(** Proofs about message tags. *)
From Verif Require Import Common LayoutModel LayoutSpec LayoutProofs7 GatherModel GatherProofs3 TagModel TagSpec.

Lemma with_envelope_app : forall b c p t e1 e2, with_envelope b c p t (e1 ++ e2) = with_envelope b c p t e1 ++ with_envelope b c p t e2.
Proof. intros. unfold with_envelope. rewrite filter_app, map_app. auto. Qed.

Section Ranks.
  Variable lats : nat -> lattice.
  Variable comm : nat -> Z.
  Hypothesis Hv : forall L, valid_lattice (lats L).
  Variables A B : Z.
  Hypothesis HA : forall L, is_rank (lats L) A.
  Hypothesis HB : forall L, is_rank (lats L) B.
  Hypothesis HAB : A <> B.

  Definition in_step (a b : tag_state) : Prop :=
    ts_tag a = ts_tag b /\
    forall L f d, noncomm (lats L) A d = false -> noncomm (lats L) B d = false ->
      ts_stat a L f d = ts_stat b L f d.

  Lemma in_step_put : forall a b L f d va vb, in_step a b ->
    (noncomm (lats L) A d = false -> noncomm (lats L) B d = false -> va = vb) ->
    in_step (put_lstat a L f d va) (put_lstat b L f d vb).
  Proof.
    intros a b L f d va vb [H1 H2] Hab. split; auto. intros L' f' d' N1 N2. cbn [put_lstat ts_stat].
    destruct ((L' =? L)%nat && (f' =? f) && (d' =? d)) eqn:E; auto.
    apply andb_prop in E. destruct E as [E E3]. apply andb_prop in E. destruct E as [E1 E2].
    apply Nat.eqb_eq in E1. apply Z.eqb_eq in E3. subst. auto.
  Qed.

  Lemma in_step_tag : forall a b t, in_step a b -> in_step (mkTS t (ts_stat a)) (mkTS t (ts_stat b)).
  Proof. intros a b t [H1 H2]. split; auto. Qed.

  (** The calls of a halo exchange: what A sends to B is what B receives from A. *)
  Lemma halo_pair : forall k L f d qa qb tag c t, is_direction (l_size (lats L)) d ->
    (noncomm (lats L) A d = false -> noncomm (lats L) B d = false -> qa = qb) ->
    with_envelope true c B t (receive_event lats comm A k L f d qa tag ++ send_event lats comm A k L f d qa tag) =
    with_envelope false c A t (receive_event lats comm B k L f d qb tag ++ send_event lats comm B k L f d qb tag).
  Proof.
    intros k L f d qa qb tag c t Hd Hq. rewrite !with_envelope_app. unfold receive_event, send_event.
    assert (HM := peers_match (lats L) (Hv L) A B d (HA L) (HB L) HAB Hd).
    assert (HS := messages_match (lats L) (Hv L) d B Hd (HB L)). cbv zeta in HS.
    set (fa := from_node (lats L) A d) in *. set (ta := to_node (lats L) A d) in *.
    set (fb := from_node (lats L) B d) in *. set (tb := to_node (lats L) B d) in *.
    assert (E1 : forall l, with_envelope true c B t (if cn_rank fa =? A then [] else [mkEvent false (comm L) (cn_rank fa) tag l]) = []).
    { intros l. destruct (cn_rank fa =? A); reflexivity. }
    assert (E2 : forall l, with_envelope false c A t (if cn_rank tb =? B then [] else [mkEvent true (comm L) (cn_rank tb) tag l]) = []).
    { intros l. destruct (cn_rank tb =? B); reflexivity. }
    rewrite E1, E2, app_nil_r. cbn [app].
    destruct (Z.eq_dec (cn_rank ta) B) as [EB|NB].
    - assert (EA : cn_rank fb = A) by (apply HM; auto).
      replace (cn_rank ta =? A) with false by (symmetry; apply Z.eqb_neq; congruence).
      replace (cn_rank fb =? B) with false by (symmetry; apply Z.eqb_neq; congruence).
      rewrite EA, EB in *. destruct HS as (_ & _ & HS); auto.
      assert (Eq : qa = qb).
      { apply Hq; unfold noncomm; [fold fa; fold ta; rewrite EB|fold fb; fold tb; rewrite EA].
        - replace (B =? A) with false by (symmetry; apply Z.eqb_neq; congruence). apply andb_false_r.
        - replace (A =? B) with false by (symmetry; apply Z.eqb_neq; congruence). reflexivity. }
      subst qb. unfold with_envelope. cbn [filter e_send e_comm e_peer e_tag Bool.eqb andb]. rewrite !Z.eqb_refl, !andb_true_r.
      destruct ((comm L =? c) && (tag =? t)); [|reflexivity]. cbn [map e_msg].
      replace (n_sites ta qa) with (n_sites fb qa) by (symmetry; apply HS). reflexivity.
    - assert (NA : cn_rank fb <> A) by (intros E; apply NB; apply HM; auto).
      assert (X1 : (cn_rank ta =? B) = false) by (apply Z.eqb_neq; auto).
      assert (X2 : (cn_rank fb =? A) = false) by (apply Z.eqb_neq; auto).
      unfold with_envelope.
      destruct (cn_rank ta =? A), (cn_rank fb =? B); cbn [filter map e_send e_comm e_peer e_tag Bool.eqb andb];
        rewrite ?X1, ?X2, ?andb_false_r; cbn [andb]; reflexivity.
  Qed.

  (** A rank without partner in the direction posts nothing to the other. *)
  Lemma halo_none : forall k L f d q tag c t, is_direction (l_size (lats L)) d ->
    (noncomm (lats L) A d = true -> with_envelope false c A t (receive_event lats comm B k L f d q tag ++ send_event lats comm B k L f d q tag) = []) /\
    (noncomm (lats L) B d = true -> with_envelope true c B t (receive_event lats comm A k L f d q tag ++ send_event lats comm A k L f d q tag) = []).
  Proof.
    intros k L f d q tag c t Hd.
    assert (HM := peers_match (lats L) (Hv L) A B d (HA L) (HB L) HAB Hd). unfold noncomm.
    rewrite !with_envelope_app. unfold receive_event, send_event, with_envelope. split; intros N.
    - apply andb_prop in N. destruct N as [N1 N2]. apply Z.eqb_eq in N2.
      assert (X : (cn_rank (from_node (lats L) B d) =? A) = false) by (apply Z.eqb_neq; intros E; apply HM in E; congruence).
      destruct (cn_rank (from_node (lats L) B d) =? B), (cn_rank (to_node (lats L) B d) =? B);
        cbn [filter map e_send e_comm e_peer e_tag Bool.eqb andb]; rewrite ?X, ?andb_false_r; reflexivity.
    - apply andb_prop in N. destruct N as [N1 N2]. apply Z.eqb_eq in N1.
      assert (X : (cn_rank (to_node (lats L) A d) =? B) = false) by (apply Z.eqb_neq; intros E; apply HM in E; congruence).
      destruct (cn_rank (from_node (lats L) A d) =? A), (cn_rank (to_node (lats L) A d) =? A);
        cbn [filter map e_send e_comm e_peer e_tag Bool.eqb andb]; rewrite ?X, ?andb_false_r; reflexivity.
  Qed.

  Lemma step_pair : forall k o a b a' b' ea eb, op_ok lats o -> in_step a b ->
    tag_step lats comm A k o a = Some (a', ea) -> tag_step lats comm B k o b = Some (b', eb) ->
    in_step a' b' /\ forall c t, with_envelope true c B t ea = with_envelope false c A t eb.
  Proof.
    intros k o a b a' b' ea eb Hop Hs Ea Eb. assert (Hs' := Hs). destruct Hs' as [Ht Hst].
    destruct o as [L f d p|L f d p|L f d p|L src dst len]; cbn [op_ok tag_step] in *.
    - rewrite <- Ht in Eb. set (tag := next_tag (ts_tag a)) in *.
      assert (HT := in_step_tag a b tag Hs).
      destruct (noncomm (lats L) A d) eqn:NA.
      { assert (X : in_step a' b' /\ ea = [] /\ (eb = [] \/ exists q, eb = receive_event lats comm B k L f d q tag ++ send_event lats comm B k L f d q tag)).
        { unfold check_communication in Ea at 1. 
          destruct (is_gathered (ts_stat a L f d) p); injection Ea as <- <-;
          destruct (check_communication (noncomm (lats L) B d) (ts_stat b L f d) p); injection Eb as <- <-;
          (split; [|split; eauto]); auto;
          try (apply in_step_put; [auto|congruence]);
          (split; auto; cbn [put_lstat ts_stat]; intros L' f' d' N1 N2;
           match goal with |- context [if ?x then _ else _] => destruct x eqn:E end; auto;
           apply andb_prop in E; destruct E as [E E3]; apply andb_prop in E; destruct E as [E1 E2];
           apply Nat.eqb_eq in E1; apply Z.eqb_eq in E3; subst; congruence). }
        destruct X as (X1 & -> & X2). split; auto. intros c t. destruct X2 as [->|(q & ->)]; [reflexivity|].
        symmetry. apply (halo_none k L f d q tag c t Hop). auto. }
      destruct (noncomm (lats L) B d) eqn:NB.
      { assert (X : in_step a' b' /\ eb = [] /\ (ea = [] \/ exists q, ea = receive_event lats comm A k L f d q tag ++ send_event lats comm A k L f d q tag)).
        { unfold check_communication in Eb at 1. 
          destruct (is_gathered (ts_stat b L f d) p); injection Eb as <- <-;
          destruct (check_communication false (ts_stat a L f d) p); injection Ea as <- <-;
          (split; [|split; eauto]); auto;
          try (apply in_step_put; [auto|congruence]);
          (split; auto; cbn [put_lstat ts_stat]; intros L' f' d' N1 N2;
           match goal with |- context [if ?x then _ else _] => destruct x eqn:E end; auto;
           apply andb_prop in E; destruct E as [E E3]; apply andb_prop in E; destruct E as [E1 E2];
           apply Nat.eqb_eq in E1; apply Z.eqb_eq in E3; subst; congruence). }
        destruct X as (X1 & -> & X2). split; auto. intros c t. destruct X2 as [->|(q & ->)]; [reflexivity|].
        apply (halo_none k L f d q tag c t Hop). auto. }
      rewrite <- (Hst L f d NA NB) in Eb.
      destruct (check_communication false (ts_stat a L f d) p); injection Ea as <- <-; injection Eb as <- <-;
        (split; [try apply in_step_put; auto|]); intros c t; auto.
      apply halo_pair; auto.
    - destruct (wait_stat (noncomm (lats L) A d) (ts_stat a L f d) p) as [x|] eqn:E1; [|discriminate].
      destruct (wait_stat (noncomm (lats L) B d) (ts_stat b L f d) p) as [y|] eqn:E2; [|discriminate].
      injection Ea as <- <-. injection Eb as <- <-. split; [|reflexivity]. apply in_step_put; auto.
      intros N1 N2. rewrite N1 in E1. rewrite N2, <- (Hst L f d N1 N2) in E2. congruence.
    - destruct (drop_stat (noncomm (lats L) A d) (ts_stat a L f d) (opp_parity p)) as [x|] eqn:E1; [|discriminate].
      destruct (drop_stat (noncomm (lats L) B d) (ts_stat b L f d) (opp_parity p)) as [y|] eqn:E2; [|discriminate].
      injection Ea as <- <-. injection Eb as <- <-. split; [|reflexivity]. apply in_step_put; auto.
      intros N1 N2. rewrite N1 in E1. rewrite N2, <- (Hst L f d N1 N2) in E2. congruence.
    - injection Ea as <- <-. injection Eb as <- <-. split; auto. intros c t. rewrite !with_envelope_app.
      unfold with_envelope.
      destruct (A =? src) eqn:A1, (A =? dst) eqn:A2, (B =? src) eqn:B1, (B =? dst) eqn:B2;
        cbn [filter map e_send e_comm e_peer e_tag Bool.eqb andb app]; rewrite ?A1, ?A2, ?B1, ?B2; try lia;
        repeat (match goal with |- context [?x =? ?y] => destruct (Z.eqb_spec x y) end; subst; cbn [andb filter map app e_msg]; try reflexivity; try lia);
        reflexivity.
  Qed.

  Lemma run_pair : forall prog k a b ea eb, Forall (op_ok lats) prog -> in_step a b ->
    tag_run lats comm A k prog a = Some ea -> tag_run lats comm B k prog b = Some eb ->
    forall c t, with_envelope true c B t ea = with_envelope false c A t eb.
  Proof.
    induction prog as [|o prog IH]; intros k a b ea eb Hp Hs Ea Eb c t; cbn [tag_run] in *.
    - injection Ea as <-. injection Eb as <-. reflexivity.
    - inversion Hp as [|? ? Ho Hp']; subst.
      destruct (tag_step lats comm A k o a) as [[a' e1]|] eqn:S1; [|discriminate].
      destruct (tag_step lats comm B k o b) as [[b' e2]|] eqn:S2; [|discriminate].
      destruct (tag_run lats comm A (S k) prog a') as [e3|] eqn:R1; [|discriminate].
      destruct (tag_run lats comm B (S k) prog b') as [e4|] eqn:R2; [|discriminate].
      injection Ea as <-. injection Eb as <-.
      destruct (step_pair k o a b a' b' e1 e2 Ho Hs S1 S2) as [H1 H2].
      rewrite !with_envelope_app, (H2 c t), (IH _ _ _ _ _ Hp' H1 R1 R2). auto.
  Qed.
End Ranks.

Section Prefixes.
  Variable lats : nat -> lattice.
  Variable comm : nat -> Z.

  (** A longer part of the program continues the calls of a shorter one. *)
  Lemma run_prefix : forall r prog k s i j ej, (i <= j)%nat ->
    tag_run lats comm r k (firstn j prog) s = Some ej ->
    exists ei rest, tag_run lats comm r k (firstn i prog) s = Some ei /\ ej = ei ++ rest.
  Proof.
    intros r. induction prog as [|o prog IH]; intros k s i j ej Hij E.
    - rewrite firstn_nil in *. cbn in *. exists [], []. injection E as <-. auto.
    - destruct i as [|i]; [exists [], ej; auto|]. destruct j as [|j]; [lia|]. cbn [firstn tag_run] in *.
      destruct (tag_step lats comm r k o s) as [[s' ev]|]; [|discriminate].
      destruct (tag_run lats comm r (S k) (firstn j prog) s') as [ej'|] eqn:E'; [|discriminate].
      injection E as <-. destruct (IH (S k) s' i j ej') as (ei & rest & E1 & ->); [lia|auto|].
      rewrite E1. exists (ev ++ ei), rest. rewrite app_assoc. auto.
  Qed.

  Lemma next_tag_cycle : forall n, 0 <= n -> next_tag (100 + n mod 401) = 100 + (n + 1) mod 401.
  Proof.
    intros n Hn. unfold next_tag. assert (H := Z.mod_pos_bound n 401 ltac:(lia)).
    destruct (Z.eq_dec (n mod 401) 400) as [E|E].
    - rewrite E. replace (500 <? 100 + 400 + 1) with true by reflexivity.
      replace ((n + 1) mod 401) with 0; [lia|]. rewrite <- Z.add_mod_idemp_l by lia. rewrite E. reflexivity.
    - replace (500 <? 100 + n mod 401 + 1) with false by (symmetry; apply Z.ltb_ge; lia).
      rewrite <- (Z.add_mod_idemp_l n) by lia. rewrite (Z.mod_small (n mod 401 + 1)) by lia. lia.
  Qed.

  Definition tag_of (n : Z) : Z := 100 + n mod 401.

  Lemma step_tags : forall r k o s s' ev, tag_step lats comm r k o s = Some (s', ev) ->
    ts_tag s' = (if is_start o then next_tag (ts_tag s) else ts_tag s) /\
    (forall e, In e ev -> match e_msg e with Halo k' _ _ _ _ _ => k' = k /\ is_start o = true /\ e_tag e = ts_tag s' | Point _ _ _ _ => True end).
  Proof.
    intros r k o s s' ev E. destruct o as [L f d p|L f d p|L f d p|L src dst len]; cbn [tag_step is_start] in *.
    - destruct (check_communication (noncomm (lats L) r d) (ts_stat s L f d) p); injection E as <- <-; (split; [reflexivity|]);
        try (intros e []).
      intros e He. unfold receive_event, send_event in He. apply in_app_or in He.
      destruct He as [He|He];
        [destruct (cn_rank (from_node (lats L) r d) =? r)|destruct (cn_rank (to_node (lats L) r d) =? r)];
        cbn [In] in He; try contradiction; destruct He as [<-|[]]; cbn; auto.
    - destruct (wait_stat _ _ _); [|discriminate]. injection E as <- <-. split; [reflexivity|]. intros e [].
    - destruct (drop_stat _ _ _); [|discriminate]. injection E as <- <-. split; [reflexivity|]. intros e [].
    - injection E as <- <-. split; [reflexivity|]. intros e He. apply in_app_or in He.
      destruct He as [He|He]; [destruct (r =? src)|destruct (r =? dst)]; cbn [In] in He; try contradiction; destruct He as [<-|[]]; cbn; auto.
  Qed.

  Lemma run_tags : forall r prog k n s ev, 0 <= n -> ts_tag s = tag_of n -> tag_run lats comm r k prog s = Some ev ->
    forall e, In e ev -> match e_msg e with
      | Halo k' _ _ _ _ _ => (k <= k')%nat /\ e_tag e = tag_of (n + count_starts (firstn (S k' - k) prog))
      | Point _ _ _ _ => True end.
  Proof.
    intros r. induction prog as [|o prog IH]; intros k n s ev Hn Ht E e He; cbn [tag_run] in *.
    - injection E as <-. destruct He.
    - destruct (tag_step lats comm r k o s) as [[s' e1]|] eqn:S1; [|discriminate].
      destruct (tag_run lats comm r (S k) prog s') as [e2|] eqn:R1; [|discriminate]. injection E as <-.
      destruct (step_tags r k o s s' e1 S1) as [T1 T2].
      assert (Hts : ts_tag s' = tag_of (n + count_starts [o])).
      { unfold count_starts. cbn [filter]. rewrite T1, Ht. destruct (is_start o); cbn [length].
        - unfold tag_of. rewrite next_tag_cycle by auto. auto.
        - unfold tag_of. f_equal. f_equal. lia. }
      apply in_app_or in He. destruct He as [He|He].
      + specialize (T2 e He). destruct (e_msg e) as [k' ? ? ? ? ?|]; auto. destruct T2 as (-> & Hi & Hg).
        split; auto. replace (S k - k)%nat with 1%nat by lia. cbn [firstn]. rewrite Hg, Hts. destruct prog; reflexivity.
      + assert (H0 : 0 <= n + count_starts [o]) by (unfold count_starts; lia).
        specialize (IH (S k) _ s' e2 H0 Hts R1 e He). destruct (e_msg e) as [k' ? ? ? ? ?|]; auto.
        destruct IH as [I1 I2]. split; [lia|]. rewrite I2. f_equal. rewrite <- Z.add_assoc. f_equal.
        replace (S k' - k)%nat with (S (S k' - S k)) by lia. cbn [firstn]. unfold count_starts. cbn [filter].
        destruct (is_start o); cbn [length]; lia.
  Qed.
End Prefixes.
